(** Proofs for C59: reading text. *)
From Coq Require Import List Arith Bool ZArith Ascii Lia.
From Verif Require Import Base BaseProofs Num MeshModel MeshSpec UtilsModel TriModel TriSpec ObjProofs.
Import ListNotations.
Local Open Scope list_scope.
Local Open Scope nat_scope.
Open Scope res_scope.

(** ** Characters *)
Ltac chars H := unfold space, digit in H; cbn in H; repeat (destruct H as [<- | H]); try contradiction; try reflexivity; try (cbn; lia).
Lemma space_char c : space c -> isspace c = true.
Proof. intros H. chars H. Qed.
Lemma space_other c : space c -> is_hash c = false /\ isdigit c = false /\ is_sign c = false /\ (code c =? 46) = false /\ (code c =? 69) = false /\ (code c =? 101) = false.
Proof. intros H. repeat split; chars H. Qed.
Lemma digit_char c : digit c -> isdigit c = true.
Proof. intros H. chars H. Qed.
Lemma digit_other c : digit c -> is_hash c = false /\ isspace c = false /\ is_sign c = false /\ (code c =? 45) = false.
Proof. intros H. repeat split; chars H. Qed.
Lemma digit_code c : digit c -> Z.of_nat (code c - 48) = digit_value c /\ (0 <= digit_value c)%Z.
Proof. intros H. split; unfold digit_value; chars H. Qed.
(** The first character of a word is neither white space nor '#'. *)
Definition visible (c : ascii) : Prop := is_hash c = false /\ isspace c = false.
Definition word (w : text) : Prop := exists c r, w = c :: r /\ visible c.
Lemma ends_stop l : ends l -> match l with [] => True | c :: _ => isdigit c = false /\ is_sign c = false /\ (code c =? 46) = false /\ (code c =? 69) = false /\ (code c =? 101) = false end.
Proof. destruct l as [|c l]; [trivial|]. intros [H | ->]; [apply space_other in H; tauto|repeat split]. Qed.
(** ** Lines *)
Lemma code_newline c : is_nl c = true <-> c = newline.
Proof.
  unfold is_nl, code. split; [|intros ->; reflexivity]. intros H. apply Nat.eqb_eq in H. rewrite <- (ascii_nat_embedding c), H. reflexivity.
Qed.
Lemma getlines_line l : forall cur r, ~ In newline l -> getlines_from cur (l ++ r) = getlines_from (cur ++ l) r.
Proof.
  induction l as [|c l IH]; intros cur r H; [rewrite app_nil_r; reflexivity|]. cbn [app getlines_from].
  destruct (is_nl c) eqn:E; [apply code_newline in E; destruct H; left; auto|]. rewrite IH by (intros I; apply H; right; exact I). rewrite <- app_assoc. reflexivity.
Qed.
Lemma getlines_concat ls : forall r, (forall l, In l ls -> ~ In newline l) -> getlines (concat (map (fun l => l ++ [newline]) ls) ++ r) = ls ++ getlines r.
Proof.
  unfold getlines. induction ls as [|l ls IH]; intros r H; [reflexivity|]. cbn [map concat]. rewrite <- !app_assoc, getlines_line by (apply H; left; reflexivity).
  cbn [app getlines_from]. change (is_nl newline) with true. cbv iota. cbn [app]. f_equal. apply IH. intros k I. apply H. right. exact I.
Qed.
Lemma getlines_file f ls : file_lines f ls -> getlines f = ls \/ ls = getlines f ++ [[]].
Proof.
  intros (H & [-> | E]).
  - left. rewrite <- (app_nil_r (concat _)), getlines_concat by exact H. apply app_nil_r.
  - destruct (exists_last (l := ls)) as (ls' & x & ->); [intros ->; destruct f; discriminate|].
    rewrite map_app, concat_app in E. cbn in E. rewrite app_nil_r, app_assoc in E. apply app_inj_tail in E as (-> & _).
    rewrite getlines_concat by (intros l I; apply H, in_or_app; left; exact I).
    assert (G : getlines x = match x with [] => [] | _ => [x] end).
    { unfold getlines. rewrite <- (app_nil_r x) at 1. rewrite getlines_line by (apply H, in_or_app; right; left; reflexivity). reflexivity. }
    rewrite G. destruct x; [right; rewrite app_nil_r|left]; reflexivity.
Qed.
(** ** White space *)
Lemma skipn_pre {A} (p l : list A) : skipn (length p) (p ++ l) = l.
Proof. induction p; cbn; auto. Qed.
Lemma skip_spaces s : forall l it, Forall space s -> skip_from (s ++ l) it = skip_from l (it + length s).
Proof.
  induction s as [|c s IH]; intros l it H; [rewrite Nat.add_0_r; reflexivity|]. inversion H as [|? ? Hc Hs]; subst. cbn.
  rewrite (proj1 (space_other _ Hc)), (space_char _ Hc), IH by exact Hs. f_equal. lia.
Qed.
Lemma skip_word p s w l : Forall space s -> word w -> skipWS (p ++ s ++ w ++ l) (length p) = length (p ++ s).
Proof.
  intros Hs (c & r & -> & Hh & Hc). unfold skipWS. rewrite skipn_pre, skip_spaces by exact Hs. cbn. rewrite Hh, Hc, app_length. reflexivity.
Qed.
Lemma skip_blank p l : blank l -> skipWS (p ++ l) (length p) = length (p ++ l).
Proof.
  intros (s & r & -> & Hs & Hr). unfold skipWS. rewrite skipn_pre, skip_spaces by exact Hs. rewrite !app_length.
  destruct Hr as [-> | (r' & ->)]; cbn [skip_from length]; [lia|]. change (is_hash "#"%char) with true. cbv iota. cbn [length]. lia.
Qed.
Lemma next_word_ok e p s w l : Forall space s -> word w -> next_word e (p ++ s ++ w ++ l) (length p) = Ok (length (p ++ s)).
Proof.
  intros Hs Hw. unfold next_word. rewrite skip_word by assumption. destruct (_ =? _) eqn:E; [|reflexivity].
  apply Nat.eqb_eq in E. destruct Hw as (c & r & -> & _). rewrite !app_length in E. cbn in E. lia.
Qed.
Lemma next_word_end e p l : blank l -> next_word e (p ++ l) (length p) = Throw e.
Proof. intros H. unfold next_word. rewrite skip_blank by exact H. rewrite Nat.eqb_refl. reflexivity. Qed.
(** ** Numbers *)
Definition reads {A} (rd : text -> A * option nat) (w : text) (v : A) : Prop :=
  word w /\ forall l, ends l -> rd (w ++ l) = (v, match l with [] => None | _ => Some (length w) end).
Lemma position_of (w l : text) : position false (length w) (length (w ++ l)) = match l with [] => None | _ => Some (length w) end.
Proof.
  unfold position. cbn. rewrite app_length. destruct l; cbn.
  - rewrite (proj2 (Nat.eqb_eq _ _)) by lia. reflexivity.
  - rewrite (proj2 (Nat.eqb_neq _ _)) by lia. reflexivity.
Qed.
Lemma digits_app w l : Forall digit w -> match l with [] => True | c :: _ => isdigit c = false end -> digits (w ++ l) = w.
Proof.
  intros H Hl. induction H as [|c w Hc _ IH]; cbn [digits app]; [destruct l; cbn [digits]; [reflexivity|rewrite Hl; reflexivity]|]. rewrite (digit_char _ Hc), IH. reflexivity.
Qed.
Lemma decimal_value w : forall v, Forall digit w -> fold_left (fun v c => (10 * v + Z.of_nat (code c - 48))%Z) w v = value v w.
Proof. induction w as [|c w IH]; intros v H; [reflexivity|]. inversion H; subst. cbn [fold_left value]. rewrite (proj1 (digit_code _ ltac:(eassumption))). apply IH. assumption. Qed.
Lemma value_nonneg w : forall v, Forall digit w -> (0 <= v -> 0 <= value v w)%Z.
Proof. induction w as [|c w IH]; intros v H Hv; [exact Hv|]. inversion H; subst. cbn [value]. apply IH; [assumption|]. pose proof (proj2 (digit_code c ltac:(assumption))). lia. Qed.
Lemma numeral_word w v : numeral w v -> word w.
Proof. intros (H & D & _). destruct w as [|c w]; [contradiction|]. inversion D as [|? ? Hc _]; subst. exists c, w. split; [reflexivity|]. split; apply (digit_other _ Hc). Qed.
Lemma numeral_size w v : numeral w v -> reads read_size w v.
Proof.
  intros H. split; [apply (numeral_word _ _ H)|]. destruct H as (H & D & <- & L). intros l Hl.
  assert (E : match l with [] => True | c :: _ => isdigit c = false end) by (apply ends_stop in Hl; destruct l; tauto).
  destruct w as [|c w]; [contradiction|]. inversion D as [|? ? Hc _]; subst.
  unfold read_size. cbn [app sign_len negative]. rewrite (proj1 (proj2 (proj2 (digit_other _ Hc)))), (proj2 (proj2 (proj2 (digit_other _ Hc)))). cbn [skipn].
  change (c :: w ++ l) with ((c :: w) ++ l). rewrite digits_app by auto. unfold decimal. rewrite decimal_value by exact D.
  replace (M64 <=? value 0 (c :: w))%Z with false by (symmetry; apply Z.leb_gt; exact L). cbn [orb plus]. rewrite position_of. reflexivity.
Qed.
Lemma numeral_int w v : numeral w v -> (v < 2 ^ 31)%Z -> reads read_int w v.
Proof.
  intros H L'. split; [apply (numeral_word _ _ H)|]. destruct H as (H & D & <- & L). intros l Hl.
  assert (E : match l with [] => True | c :: _ => isdigit c = false end) by (apply ends_stop in Hl; destruct l; tauto).
  destruct w as [|c w]; [contradiction|]. inversion D as [|? ? Hc _]; subst. pose proof (value_nonneg (c :: w) 0 D ltac:(lia)) as P.
  unfold read_int. cbn [app sign_len negative]. rewrite (proj1 (proj2 (proj2 (digit_other _ Hc)))), (proj2 (proj2 (proj2 (digit_other _ Hc)))). cbn [skipn].
  change (c :: w ++ l) with ((c :: w) ++ l). rewrite digits_app by auto. unfold decimal. rewrite decimal_value by exact D.
  replace (2 ^ 31 - 1 <? value 0 (c :: w))%Z with false by (symmetry; apply Z.ltb_ge; lia).
  replace (value 0 (c :: w) <? - 2 ^ 31)%Z with false by (symmetry; apply Z.ltb_ge; lia). cbn [orb plus]. rewrite position_of. reflexivity.
Qed.
(** Any numeral, however large, read as int is k only if its value is k. *)
Lemma numeral_int_value w v k l : numeral w v -> ends l -> (0 < k < 2 ^ 31 - 1)%Z -> fst (read_int (w ++ l)) = k -> v = k.
Proof.
  intros (H & D & <- & L) Hl K.
  assert (E : match l with [] => True | c :: _ => isdigit c = false end) by (apply ends_stop in Hl; destruct l; tauto).
  destruct w as [|c w]; [contradiction|]. inversion D as [|? ? Hc _]; subst.
  unfold read_int. cbn [app sign_len negative]. rewrite (proj1 (proj2 (proj2 (digit_other _ Hc)))), (proj2 (proj2 (proj2 (digit_other _ Hc)))). cbn [skipn].
  change (c :: w ++ l) with ((c :: w) ++ l). rewrite digits_app by auto. unfold decimal. rewrite decimal_value by exact D. cbn [fst].
  destruct (_ || _); lia.
Qed.
(** ** Decimal literals *)
Lemma mant_stop d s g l : ends l -> mantissa d s g l = [].
Proof. intros H. apply ends_stop in H. destruct l as [|c l]; [reflexivity|]. destruct H as (A & _ & B & C & D). cbn. rewrite A, B, C, D. reflexivity. Qed.
Lemma mant_digits a : forall d s g l, Forall digit a -> mantissa d s g (a ++ l) = a ++ mantissa d s (g || negb (length a =? 0)) l.
Proof.
  induction a as [|c a IH]; intros d s g l H; [cbn; rewrite orb_false_r; reflexivity|]. inversion H as [|? ? Hc Ha]; subst.
  cbn [app mantissa]. rewrite (digit_char _ Hc), IH by exact Ha. cbn. rewrite orb_true_r. reflexivity.
Qed.
Lemma sign_cases s : sign s -> s = [] \/ exists c, s = [c] /\ is_sign c = true /\ visible c.
Proof. intros [-> | [-> | ->]]; [left; reflexivity|right..]; eexists; repeat split. Qed.
Lemma mant_exp d x l : (x = [] \/ exists e s' d', x = e :: s' ++ d' /\ (e = "e"%char \/ e = "E"%char) /\ sign s' /\ Forall digit d' /\ d' <> []) -> ends l ->
  mantissa d false true (x ++ l) = x.
Proof.
  intros [-> | (e & s & k & -> & He & Hs & Hk & Hn)] Hl; [cbn [app]; apply mant_stop; exact Hl|]. cbn [app mantissa].
  assert (isdigit e = false /\ (code e =? 46) = false /\ ((code e =? 69) || (code e =? 101)) = true) as (-> & -> & ->) by (destruct He as [-> | ->]; repeat split).
  cbn [negb andb]. f_equal. rewrite <- app_assoc. destruct (sign_cases _ Hs) as [-> | (c & -> & Hc & _)]; cbn [app].
  - destruct k as [|c k]; [contradiction|]. cbn [app]. inversion Hk as [|? ? Dc _]; subst. rewrite (proj1 (proj2 (proj2 (digit_other _ Dc)))).
    change (c :: k ++ l) with ((c :: k) ++ l). rewrite mant_digits, mant_stop by assumption. apply app_nil_r.
  - rewrite Hc. rewrite mant_digits, mant_stop by assumption. rewrite app_nil_r. reflexivity.
Qed.
Lemma literal_chars w l : literal w -> ends l -> word w /\ float_chars (w ++ l) = w.
Proof.
  intros (s & a & p & b & x & -> & Hs & Ha & Hb & Hab & Hp & Hx) Hl.
  assert (Hm : a ++ p ++ b ++ x <> [] /\ (forall c r, a ++ p ++ b ++ x = c :: r -> visible c /\ is_sign c = false)).
  { destruct a as [|c a].
    - destruct Hp as [-> | (-> & ->)]; [|contradiction Hab; reflexivity]. cbn. split; [discriminate|]. intros c r E. injection E as <- _. repeat split.
    - split; [discriminate|]. cbn. intros d r E. injection E as <- _. inversion Ha as [|? ? Hc _]; subst. pose proof (digit_other _ Hc). repeat split; tauto. }
  assert (M : mantissa false false false ((a ++ p ++ b ++ x) ++ l) = a ++ p ++ b ++ x).
  { rewrite <- !app_assoc, mant_digits by exact Ha. f_equal. cbn [orb]. destruct Hp as [-> | (-> & ->)].
    - cbn [app mantissa]. change (isdigit "."%char) with false. change (code "."%char =? 46) with true. cbn [negb andb]. f_equal.
      rewrite mant_digits by exact Hb. f_equal. replace (_ || _) with true; [apply mant_exp; assumption|]. symmetry.
      destruct a; [|reflexivity]. destruct b; [contradiction Hab; reflexivity|reflexivity].
    - cbn [app]. rewrite app_nil_r in Hab. destruct a; [contradiction|]. cbn [length Nat.eqb negb]. apply mant_exp; assumption. }
  destruct Hm as (Hn & Hv). destruct (sign_cases _ Hs) as [-> | (c & -> & Hc & Vc)].
  - cbn [app]. destruct (a ++ p ++ b ++ x) as [|c r] eqn:E; [contradiction|]. destruct (Hv c r eq_refl) as (V & S). split; [exists c, r; auto|].
    unfold float_chars. cbn [app sign_len]. rewrite S. cbn [firstn skipn app]. exact M.
  - split; [eexists _, _; split; [reflexivity|exact Vc]|]. unfold float_chars. cbn [app sign_len]. rewrite Hc. cbn [firstn skipn app]. f_equal. exact M.
Qed.

Section Tri.
Context {N : Num}.
Variable conv : text -> N * bool.
Lemma denotes_T w x : denotes conv w x -> reads (read_T conv) w x.
Proof.
  intros (L & C). split; [apply (literal_chars w [] L I)|]. intros l Hl. unfold read_T. rewrite (proj2 (literal_chars w l L Hl)), C. cbn [fst snd]. rewrite position_of. reflexivity.
Qed.
Lemma extract_mid {A} (rd : text -> A * option nat) p w v s l : reads rd w v -> spaces s ->
  extract rd (p ++ w ++ s ++ l) (length p) = Ok (v, length (p ++ w)).
Proof.
  intros (_ & H) (Hn & Hs). unfold extract. rewrite skipn_pre. destruct s as [|c s]; [contradiction|]. cbn [app]. inversion Hs; subst. rewrite H by (left; assumption). rewrite app_length. reflexivity.
Qed.
Lemma extract_more {A} (rd : text -> A * option nat) p w v l : reads rd w v -> ends l -> l <> [] ->
  extract rd (p ++ w ++ l) (length p) = Ok (v, length (p ++ w)).
Proof. intros (_ & H) He Hn. unfold extract. rewrite skipn_pre, H by exact He. destruct l; [contradiction|]. rewrite app_length. reflexivity. Qed.
Lemma extract_last {A} (rd : text -> A * option nat) p w v l : reads rd w v -> ends l -> p <> [] ->
  exists j, extract rd (p ++ w ++ l) (length p) = Ok (v, j).
Proof.
  intros (_ & H) He Hp. unfold extract. rewrite skipn_pre, H by exact He. destruct l; [|eexists; reflexivity]. destruct p; [contradiction|]. eexists. reflexivity.
Qed.
(** ** Lines of the tables *)
Lemma per_line_blank head row l st : blank l -> @per_line N head row l st = Ok st.
Proof. intros H. unfold per_line. pose proof (skip_blank [] l H) as E. cbn [app length] in E. rewrite E, Nat.eqb_refl. reflexivity. Qed.
Lemma per_line_word head row s w l st : Forall space s -> word w ->
  @per_line N head row (s ++ w ++ l) st = if body st then row (s ++ w ++ l) (length s) st else head (s ++ w ++ l) (length s) st.
Proof.
  intros Hs Hw. unfold per_line. pose proof (skip_word [] s w l Hs Hw) as E. cbn [app length] in E. rewrite E. destruct (_ =? _) eqn:Q; [|reflexivity].
  apply Nat.eqb_eq in Q. destruct Hw as (c & r & -> & _). rewrite !app_length in Q. cbn in Q. lia.
Qed.
Lemma header_ok k e st s a t b r n : Forall space s -> numeral a n -> spaces t -> numeral b k -> (0 < n < 2 ^ 60)%Z -> (k < 2 ^ 31)%Z -> ends r ->
  header k e (s ++ a ++ t ++ b ++ r) (length s) st = Ok (@mkP N true (shift st) (next st) (mesh st)).
Proof.
  intros Hs Ha Ht Hb Hn Hk Hr. unfold header. rewrite (extract_mid read_size s a n t _ (numeral_size _ _ Ha) Ht). cbn [bind].
  replace (n =? 0)%Z with false by (symmetry; apply Z.eqb_neq; lia). rewrite (app_assoc s a).
  rewrite next_word_ok by first [apply Ht|apply (numeral_word _ _ Hb)]. cbn [bind]. rewrite (app_assoc (s ++ a) t).
  destruct (extract_last read_int ((s ++ a) ++ t) b k r (numeral_int _ _ Hb Hk) Hr) as (j & ->).
  { destruct Ht as (Ht & _). destruct t; [contradiction|]. intros E. apply app_eq_nil in E as (_ & E). discriminate. }
  cbn [bind fst]. rewrite Z.eqb_refl. cbn [negb]. unfold reserve. replace (0 <? n)%Z with true by (symmetry; apply Z.ltb_lt; lia). cbn [assert_ bind].
  replace (2 ^ 60 - 1 <? n)%Z with false by (symmetry; apply Z.ltb_ge; lia). reflexivity.
Qed.
(** The state before row i of a table numbered from base. *)
Definition before (base : Z) (i : nat) (s : mst N) (st : pstate) : Prop :=
  st = mkP true (if i =? 0 then 1%Z else base) (u64 (Z.of_nat i)) s.
Lemma row_index_ok base i s st sp a t l : before base i s st -> (base = 0 \/ base = 1)%Z -> numeral a (base + Z.of_nat i) -> spaces t ->
  row_index (sp ++ a ++ t ++ l) (length sp) st = Ok (base, length (sp ++ a)).
Proof.
  intros -> Hb Ha Ht. unfold row_index. rewrite (extract_mid read_size sp a _ t l (numeral_size _ _ Ha) Ht). cbn [bind shift next].
  destruct Ha as (_ & _ & _ & L). unfold u64, M64. assert (P : (0 <= Z.of_nat i)%Z) by lia.
  destruct (Z.eqb_spec (base + Z.of_nat i) 0) as [E | E].
  - assert (base = 0 /\ Z.of_nat i = 0)%Z as (-> & ->) by lia. cbn [Z.add Z.sub]. rewrite Z.mod_0_l by lia. reflexivity.
  - destruct i as [|i].
    + cbn [Nat.eqb Z.of_nat]. assert (base = 1%Z) as -> by (cbn in E; lia). reflexivity.
    + cbn [Nat.eqb]. replace (base + Z.of_nat (S i) - base)%Z with (Z.of_nat (S i)) by lia. rewrite Z.eqb_refl. reflexivity.
Qed.
Lemma before_next base i s : before base (S i) s (mkP true base (u64 (u64 (Z.of_nat i) + 1)) s).
Proof. unfold before. cbn [Nat.eqb]. f_equal. unfold u64, M64. rewrite Zplus_mod_idemp_l. f_equal. lia. Qed.
End Tri.
