From Coq Require Import String Ascii List Arith Bool Lia Decimal DecimalString DecimalNat.
From Verif Require Import Base BaseProofs Num NumInst Spec SpecProofs VectorModel VectorProofs SparseModel SparseSpec SparsePropProofs DenseModel DenseSpec DenseProofs
  StreamModel StreamSpec.
Import ListNotations.
Local Open Scope list_scope.
Local Open Scope nat_scope.
Open Scope res_scope.

(** ** Words *)
Lemma words_nil : words [] = [[]]. Proof. reflexivity. Qed.
Lemma words_ne t : words t <> [].
Proof. destruct t as [|c r]; cbn; [discriminate|]. destruct (c =? " ")%char; [discriminate|]. destruct (words r); discriminate. Qed.
Lemma words_blank w r : no_blank w -> words (w ++ " "%char :: r) = w :: words r.
Proof.
  intros H. induction w as [|c w IH]; cbn [app].
  - reflexivity.
  - assert (Hc : (c =? " ")%char = false).
    { apply Ascii.eqb_neq. intros ->. apply H. now left. }
    change ((c :: w) ++ " "%char :: r) with (c :: w ++ " "%char :: r). cbn [words].
    rewrite Hc, IH; [reflexivity|]. intros Hin. apply H. now right.
Qed.
Lemma words_last w : no_blank w -> words w = [w].
Proof.
  intros H. induction w as [|c w IH]; [reflexivity|]. cbn [words].
  assert (Hc : (c =? " ")%char = false) by (apply Ascii.eqb_neq; intros ->; apply H; now left).
  rewrite Hc, IH; [reflexivity|]. intros Hin. apply H. now right.
Qed.
(** words of "w1 w2 ... last" *)
Definition line (ws : list text) (last : text) : text := flat_map (fun w => w ++ [" "%char]) ws ++ last.
Lemma words_line ws last : (forall w, In w ws -> no_blank w) -> no_blank last -> words (line ws last) = ws ++ [last].
Proof.
  intros H Hl. unfold line. induction ws as [|w ws IH]; cbn [flat_map]; [now apply words_last|].
  rewrite <- !app_assoc.   match goal with |- words (w ++ [" "%char] ++ ?x) = _ => change (words (w ++ " "%char :: x) = (w :: ws) ++ [last]) end. rewrite words_blank by (apply H; now left). change (w :: words (line ws last) = w :: ws ++ [last]). f_equal. apply IH. intros w' Hw. apply H. now right.
Qed.
Lemma line_app ws1 ws2 last : line (ws1 ++ ws2) last = flat_map (fun w => w ++ [" "%char]) ws1 ++ line ws2 last.
Proof. unfold line. now rewrite flat_map_app, app_assoc. Qed.

(** ** Decimal numbers *)
Definition is_digit (c : ascii) : Prop := In c (str "0123456789").
Lemma uint_digits d : forall c, In c (str (NilEmpty.string_of_uint d)) -> is_digit c.
Proof.
  unfold is_digit, str. induction d; cbn [NilEmpty.string_of_uint list_ascii_of_string In]; intros c Hc; try contradiction;
    (destruct Hc as [<-|Hc]; [cbn; tauto|now apply IHd]).
Qed.
Lemma dec_digits n c : In c (dec n) -> is_digit c.
Proof.
  unfold dec, NilZero.string_of_uint. destruct (Nat.to_uint n) eqn:E; intros Hc; try (now apply (uint_digits _ c) in Hc).
  unfold is_digit. cbn in *. tauto.
Qed.
Lemma dec_no n c : ~ is_digit c -> ~ In c (dec n).
Proof. intros H Hc. apply H. now apply (dec_digits n). Qed.
Lemma str_inj s t : str s = str t -> s = t.
Proof. intros H. rewrite <- (string_of_list_ascii_of_string s), <- (string_of_list_ascii_of_string t). unfold str in H. now rewrite H. Qed.
Lemma dec_inj n m : dec n = dec m -> n = m.
Proof.
  unfold dec. intros H. apply str_inj in H.
  assert (K : forall k, NilZero.uint_of_string (NilZero.string_of_uint (Nat.to_uint k)) = Some (Nat.to_uint k)).
  { intros k. apply NilZero.usu. destruct k; [discriminate|]. intros E.
    assert (Hk : Nat.of_uint (Nat.to_uint (S k)) = S k) by apply Unsigned.of_to. rewrite E in Hk. discriminate. }
  assert (E : Some (Nat.to_uint n) = Some (Nat.to_uint m)) by (rewrite <- !K; now rewrite H).
  injection E as E. now apply Unsigned.to_uint_inj.
Qed.

Lemma flat_map_map {A B C} (f : B -> list C) (g : A -> B) l : flat_map f (map g l) = flat_map (fun x => f (g x)) l.
Proof. induction l as [|x l IH]; cbn [map flat_map]; [reflexivity|now rewrite IH]. Qed.

Section Out.
Context {N : Num} (fmt : N -> text).
Lemma foreach_text {A} (g : A -> text) (l : list A) : forall out, foreach l (fun x out => Ok (out ++ g x)) out = Ok (out ++ flat_map g l).
Proof. induction l as [|x l IH]; intros out; cbn [foreach flat_map bind]; [now rewrite app_nil_r|]. now rewrite IH, <- app_assoc. Qed.

Definition vec_text (v : list N) : text := str "[ " ++ flat_map (fun x => fmt x ++ str " ") v ++ str "]".
Lemma out_vector_ok v : out_vector fmt v = Ok (vec_text v).
Proof.
  unfold out_vector. rewrite iterate_ok, (foreach_text (fun x => fmt x ++ str " ")). cbn [bind]. unfold vec_text. now rewrite app_assoc.
Qed.
Lemma vec_line v : vec_text v = line (str "[" :: map fmt v) (str "]").
Proof. unfold vec_text, line. change (flat_map ?f (?x :: ?l)) with (f x ++ flat_map f l). rewrite flat_map_map. reflexivity. Qed.

Definition dense_text (d1 d2 : nat) (a : nat -> nat -> N) : text :=
  line (str "[" :: bars (str "|") (map (fun i => map fmt (table_row d2 a i)) (seq 0 d1))) (str "]").
Lemma for_text (body : nat -> text -> res text) (g : nat -> text) n : (forall i out, i < n -> body i out = Ok (out ++ g i)) ->
  forall out, for_ 0 n body out = Ok (out ++ flat_map g (seq 0 n)).
Proof.
  intros H. unfold for_. rewrite Nat.sub_0_r. assert (G : forall k lo out, lo + k = n -> for_n k lo body out = Ok (out ++ flat_map g (seq lo k))).
  { induction k as [|k IH]; intros lo out E; cbn [for_n seq flat_map]; [now rewrite app_nil_r|].
    rewrite H by lia. cbn [bind]. rewrite IH by lia. now rewrite <- app_assoc. }
  intros out. now apply G.
Qed.
Lemma bars_blank (rows : list (list text)) n : forall lo (f : nat -> list text), rows = map f (seq lo n) ->
  flat_map (fun w => w ++ [" "%char]) (bars (str "|") rows) =
  flat_map (fun i => flat_map (fun w => w ++ [" "%char]) (f i) ++ (if negb (i =? lo + n - 1) then str "| " else [])) (seq lo n).
Proof.
  revert rows. induction n as [|n IH]; intros rows lo f ->; [reflexivity|]. cbn [seq map]. destruct n as [|n].
  - cbn [seq map bars flat_map]. replace (lo + 1 - 1) with lo by lia. rewrite Nat.eqb_refl. cbn [negb]. now rewrite !app_nil_r.
  - change (bars (str "|") (f lo :: map f (seq (S lo) (S n)))) with (f lo ++ str "|" :: bars (str "|") (map f (seq (S lo) (S n)))).
    change (flat_map (fun i => flat_map (fun w => w ++ [" "%char]) (f i) ++ (if negb (i =? lo + S (S n) - 1) then str "| " else [])) (lo :: seq (S lo) (S n)))
      with ((flat_map (fun w => w ++ [" "%char]) (f lo) ++ (if negb (lo =? lo + S (S n) - 1) then str "| " else [])) ++
            flat_map (fun i => flat_map (fun w => w ++ [" "%char]) (f i) ++ (if negb (i =? lo + S (S n) - 1) then str "| " else [])) (seq (S lo) (S n))).
    rewrite flat_map_app. rewrite <- !app_assoc. f_equal.
    replace (lo =? lo + S (S n) - 1) with false by (symmetry; apply Nat.eqb_neq; lia). cbn [negb].
    change (flat_map (fun w => w ++ [" "%char]) (str "|" :: bars (str "|") (map f (seq (S lo) (S n))))) with
      (str "| " ++ flat_map (fun w => w ++ [" "%char]) (bars (str "|") (map f (seq (S lo) (S n))))). f_equal.
    rewrite (IH _ (S lo) f eq_refl). now replace (S lo + S n - 1) with (lo + S (S n) - 1) by lia.
Qed.
Lemma out_dense_ok m d1 d2 a : dreads m d1 d2 a -> out_dense fmt m = Ok (dense_text d1 d2 a).
Proof.
  intros (<- & <- & H). unfold out_dense.
  rewrite (for_text _ (fun i => flat_map (fun w => w ++ [" "%char]) (map fmt (table_row (d_cols m) a i)) ++
     (if negb (i =? d_rows m - 1) then str "| " else []))).
  - cbn [bind]. unfold dense_text, line. cbn [flat_map]. rewrite (bars_blank _ (d_rows m) 0 (fun i => map fmt (table_row (d_cols m) a i)) eq_refl).
    cbn [Nat.add]. rewrite <- !app_assoc. reflexivity.
  - intros i out Hi. rewrite (for_text _ (fun j => fmt (a i j) ++ str " ")).
    + cbn [bind]. f_equal. unfold table_row. rewrite map_map, !flat_map_concat_map, !map_map.
      destruct (negb (i =? d_rows m - 1)); [now rewrite <- app_assoc|now rewrite app_nil_r].
    + intros j out' Hj. rewrite H by auto. reflexivity.
Qed.

Definition entry_words (a : nat -> nat -> N) (p : nat * nat) : list text :=
  [str "(" ++ dec (fst p) ++ str ","; dec (snd p) ++ str ";"; fmt (a (fst p) (snd p)) ++ str ")"].
Definition sparse_text (d1 d2 : nat) (a : nat -> nat -> N) : text :=
  line (str "[" :: flat_map (entry_words a) (nonzeros d1 d2 a)) (str "]").
Lemma out_sparse_ok (HZ : ZeroLaws N) m d1 d2 a : built m -> reads m d1 d2 a -> out_sparse fmt m = Ok (sparse_text d1 d2 a).
Proof.
  intros Hb Hr. unfold out_sparse.
  rewrite (for_loop N HZ d1 d2 a m Hb Hr _ (fun i j x out => Ok (out ++ str "(" ++ dec i ++ str ", " ++ dec j ++ str "; " ++ fmt x ++ str ") "))).
  rewrite (foreach_text (fun p => str "(" ++ dec (fst p) ++ str ", " ++ dec (snd p) ++ str "; " ++ fmt (a (fst p) (snd p)) ++ str ") ")). cbn [bind].
  unfold sparse_text, line. change (flat_map (fun w => w ++ [" "%char]) (str "[" :: ?l)) with (str "[ " ++ flat_map (fun w => w ++ [" "%char]) l).
  do 3 f_equal.
  induction (nonzeros d1 d2 a) as [|p l IH]; [reflexivity|]. cbn [flat_map]. rewrite flat_map_app, IH.
  unfold entry_words. cbn [flat_map]. rewrite <- !app_assoc. reflexivity.
Qed.
End Out.

(** ** Reading the words back *)
Lemma bar_split (bar : text) r r' X Y : ~ In bar r -> ~ In bar r' -> r ++ bar :: X = r' ++ bar :: Y -> r = r' /\ X = Y.
Proof.
  revert r'. induction r as [|x r IH]; intros [|y r'] H H' E; cbn [app] in E.
  - injection E as ->. auto.
  - injection E as -> _. exfalso. apply H'. now left.
  - injection E as -> _. exfalso. apply H. now left.
  - injection E as -> E. destruct (IH r') as [-> ->]; auto; intros Hi; [apply H|apply H']; now right.
Qed.
Lemma bars_in (bar : text) rows w : In w (bars bar rows) -> w = bar \/ exists r, In r rows /\ In w r.
Proof.
  induction rows as [|r rows IH]; [intros []|]. destruct rows as [|r2 rows]; [intros H; right; exists r; cbn; auto|].
  change (bars bar (r :: r2 :: rows)) with (r ++ bar :: bars bar (r2 :: rows)). intros H. apply in_app_or in H. destruct H as [H|[H|H]].
  - right. exists r. cbn; auto.
  - now left.
  - destruct (IH H) as [G|(x & Hx & G)]; auto. right. exists x. split; auto. now right.
Qed.
Lemma bars_inj (bar : text) rows : forall rows', rows <> [] -> rows' <> [] -> (forall r, In r rows -> ~ In bar r) -> (forall r, In r rows' -> ~ In bar r) ->
  bars bar rows = bars bar rows' -> rows = rows'.
Proof.
  induction rows as [|r rows IH]; intros [|r' rows'] Hn Hn' H H' E; try congruence.
  destruct rows as [|s rows], rows' as [|s' rows'].
  - cbn in E. now subst.
  - exfalso. change (r = r' ++ bar :: bars bar (s' :: rows')) in E. apply (H r); [now left|]. rewrite E. apply in_or_app. right. now left.
  - exfalso. change (r ++ bar :: bars bar (s :: rows) = r') in E. apply (H' r'); [now left|]. rewrite <- E. apply in_or_app. right. now left.
  - change (r ++ bar :: bars bar (s :: rows) = r' ++ bar :: bars bar (s' :: rows')) in E.
    apply bar_split in E; [|apply H; now left|apply H'; now left]. destruct E as [-> E]. f_equal.
    apply IH; auto; try discriminate; intros x Hx; [apply H|apply H']; now right.
Qed.

Section Words.
Context {N : Num} (fmt : N -> text) (Hfmt : forall x, no_blank (fmt x)).
Lemma vec_words v : words (vec_text fmt v) = str "[" :: map fmt v ++ [str "]"].
Proof.
  rewrite vec_line, words_line; [reflexivity| |cbv; intuition discriminate].
  intros w [<-|Hw]; [cbv; intuition discriminate|]. apply in_map_iff in Hw. destruct Hw as (x & <- & _). apply Hfmt.
Qed.
Lemma vec_unambiguous v w t : out_vector fmt v = Ok t -> out_vector fmt w = Ok t -> map fmt v = map fmt w.
Proof.
  rewrite !out_vector_ok. intros E1 E2. injection E1 as E1. injection E2 as E2.
  assert (E : words (vec_text fmt v) = words (vec_text fmt w)) by congruence. rewrite !vec_words in E. injection E as E. now apply app_inj_tail in E.
Qed.
Lemma dense_words d1 d2 a : words (dense_text fmt d1 d2 a) = str "[" :: bars (str "|") (map (fun i => map fmt (table_row d2 a i)) (seq 0 d1)) ++ [str "]"].
Proof.
  unfold dense_text. rewrite words_line; [reflexivity| |cbv; intuition discriminate].
  intros w [<-|Hw]; [cbv; intuition discriminate|]. apply bars_in in Hw. destruct Hw as [->|(r & Hr & Hw)]; [cbv; intuition discriminate|].
  apply in_map_iff in Hr. destruct Hr as (i & <- & _). apply in_map_iff in Hw. destruct Hw as (x & <- & _). apply Hfmt.
Qed.
Lemma dense_unambiguous (Hbar : forall x, fmt x <> str "|") (A B : dmat N) d1 d2 a e1 e2 b t : dreads A d1 d2 a -> dreads B e1 e2 b ->
  0 < d1 -> 0 < d2 -> 0 < e1 -> 0 < e2 -> out_dense fmt A = Ok t -> out_dense fmt B = Ok t ->
  d1 = e1 /\ d2 = e2 /\ forall i j, i < d1 -> j < d2 -> fmt (a i j) = fmt (b i j).
Proof.
  intros HA HB P1 P2 Q1 Q2 E1 E2. rewrite (out_dense_ok fmt A d1 d2 a HA) in E1. rewrite (out_dense_ok fmt B e1 e2 b HB) in E2.
  injection E1 as E1. injection E2 as E2. assert (E : words (dense_text fmt d1 d2 a) = words (dense_text fmt e1 e2 b)) by congruence.
  rewrite !dense_words in E. injection E as E. apply app_inj_tail in E. destruct E as [E _].
  assert (Hno : forall d2 c r l, In r (map (fun i => map fmt (table_row d2 c i)) l) -> ~ In (str "|") r).
  { intros d c r l Hr Hin. apply in_map_iff in Hr. destruct Hr as (i & <- & _). apply in_map_iff in Hin. destruct Hin as (x & Hx & _). now apply (Hbar x). }
  apply bars_inj in E; [|destruct d1; [lia|discriminate]|destruct e1; [lia|discriminate]|intros r; apply Hno|intros r; apply Hno].
  assert (Hd1 : d1 = e1) by (apply (f_equal (@length _)) in E; now rewrite !map_length, !seq_length in E). subst e1.
  assert (Hrow : forall i, i < d1 -> map fmt (table_row d2 a i) = map fmt (table_row e2 b i)).
  { intros i Hi. set (F := fun i => map fmt (table_row d2 a i)) in *. set (G := fun i => map fmt (table_row e2 b i)) in *.
    assert (K : nth i (map F (seq 0 d1)) (F 0) = nth i (map G (seq 0 d1)) (F 0)) by now rewrite E.
    rewrite map_nth, seq_nth in K by auto. rewrite (nth_indep _ (F 0) (G 0)) in K by now rewrite map_length, seq_length.
    rewrite map_nth, seq_nth in K by auto. exact K. }
  assert (Hd2 : d2 = e2).
  { specialize (Hrow 0 P1). apply (f_equal (@length _)) in Hrow. unfold table_row in Hrow. now rewrite !map_length, !seq_length in Hrow. }
  subst e2. split; auto. split; auto. intros i j Hi Hj. specialize (Hrow i Hi). unfold table_row in Hrow. rewrite !map_map in Hrow.
  assert (K : nth j (map (fun x => fmt (a i x)) (seq 0 d2)) (fmt (a i 0)) = nth j (map (fun x => fmt (b i x)) (seq 0 d2)) (fmt (a i 0))) by now rewrite Hrow.
  rewrite (map_nth (fun x => fmt (a i x))), seq_nth in K by auto.
  rewrite (nth_indep _ (fmt (a i 0)) (fmt (b i 0))) in K by now rewrite map_length, seq_length.
  rewrite (map_nth (fun x => fmt (b i x))), seq_nth in K by auto. exact K.
Qed.
Lemma dec_no_blank n : no_blank (dec n).
Proof. apply dec_no. cbv. intuition discriminate. Qed.
Lemma no_blank_app u v : no_blank u -> no_blank v -> no_blank (u ++ v).
Proof. intros Hu Hv H. apply in_app_or in H. destruct H; auto. Qed.
Lemma sparse_words d1 d2 a : words (sparse_text fmt d1 d2 a) = str "[" :: flat_map (entry_words fmt a) (nonzeros d1 d2 a) ++ [str "]"].
Proof.
  unfold sparse_text. rewrite words_line; [reflexivity| |cbv; intuition discriminate].
  intros w [<-|Hw]; [cbv; intuition discriminate|]. apply in_flat_map in Hw. destruct Hw as (p & _ & Hw).
  destruct Hw as [<-|[<-|[<-|[]]]]; repeat apply no_blank_app; auto using dec_no_blank; cbv; intuition discriminate.
Qed.
Lemma entry_words_inj (a b : nat -> nat -> N) l : forall l', flat_map (entry_words fmt a) l = flat_map (entry_words fmt b) l' ->
  map (fun p => (p, fmt (a (fst p) (snd p)))) l = map (fun p => (p, fmt (b (fst p) (snd p)))) l'.
Proof.
  induction l as [|p l IH]; intros [|p' l'] E; [reflexivity|discriminate|discriminate|].
  change (entry_words fmt a p ++ flat_map (entry_words fmt a) l = entry_words fmt b p' ++ flat_map (entry_words fmt b) l') in E.
  unfold entry_words at 1 3 in E. change (str "(") with ["("%char] in E. cbn [app] in E. injection E as E1 E2 E3 E4.
  apply app_inj_tail in E1. destruct E1 as [E1 _]. apply app_inj_tail in E2. destruct E2 as [E2 _]. apply app_inj_tail in E3. destruct E3 as [E3 _].
  apply dec_inj in E1. apply dec_inj in E2. cbn [map]. rewrite (IH l' E4), E3. destruct p, p'. cbn [fst snd] in *. now subst.
Qed.
Lemma sparse_unambiguous (HZ : ZeroLaws N) (A B : smat N) d1 d2 a e1 e2 b t : built A -> reads A d1 d2 a -> built B -> reads B e1 e2 b ->
  out_sparse fmt A = Ok t -> out_sparse fmt B = Ok t ->
  map (fun p => (p, fmt (a (fst p) (snd p)))) (nonzeros d1 d2 a) = map (fun p => (p, fmt (b (fst p) (snd p)))) (nonzeros e1 e2 b).
Proof.
  intros HA RA HB RB E1 E2. rewrite (out_sparse_ok fmt HZ A d1 d2 a HA RA) in E1. rewrite (out_sparse_ok fmt HZ B e1 e2 b HB RB) in E2.
  injection E1 as E1. injection E2 as E2. assert (E : words (sparse_text fmt d1 d2 a) = words (sparse_text fmt e1 e2 b)) by congruence.
  rewrite !sparse_words in E. injection E as E. apply app_inj_tail in E. apply entry_words_inj. tauto.
Qed.
End Words.
