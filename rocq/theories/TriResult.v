(** Proofs for C59: tables, loading, rejection. *)
From Coq Require Import List Arith Bool ZArith Ascii Lia.
From Verif Require Import Base BaseProofs Num MeshModel MeshSpec MeshResult HyperSpec UtilsModel TriModel TriSpec TriProofs ObjProofs.
Import ListNotations.
Local Open Scope list_scope.
Local Open Scope nat_scope.
Open Scope res_scope.

Section Tri.
Context {N : Num}.
Variable conv : text -> N * bool.
Notation mst := (mst N).
Notation pstate := (@pstate N).

Lemma app_nonnil {A} (p : list A) s : s <> [] -> p ++ s <> [].
Proof. intros H E. apply app_eq_nil in E as (_ & E). contradiction. Qed.

Lemma node_row_ok base i p l s st : vertex_line conv base i p l -> (base = 0 \/ base = 1)%Z -> before base i s st ->
  per_line (header 2 NodeError) (node_row conv) l st =
    let* s' := do_op (AddVertex [fst p; snd p]) s in Ok (mkP true base (u64 (u64 (Z.of_nat i) + 1)) s').
Proof.
  intros (a & b & c & (s0 & l1 & -> & H0 & s1 & l2 & -> & H1 & s2 & l3 & -> & H2 & H3) & Ha & Hb & Hc) Hbase B.
  apply denotes_T in Hb, Hc. pose proof (proj1 Hb) as Wb. pose proof (proj1 Hc) as Wc.
  rewrite per_line_word by first [assumption|apply (numeral_word _ _ Ha)]. rewrite B at 1. cbn [body]. unfold node_row.
  rewrite (row_index_ok base i s st) by assumption. cbn [bind]. rewrite (app_assoc s0 a).
  rewrite next_word_ok by first [apply H1|assumption]. cbn [bind]. rewrite (app_assoc (s0 ++ a)).
  rewrite (extract_mid _ _ b (fst p)) by assumption. cbn [bind]. rewrite (app_assoc ((s0 ++ a) ++ s1)).
  rewrite next_word_ok by first [apply H2|assumption]. cbn [bind]. rewrite (app_assoc (((s0 ++ a) ++ s1) ++ b)).
  destruct (extract_last (read_T conv) ((((s0 ++ a) ++ s1) ++ b) ++ s2) c (snd p) l3 Hc H3) as (j & ->); [apply app_nonnil, H2|].
  unfold before in B. subst st. reflexivity.
Qed.
Lemma tri_vertex_ok base x (s : mst) v : numeral v (base + Z.of_nat x) -> (base = 0 \/ base = 1)%Z -> x < length (mV s) ->
  tri_vertex s (u64 (base + Z.of_nat x - base)) = m_vertex s x.
Proof.
  intros (_ & _ & _ & L) Hb Hx. unfold tri_vertex, u64, M64. replace (base + Z.of_nat x - base)%Z with (Z.of_nat x) by lia. rewrite Z.mod_small by lia.
  replace (_ <? _)%Z with true by (symmetry; apply Z.ltb_lt; lia). rewrite Nat2Z.id. reflexivity.
Qed.
(** Reading the four numbers of an element line. *)
Lemma element_row_read base i w a b c x y z l s st : line_of [w; a; b; c] l -> numeral w (base + Z.of_nat i) -> numeral a x -> numeral b y -> numeral c z ->
  (base = 0 \/ base = 1)%Z -> before base i s st ->
  per_line (header 3 ElementError) element_row l st =
    let* p := tri_vertex s (u64 (x - base)) in let* q := tri_vertex s (u64 (y - base)) in let* r := tri_vertex s (u64 (z - base)) in
    let '(s, e) := new_element s [Some p; Some q; Some r] in
    let* s' := m_addElement s (Some e) in Ok (@mkP N true base (u64 (u64 (Z.of_nat i) + 1)) s').
Proof.
  intros (s0 & l1 & -> & H0 & s1 & l2 & -> & H1 & s2 & l3 & -> & H2 & s3 & l4 & -> & H3 & H4) Hw Ha Hb Hc Hbase B.
  pose proof (numeral_word _ _ Ha) as Wa. pose proof (numeral_word _ _ Hb) as Wb. pose proof (numeral_word _ _ Hc) as Wc.
  apply numeral_size in Ha, Hb, Hc.
  rewrite per_line_word by first [assumption|apply (numeral_word _ _ Hw)]. rewrite B at 1. cbn [body]. unfold element_row.
  rewrite (row_index_ok base i s st) by assumption. cbn [bind]. rewrite (app_assoc s0 w).
  rewrite next_word_ok by first [apply H1|assumption]. cbn [bind]. rewrite (app_assoc (s0 ++ w)).
  rewrite (extract_mid _ _ a x) by assumption. cbn [bind]. rewrite (app_assoc ((s0 ++ w) ++ s1)).
  rewrite next_word_ok by first [apply H2|assumption]. cbn [bind]. rewrite (app_assoc (((s0 ++ w) ++ s1) ++ a)).
  rewrite (extract_mid _ _ b y) by assumption. cbn [bind]. rewrite (app_assoc ((((s0 ++ w) ++ s1) ++ a) ++ s2)).
  rewrite next_word_ok by first [apply H3|assumption]. cbn [bind]. rewrite (app_assoc (((((s0 ++ w) ++ s1) ++ a) ++ s2) ++ b)).
  destruct (extract_last read_size ((((((s0 ++ w) ++ s1) ++ a) ++ s2) ++ b) ++ s3) c z l4 Hc H4) as (j & ->); [apply app_nonnil, H3|].
  unfold before in B. subst st. reflexivity.
Qed.
Lemma element_row_ok base i f l s st : element_line base i f l -> (base = 0 \/ base = 1)%Z -> before base i s st ->
  (match f with (x, y, z) => x < length (mV s) /\ y < length (mV s) /\ z < length (mV s) end) ->
  per_line (header 3 ElementError) element_row l st =
    let* s' := do_op (match f with (x, y, z) => AddElement x y z end) s in Ok (@mkP N true base (u64 (u64 (Z.of_nat i) + 1)) s').
Proof.
  destruct f as ((x, y), z). intros (w & a & b & c & L & Hw & Ha & Hb & Hc) Hbase B (Hx & Hy & Hz).
  rewrite (element_row_read base i w a b c _ _ _ l s st L Hw Ha Hb Hc Hbase B), (tri_vertex_ok base x s a), (tri_vertex_ok base y s b), (tri_vertex_ok base z s c) by assumption.
  cbn [do_op]. destruct (m_vertex s x); [cbn [bind]|reflexivity..]. destruct (m_vertex s y); [cbn [bind]|reflexivity..]. destruct (m_vertex s z); reflexivity.
Qed.

(** ** Folding over the rows *)
Lemma content_fold head row ls cs : content ls cs -> forall st, foreach ls (@per_line N head row) st = foreach cs (per_line head row) st.
Proof.
  induction 1 as [|l ls cs Hb H IH|l ls cs Hb H IH]; intros st; [reflexivity| |].
  - cbn [foreach]. rewrite per_line_blank by exact Hb. cbn [bind]. apply IH.
  - cbn [foreach]. destruct (per_line head row l st); cbn [bind]; auto.
Qed.
Lemma file_fold head row f ls cs st : file_lines f ls -> content ls cs -> foreach (getlines f) (@per_line N head row) st = foreach cs (per_line head row) st.
Proof.
  intros F C. rewrite <- (content_fold head row ls cs C). destruct (getlines_file _ _ F) as [-> | E]; [reflexivity|]. rewrite E, foreach_app.
  symmetry. apply bind_ok_r.
Qed.
Section Rows.
Context {A : Type}.
Variables (head row : text -> nat -> pstate -> res pstate) (spec : Z -> nat -> A -> text -> Prop) (op : A -> mop N) (base : Z) (Inv : nat -> mst -> Prop).
Hypothesis Hstep : forall i a l s st, spec base i a l -> before base i s st -> Inv i s ->
  per_line head row l st = let* s' := do_op (op a) s in Ok (mkP true base (u64 (u64 (Z.of_nat i) + 1)) s').
Lemma rows_fold entries : forall i rows s st, length rows = length entries -> before base i s st -> Inv i s ->
  (forall k a s, nth_error entries k = Some a -> Inv (i + k) s -> returns (do_op (op a) s) (Inv (S (i + k)))) ->
  (forall k a l, nth_error entries k = Some a -> nth_error rows k = Some l -> spec base (i + k) a l) ->
  exists s' st', foreach (map op entries) do_op s = Ok s' /\ foreach rows (per_line head row) st = Ok st' /\ before base (i + length entries) s' st' /\ Inv (i + length entries) s'.
Proof.
  induction entries as [|a entries IH]; intros i rows s st HL B HI HS HR.
  - destruct rows; [|discriminate]. exists s, st. rewrite Nat.add_0_r. auto.
  - destruct rows as [|l rows]; [discriminate|]. cbn [length] in *. cbn [map foreach].
    assert (HA := HR 0 a l eq_refl eq_refl). assert (HO := HS 0 a s eq_refl). rewrite Nat.add_0_r in HA, HO. specialize (HO HI). destruct HO as (s1 & E1 & HI1).
    rewrite (Hstep i a l s st HA B HI), E1. cbn [bind].
    destruct (IH (S i) rows s1 (mkP true base (u64 (u64 (Z.of_nat i) + 1)) s1)) as (s' & st' & F1 & F2 & F3 & F4); auto.
    + apply before_next.
    + intros k b s2 K. replace (S i + k) with (i + S k) by lia. apply HS. exact K.
    + intros k b l' K L. replace (S i + k) with (i + S k) by lia. apply (HR (S k)); assumption.
    + exists s', st'. replace (i + S (length entries)) with (S i + length entries) by lia. auto.
Qed.
End Rows.
Lemma header_line_ok k e h s : header_line k h -> (k < 2 ^ 31)%Z -> forall row,
  per_line (header k e) row h (@mkP N false 1 0 s) = Ok (mkP true 1 0 s).
Proof.
  intros (a & b & n & (s0 & l1 & -> & H0 & s1 & l2 & -> & H1 & H2) & Ha & Hn & Hb) Hk row.
  rewrite per_line_word by first [assumption|apply (numeral_word _ _ Ha)]. cbn [body]. now apply (header_ok k e (mkP false 1%Z 0%Z s) s0 a s1 b l2 n).
Qed.
(** A header and good lines. *)
Definition prefix {A} (k : Z) (spec : Z -> nat -> A -> text -> Prop) (entries : list A) (h : text) (rows : list text) (base : Z) : Prop :=
  header_line k h /\ (base = 0 \/ base = 1)%Z /\ length rows = length entries /\
  forall i a l, nth_error entries i = Some a -> nth_error rows i = Some l -> spec base i a l.
Definition vop (p : N * N) : mop N := AddVertex [fst p; snd p].
Definition eop (f : nat * nat * nat) : mop N := match f with (x, y, z) => AddElement x y z end.
Definition bare (n : nat) (s : mst) : Prop := wired n 0 s /\ forall k x, deref (hv s) k = Ok x -> mv_el x = [].
Lemma bare_new : bare 0 m_new.
Proof. split; [apply wired_new|]. intros k x Hx. destruct k; discriminate. Qed.
Lemma bare_add n s pos : bare n s -> returns (do_op (AddVertex pos) s) (bare (S n)).
Proof.
  intros (W & V). destruct (vertices_wired [pos] n s W V) as (s' & E & W'). cbn [map foreach length] in E.
  destruct (do_op (AddVertex pos) s) as [s1| | | | |] eqn:D; try discriminate. cbn [bind] in E. injection E as ->.
  exists s'. split; [reflexivity|]. rewrite Nat.add_1_r in W'. split; [exact W'|].
  intros k x Hx. unfold do_op, new_vertex, m_addVertex, set_hv in D. cbn [hv he hd mV mE mD] in D.
  rewrite deref_last in D. cbn [bind] in D. destruct (store_spec (hv s ++ [Some (mk_vertex pos)]) (length (hv s)) (mk_vertex pos)
    (mkMV (mv_bound (mk_vertex pos)) (mv_impl (mk_vertex pos)) (length (mV s)) (mv_pos (mk_vertex pos)) (mv_el (mk_vertex pos))) (deref_last _ _)) as (h & Eh & _ & Hall).
  rewrite Eh in D. cbn [bind] in D. injection D as <-. cbn [hv] in Hx.
  rewrite Hall in Hx. destruct (Nat.eqb_spec k (length (hv s))) as [-> | Hk].
  - injection Hx as <-. reflexivity.
  - assert (k < length (hv s)) by (apply deref_lt in Hx; rewrite app_length in Hx; cbn in Hx; lia).
    rewrite deref_app in Hx by assumption. apply (V k x Hx).
Qed.
Lemma nodes_prefix pts h rows base : prefix 2 (vertex_line conv) pts h rows base ->
  exists s st, foreach (map vop pts) do_op m_new = Ok s /\ foreach (h :: rows) (per_line (header 2 NodeError) (node_row conv)) (mkP false 1 0 m_new) = Ok st /\
    before base (length pts) s st /\ wired (length pts) 0 s.
Proof.
  intros (Hh & Hb & HL & HR).
  destruct (rows_fold (header 2 NodeError) (node_row conv) (vertex_line conv) vop base bare) with (i := 0) (rows := rows) (entries := pts) (s := @m_new N) (st := mkP true 1%Z 0%Z (@m_new N))
    as (s & st & A & B & C & (D & _)); auto.
  - intros i a l s st. intros. now apply node_row_ok.
  - reflexivity.
  - apply bare_new.
  - intros k a s _. apply bare_add.
  - exists s, st. split; [exact A|]. split; [|split; [exact C|exact D]]. cbn [foreach]. rewrite header_line_ok by (auto; reflexivity). cbn [bind]. exact B.
Qed.
Lemma elements_prefix n s els h rows base : wired n 0 s -> refers_to n els -> prefix 3 element_line els h rows base ->
  exists s' st, foreach (map eop els) do_op s = Ok s' /\ foreach (h :: rows) (per_line (header 3 ElementError) element_row) (mkP false 1 0 s) = Ok st /\
    before base (length els) s' st /\ wired n (length els) s'.
Proof.
  intros W Hr (Hh & Hb & HL & HR).
  assert (HLen : forall m (s : mst), wired n m s -> length (mV s) = n) by (intros m s1 W1; destruct (wi_alive _ _ _ W1) as (E & _); rewrite E; apply seq_length).
  destruct (rows_fold (header 3 ElementError) element_row (fun b i a l => element_line b i a l /\ refers_to n [a]) eop base (wired n)) with (i := 0) (rows := rows) (entries := els) (s := s)
      (st := mkP true 1%Z 0%Z s) as (s' & st & A & B & C & D); auto.
  - intros i ((x, y), z) l s1 st (Hl & Hx) HB W1. apply (element_row_ok base i (x, y, z) l s1 st); auto. rewrite (HLen _ _ W1). apply Hx. now left.
  - reflexivity.
  - intros k ((x, y), z) s1 K W1. apply nth_error_In in K. destruct (Hr x y z K) as (? & ? & ?). cbn [eop Nat.add]. now apply wired_add.
  - intros k a l K L. split; [now apply HR|]. intros x y z [-> | []]. apply Hr. eapply nth_error_In; eauto.
  - exists s', st. split; [exact A|]. split; [|split; [exact C|exact D]]. cbn [foreach]. rewrite header_line_ok by (auto; reflexivity). cbn [bind]. exact B.
Qed.
Lemma nodes_loaded pts f : node_file conv pts f ->
  exists s, foreach (map vop pts) do_op m_new = Ok s /\ setupNode conv m_new f = Ok s /\ wired (length pts) 0 s.
Proof.
  intros (ls & h & rows & base & F & C & P). destruct (nodes_prefix pts h rows base P) as (s & st & A & B & -> & D).
  exists s. split; [exact A|]. split; [|exact D]. unfold setupNode. rewrite (file_fold _ _ f ls (h :: rows) _ F C).
 rewrite B. reflexivity.
Qed.
Theorem tri_loads pts els f g : node_file conv pts f -> element_file els g -> refers_to (length pts) els ->
  loadString conv f g = let* s := build (tri_program pts els) in m_setupNeighbors s.
Proof.
  intros Hf Hg Hr. destruct (nodes_loaded pts f Hf) as (s & A & B & W). unfold loadString. rewrite B. cbn [bind].
  destruct Hg as (ls & h & rows & base & F & C & P). destruct (elements_prefix _ s els h rows base W Hr P) as (s' & st & A' & B' & -> & D').
  unfold setupElement. rewrite (file_fold _ _ g ls (h :: rows) _ F C), B'. cbn [bind mesh].
  unfold build, tri_program. rewrite foreach_app. fold vop eop. change (fun p => AddVertex [fst p; snd p]) with vop. change (fun f => match f with (x, y, z) => AddElement x y z end) with eop.
  rewrite A. cbn [bind]. rewrite A'. reflexivity.
Qed.
(** ** Errors *)
Lemma row_index_bad base i (s : mst) st sp w r n : before base i s st -> (base = 0 \/ base = 1)%Z -> numeral w n -> ends r -> r <> [] ->
  (if i =? 0 then n <> 0%Z /\ n <> 1%Z else n <> (base + Z.of_nat i)%Z) -> (base + Z.of_nat i < 2 ^ 64)%Z ->
  row_index (sp ++ w ++ r) (length sp) st = Throw NodeError.
Proof.
  intros B Hb Hw He Hr Hn L. unfold row_index. rewrite (extract_more read_size sp w n r (numeral_size _ _ Hw) He Hr). cbn [bind].
  unfold before in B. subst st. cbn [shift next].
  destruct Hw as (_ & D & Hv & Ln). pose proof (value_nonneg w 0 D ltac:(lia)) as P. rewrite Hv in P.
  replace (_ =? _)%Z with false; [reflexivity|]. symmetry. apply Z.eqb_neq. unfold u64, M64.
  destruct (Nat.eqb_spec i 0) as [-> | Hi].
  - replace (n =? 0)%Z with false by (symmetry; apply Z.eqb_neq; lia). cbn [Z.of_nat]. rewrite Z.mod_0_l by lia. rewrite Z.mod_small by lia. lia.
  - rewrite (Z.mod_small (Z.of_nat i)) by lia. destruct (Z.eqb_spec n 0) as [-> | Hn0]; [rewrite Z.sub_0_r, Z.mod_0_l by lia; lia|]. rewrite Z.mod_small by lia. lia.
Qed.
Lemma fold_throw head row h rows l more st0 st e : foreach (h :: rows) (@per_line N head row) st0 = Ok st -> per_line head row l st = Throw e ->
  foreach (h :: rows ++ l :: more) (per_line head row) st0 = Throw e.
Proof. intros A B. change (h :: rows ++ l :: more) with ((h :: rows) ++ l :: more). rewrite foreach_app, A. cbn [bind foreach]. rewrite B. reflexivity. Qed.
Lemma fold_ub head row h rows l more st0 st : foreach (h :: rows) (@per_line N head row) st0 = Ok st -> per_line head row l st = UB ->
  foreach (h :: rows ++ l :: more) (per_line head row) st0 = UB.
Proof. intros A B. change (h :: rows ++ l :: more) with ((h :: rows) ++ l :: more). rewrite foreach_app, A. cbn [bind foreach]. rewrite B. reflexivity. Qed.
Lemma blank_ends l : blank l -> ends l.
Proof. intros (s & r & -> & Hs & Hr). destruct Hs as [|c s Hc _]; cbn; [destruct Hr as [-> | (r' & ->)]; cbn; auto|auto]. Qed.
Lemma only_index base i (s : mst) st a l sp : before base i s st -> (base = 0 \/ base = 1)%Z -> numeral a (base + Z.of_nat i) -> ends l -> l <> [] ->
  row_index (sp ++ a ++ l) (length sp) st = Ok (base, length (sp ++ a)).
Proof.
  intros B Hb Ha He Hn. rewrite <- (row_index_ok base i s st sp a [" "%char] [] B Hb Ha) by (split; [discriminate|repeat constructor]).
  unfold row_index. rewrite (extract_more read_size sp a _ l (numeral_size _ _ Ha) He Hn).
  rewrite (extract_more read_size sp a _ ([" "%char] ++ []) (numeral_size _ _ Ha)) by first [discriminate|left; now left]. reflexivity.
Qed.
Lemma spaces_ends s l : spaces s -> ends (s ++ l) /\ s ++ l <> [].
Proof. intros (Hn & Hs). destruct Hs; [contradiction|]. split; [left; assumption|discriminate]. Qed.
Lemma node_row_short base i (s : mst) st l : before base i s st -> (base = 0 \/ base = 1)%Z -> short_vertex_line conv base i l ->
  per_line (header 2 NodeError) (node_row conv) l st = Throw NodeError.
Proof.
  intros B Hb (a & Ha & Hs). assert (Hbody : body st = true) by (unfold before in B; subst st; reflexivity).
  destruct Hs as [(s0 & l1 & -> & H0 & H1 & H2) | (b & x & Hd & (s0 & l1 & -> & H0 & s1 & l2 & -> & H1 & H2 & H3))].
  - rewrite per_line_word by first [assumption|apply (numeral_word _ _ Ha)]. rewrite Hbody. unfold node_row.
    rewrite (only_index base i s st) by first [assumption|now apply blank_ends]. cbn [bind]. rewrite (app_assoc s0 a), next_word_end by assumption. reflexivity.
  - apply denotes_T in Hd. rewrite per_line_word by first [assumption|apply (numeral_word _ _ Ha)]. rewrite Hbody. unfold node_row.
    rewrite (row_index_ok base i s st) by assumption. cbn [bind]. rewrite (app_assoc s0 a), next_word_ok by first [apply H1|apply Hd]. cbn [bind].
    rewrite (app_assoc (s0 ++ a)), (extract_more _ _ b x) by first [assumption|now apply blank_ends]. cbn [bind]. rewrite (app_assoc ((s0 ++ a) ++ s1)), next_word_end by assumption. reflexivity.
Qed.
Lemma element_row_short base i (s : mst) st l : before base i s st -> (base = 0 \/ base = 1)%Z -> short_element_line base i l ->
  per_line (header 3 ElementError) element_row l st = @Throw pstate NodeError.
Proof.
  intros B Hb (a & Ha & Hs). assert (Hbody : body st = true) by (unfold before in B; subst st; reflexivity).
  destruct Hs as [(s0 & l1 & -> & H0 & H1 & H2) | [(b & n & Hd & (s0 & l1 & -> & H0 & s1 & l2 & -> & H1 & H2 & H3)) | (b & n & c & m & Hd & Hc & (s0 & l1 & -> & H0 & s1 & l2 & -> & H1 & s2 & l3 & -> & H2 & H3 & H4))]].
  - rewrite per_line_word by first [assumption|apply (numeral_word _ _ Ha)]. rewrite Hbody. unfold element_row.
    rewrite (only_index base i s st) by first [assumption|now apply blank_ends]. cbn [bind]. rewrite (app_assoc s0 a), next_word_end by assumption. reflexivity.
  - apply numeral_size in Hd. rewrite per_line_word by first [assumption|apply (numeral_word _ _ Ha)]. rewrite Hbody. unfold element_row.
    rewrite (row_index_ok base i s st) by assumption. cbn [bind]. rewrite (app_assoc s0 a), next_word_ok by first [apply H1|apply Hd]. cbn [bind].
    rewrite (app_assoc (s0 ++ a)), (extract_more _ _ b n) by first [assumption|now apply blank_ends]. cbn [bind]. rewrite (app_assoc ((s0 ++ a) ++ s1)), next_word_end by assumption. reflexivity.
  - apply numeral_size in Hd, Hc. rewrite per_line_word by first [assumption|apply (numeral_word _ _ Ha)]. rewrite Hbody. unfold element_row.
    rewrite (row_index_ok base i s st) by assumption. cbn [bind]. rewrite (app_assoc s0 a), next_word_ok by first [apply H1|apply Hd]. cbn [bind].
    rewrite (app_assoc (s0 ++ a)), (extract_mid _ _ b n) by assumption. cbn [bind]. rewrite (app_assoc ((s0 ++ a) ++ s1)), next_word_ok by first [apply H2|apply Hc]. cbn [bind].
    rewrite (app_assoc (((s0 ++ a) ++ s1) ++ b)), (extract_more _ _ c m) by first [assumption|now apply blank_ends]. cbn [bind].
    rewrite (app_assoc ((((s0 ++ a) ++ s1) ++ b) ++ s2)), next_word_end by assumption. reflexivity.
Qed.
Lemma header_bad k e row h s : bad_header k h -> (0 < k < 2 ^ 31 - 1)%Z -> per_line (header k e) row h (@mkP N false 1 0 s) = Throw e.
Proof.
  intros (a & n & Ha & H) Hk. destruct H as [(-> & s0 & r & -> & H0 & He & Hr) | [(b & m & (s0 & l1 & -> & H0 & s1 & l2 & -> & H1 & H2) & Hb & Hm) | (s0 & l1 & -> & H0 & H1 & H2)]].
  - rewrite per_line_word by first [assumption|apply (numeral_word _ _ Ha)]. cbn [body]. unfold header.
    rewrite (extract_more read_size s0 a 0%Z r (numeral_size _ _ Ha) He Hr). reflexivity.
  - rewrite per_line_word by first [assumption|apply (numeral_word _ _ Ha)]. cbn [body]. unfold header.
    rewrite (extract_mid read_size s0 a n s1 _ (numeral_size _ _ Ha) H1). cbn [bind]. destruct (n =? 0)%Z; [reflexivity|].
    rewrite (app_assoc s0 a), next_word_ok by first [apply H1|apply (numeral_word _ _ Hb)]. cbn [bind]. rewrite (app_assoc (s0 ++ a)).
    assert (P : (s0 ++ a) ++ s1 <> []) by (apply app_nonnil, H1).
    unfold extract. rewrite skipn_pre. pose proof (numeral_int_value b m k l2 Hb H2 Hk) as V. destruct (read_int (b ++ l2)) as (v, t). cbn [fst] in V.
    assert (Q : forall j : nat, (let* r := Ok (v, j) in (if negb (fst r =? k)%Z then Throw e else let* _ := reserve n in Ok (@mkP N true 1 0 s))) = Throw e).
    { intros j. cbn [bind fst]. destruct (Z.eqb_spec v k) as [E | E]; [exfalso; apply Hm, V, E|reflexivity]. }
    destruct t as [t|]; [apply Q|]. destruct (length ((s0 ++ a) ++ s1)) as [|j] eqn:L; [destruct ((s0 ++ a) ++ s1); [contradiction|discriminate]|]. apply Q.
  - rewrite per_line_word by first [assumption|apply (numeral_word _ _ Ha)]. cbn [body]. unfold header.
    rewrite (extract_more read_size s0 a n l1 (numeral_size _ _ Ha) (blank_ends _ H1) H2). cbn [bind]. destruct (n =? 0)%Z; [reflexivity|].
    rewrite (app_assoc s0 a), next_word_end by assumption. reflexivity.
Qed.
Theorem header_nodes f g : header_wrong 2 f -> loadString conv f g = Throw NodeError.
Proof.
  intros (ls & h & more & F & C & B). unfold loadString, setupNode. rewrite (file_fold _ _ f ls (h :: more) _ F C). cbn [foreach].
  rewrite (header_bad 2) by (auto; lia). reflexivity.
Qed.
Theorem header_elements pts f g : node_file conv pts f -> header_wrong 3 g -> loadString conv f g = Throw ElementError.
Proof.
  intros Hf (ls & h & more & F & C & B). destruct (nodes_loaded pts f Hf) as (s & _ & E & _). unfold loadString, setupElement. rewrite E. cbn [bind].
  rewrite (file_fold _ _ g ls (h :: more) _ F C). cbn [foreach]. rewrite (header_bad 3) by (auto; lia). reflexivity.
Qed.
Lemma nodes_throw pts bad f g : table_then 2 (vertex_line conv) pts bad f ->
  (forall base i s st l, before base i s st -> (base = 0 \/ base = 1)%Z -> i = length pts -> bad base i l -> per_line (header 2 NodeError) (node_row conv) l st = Throw NodeError) ->
  loadString conv f g = Throw NodeError.
Proof.
  intros (ls & h & rows & l & more & base & F & C & Hh & Hb & HL & HR & HB) H.
  destruct (nodes_prefix pts h rows base (conj Hh (conj Hb (conj HL HR)))) as (s & st & A & B & D & _).
  unfold loadString, setupNode. rewrite (file_fold _ _ f ls (h :: rows ++ l :: more) _ F C).
  rewrite (fold_throw _ _ h rows l more _ st NodeError B); [reflexivity|]. apply (H base (length rows) s); auto. rewrite HL. exact D.
Qed.
Lemma elements_end (e : exn) pts els bad f g (out : res mst) : node_file conv pts f -> refers_to (length pts) els -> table_then 3 element_line els bad g ->
  (forall base i s st l, wired (length pts) (length els) s -> before base i s st -> (base = 0 \/ base = 1)%Z -> i = length els -> bad base i l -> per_line (header 3 ElementError) element_row l st = @Throw pstate e) ->
  loadString conv f g = Throw e.
Proof.
  intros Hf Hr (ls & h & rows & l & more & base & F & C & Hh & Hb & HL & HR & HB) H. destruct (nodes_loaded pts f Hf) as (s & _ & E & W).
  destruct (elements_prefix _ s els h rows base W Hr (conj Hh (conj Hb (conj HL HR)))) as (s' & st & A & B & D & W').
  unfold loadString, setupElement. rewrite E. cbn [bind]. rewrite (file_fold _ _ g ls (h :: rows ++ l :: more) _ F C).
  rewrite (fold_throw _ _ h rows l more _ st e B); [reflexivity|]. apply (H base (length rows) s'); auto. rewrite HL. exact D.
Qed.
Theorem nodes_numbered pts f g : (Z.of_nat (length pts) < 2 ^ 63)%Z -> table_then 2 (vertex_line conv) pts wrong_number f -> loadString conv f g = Throw NodeError.
Proof.
  intros L T. apply (nodes_throw pts _ f g T). intros base i s st l B Hb -> (s0 & w & r & n & -> & H0 & He & Hr & Hw & Hn).
  rewrite per_line_word by first [assumption|apply (numeral_word _ _ Hw)]. rewrite B at 1. cbn [body]. unfold node_row.
  rewrite (row_index_bad base (length pts) s st s0 w r n) by first [assumption|lia]. reflexivity.
Qed.
Theorem nodes_short pts f g : table_then 2 (vertex_line conv) pts (short_vertex_line conv) f -> loadString conv f g = Throw NodeError.
Proof. intros T. apply (nodes_throw pts _ f g T). intros base i s st l B Hb _ S. now apply (node_row_short base i s). Qed.
Theorem elements_numbered pts els f g : (Z.of_nat (length els) < 2 ^ 63)%Z -> node_file conv pts f -> refers_to (length pts) els -> table_then 3 element_line els wrong_number g ->
  loadString conv f g = Throw NodeError.
Proof.
  intros L Hf Hr T. apply (elements_end NodeError pts els _ f g UB Hf Hr T). intros base i s st l _ B Hb -> (s0 & w & r & n & -> & H0 & He & Hr' & Hw & Hn).
  rewrite per_line_word by first [assumption|apply (numeral_word _ _ Hw)]. rewrite B at 1. cbn [body]. unfold element_row.
  rewrite (row_index_bad base (length els) s st s0 w r n) by first [assumption|lia]. reflexivity.
Qed.
Theorem elements_short pts els f g : node_file conv pts f -> refers_to (length pts) els -> table_then 3 element_line els short_element_line g ->
  loadString conv f g = Throw NodeError.
Proof. intros Hf Hr T. apply (elements_end NodeError pts els _ f g UB Hf Hr T). intros base i s st l _ B Hb _ S. now apply (element_row_short base i s). Qed.
(** A reference out of range is used as it is. *)
Lemma tri_vertex_bad base v (s : mst) n w : numeral w v -> (base = 0 \/ base = 1)%Z -> length (mV s) = n -> (Z.of_nat n < 2 ^ 63)%Z -> ~ (base <= v < base + Z.of_nat n)%Z ->
  tri_vertex s (u64 (v - base)) = UB.
Proof.
  intros (_ & D & Hv & L) Hb Hn Ln H. pose proof (value_nonneg w 0 D ltac:(lia)) as P. rewrite Hv in P. unfold tri_vertex, u64, M64. rewrite Hn.
  replace (_ <? _)%Z with false; [reflexivity|]. symmetry. apply Z.ltb_ge. destruct (Z.lt_ge_cases v base).
  - assert (v = 0 /\ base = 1)%Z as (-> & ->) by lia. change ((0 - 1) mod 2 ^ 64)%Z with (2 ^ 64 - 1)%Z. lia.
  - rewrite Z.mod_small by lia. lia.
Qed.
Lemma tri_vertex_any (s : mst) i : (exists p, tri_vertex s i = Ok p) \/ tri_vertex s i = UB.
Proof.
  unfold tri_vertex. destruct (_ <? _)%Z; [|auto]. unfold m_vertex, vget. destruct (nth_error _ _); eauto.
Qed.
Theorem bad_reference_ub pts els f g : (Z.of_nat (length pts) < 2 ^ 63)%Z -> node_file conv pts f -> refers_to (length pts) els -> table_then 3 element_line els (bad_reference (length pts)) g ->
  loadString conv f g = UB.
Proof.
  intros Ln Hf Hr (ls & h & rows & l & more & base & F & C & Hh & Hb & HL & HR & HB). destruct (nodes_loaded pts f Hf) as (s & _ & E & W).
  destruct (elements_prefix _ s els h rows base W Hr (conj Hh (conj Hb (conj HL HR)))) as (s' & st & A & B & D & W').
  unfold loadString, setupElement. rewrite E. cbn [bind]. rewrite (file_fold _ _ g ls (h :: rows ++ l :: more) _ F C).
  rewrite (fold_ub _ _ h rows l more _ st B); [reflexivity|]. rewrite HL in HB.
  destruct HB as (w & a & b & c & x & y & z & Hl & Hw & Ha & Hb' & Hc & v & Hv & Hn).
  rewrite (element_row_read base (length els) w a b c x y z l s' st Hl Hw Ha Hb' Hc Hb D).
  assert (HV : length (mV s') = length pts) by (destruct (wi_alive _ _ _ W') as (Q & _); rewrite Q; apply seq_length).
  destruct Hv as [-> | [-> | [-> | []]]].
  - rewrite (tri_vertex_bad base v s' (length pts) a) by assumption. reflexivity.
  - destruct (tri_vertex_any s' (u64 (x - base))) as [(p & ->) | ->]; [cbn [bind]|reflexivity]. rewrite (tri_vertex_bad base v s' (length pts) b) by assumption. reflexivity.
  - destruct (tri_vertex_any s' (u64 (x - base))) as [(p & ->) | ->]; [cbn [bind]|reflexivity]. destruct (tri_vertex_any s' (u64 (y - base))) as [(q & ->) | ->]; [cbn [bind]|reflexivity].
    rewrite (tri_vertex_bad base v s' (length pts) c) by assumption. reflexivity.
Qed.
End Tri.

(** ** Any text whose lines are indented *)
Lemma getlines_is_lines l : forall cur, ~ In newline cur ->
  (forall x, In x (getlines_from cur l) -> ~ In newline x) /\
  (cur ++ l = concat (map (fun x => x ++ [newline]) (getlines_from cur l)) \/ (cur ++ l) ++ [newline] = concat (map (fun x => x ++ [newline]) (getlines_from cur l))).
Proof.
  induction l as [|c l IH]; intros cur Hc; cbn [getlines_from].
  - destruct cur as [|d cur]; [split; [intros x []|left; reflexivity]|]. split; [intros x [<- | []]; exact Hc|]. right. cbn. rewrite !app_nil_r. reflexivity.
  - destruct (is_nl c) eqn:E.
    + apply code_newline in E. subst c. destruct (IH [] (fun H => H)) as (A & B). split; [intros x [<- | H]; auto|]. cbn [app map concat] in *.
      destruct B as [B | B]; [left|right]; rewrite <- B; rewrite <- ?app_assoc; reflexivity.
    + destruct (IH (cur ++ [c])) as (A & B). { rewrite in_app_iff. intros [H | [H | []]]; [auto|]. apply code_newline in H. congruence. }
      rewrite <- app_assoc in B. auto.
Qed.
Lemma getlines_file_lines f : file_lines f (getlines f).
Proof. destruct (getlines_is_lines f [] (fun H => H)) as (A & B). split; auto. Qed.
Lemma post_seq {A B} (r : res A) (f : A -> res B) P E0 Q (E : exn -> Prop) : post r P E0 -> (forall e, E0 e -> E e) -> (forall a, P a -> post (f a) Q E) -> post (bind r f) Q E.
Proof. destruct r; cbn; auto. Qed.
Lemma decimal_nonneg w : forall v, (0 <= v -> 0 <= fold_left (fun v c => (10 * v + Z.of_nat (code c - 48))%Z) w v)%Z.
Proof. induction w as [|c w IH]; intros v H; [exact H|]. cbn [fold_left]. apply IH. lia. Qed.
Lemma read_size_nonneg l : (0 <= fst (read_size l))%Z.
Proof.
  unfold read_size. cbn [fst]. destruct (digits _) as [|c w]; [lia|]. destruct (M64 <=? _)%Z; [unfold M64; lia|]. destruct (negative l); [apply Z.mod_pos_bound; unfold M64; lia|].
  apply decimal_nonneg. lia.
Qed.
Lemma extract_nonneg line it n j : extract read_size line it = Ok (n, j) -> (0 <= n)%Z.
Proof.
  unfold extract. pose proof (read_size_nonneg (skipn it line)) as P. destruct (read_size _) as (v, [t|]); cbn [fst] in P; [intros H; injection H; intros; subst; exact P|].
  destruct it; [discriminate|]. intros H; injection H; intros; subst; exact P.
Qed.
Section Safe.
Context {N : Num}.
Variable conv : text -> N * bool.
Lemma skip_from_ge l : forall it, it <= skip_from l it.
Proof. induction l as [|c l IH]; intros it; cbn; [lia|]. destruct (is_hash c); [lia|]. destruct (isspace c); [specialize (IH (S it)); lia|lia]. Qed.
Lemma skip_indented c r it : space c -> 1 <= skipWS (c :: r) it.
Proof.
  intros H. unfold skipWS. destruct it as [|it]; [|pose proof (skip_from_ge (skipn (S it) (c :: r)) (S it)); lia].
  cbn [skipn skip_from]. rewrite (proj1 (space_other _ H)), (space_char _ H). pose proof (skip_from_ge r 1). lia.
Qed.
Lemma next_word_indented e c r it : space c -> post (next_word e (c :: r) it) (fun j => 1 <= j) (fun x => x = e).
Proof. intros H. unfold next_word. destruct (_ =? _); [reflexivity|]. now apply skip_indented. Qed.
Lemma extract_safe {A} (rd : text -> A * option nat) line it : 1 <= it -> returns (extract rd line it) (fun _ => True).
Proof. intros H. unfold extract. destruct (rd _) as (v, [t|]); [eexists; split; eauto|]. destruct it; [lia|]. eexists; split; eauto. Qed.
Definition node_exn (e : exn) : Prop := e = NodeError \/ e = LengthError.
Definition made (st : pstate (N := N)) : Prop := exists pts, foreach (map vop pts) do_op m_new = Ok (mesh st) /\ bare (length pts) (mesh st).
Lemma per_line_safe c r st : space c -> made st -> post (per_line (header 2 NodeError) (node_row conv) (c :: r) st) made node_exn.
Proof.
  intros Hc M. unfold per_line. pose proof (skip_indented c r 0 Hc) as H. destruct (_ =? _); [exact M|]. destruct (body st).
  - unfold node_row, row_index. destruct (extract_safe read_size (c :: r) _ H) as ((i, it) & -> & _). cbn [bind].
    destruct (negb _); [left; reflexivity|]. cbn [bind].
    eapply post_seq; [apply next_word_indented; exact Hc|intros e ->; left; reflexivity|]. intros j Hj. cbn beta.
    destruct (extract_safe (read_T conv) (c :: r) _ Hj) as ((x, it') & -> & _). cbn [bind].
    eapply post_seq; [apply next_word_indented; exact Hc|intros e ->; left; reflexivity|]. intros j' Hj'. cbn beta.
    destruct (extract_safe (read_T conv) (c :: r) _ Hj') as ((y, it'') & -> & _). cbn [bind fst].
    destruct M as (pts & F & B). destruct (bare_add _ _ [x; y] B) as (s' & E & B'). unfold do_op in E.
    destruct (new_vertex (mesh st) [x; y]) as (s1, p) eqn:E1. rewrite E. cbn [bind post]. exists (pts ++ [(x, y)]). cbn [mesh].
    rewrite map_app, foreach_app, F. cbn [bind map foreach vop fst snd do_op]. rewrite E1, E. cbn [bind]. rewrite app_length, Nat.add_1_r. auto.
  - unfold header. destruct (extract_safe read_size (c :: r) _ H) as ((n, it) & En' & _). pose proof (extract_nonneg _ _ _ _ En') as Pn. rewrite En'. cbn [bind].
    destruct (n =? 0)%Z eqn:En; [left; reflexivity|].
    eapply post_seq; [apply next_word_indented; exact Hc|intros e ->; left; reflexivity|]. intros j Hj. cbn beta.
    destruct (extract_safe read_int (c :: r) _ Hj) as ((x, it') & -> & _). cbn [bind fst]. destruct (negb _); [left; reflexivity|].
    unfold reserve. apply Z.eqb_neq in En. replace (0 <? n)%Z with true by (symmetry; apply Z.ltb_lt; lia). cbn [assert_ bind].
    destruct (_ <? n)%Z; [right; reflexivity|]. exact M.
Qed.
Theorem nodes_safe f : indented f ->
  (exists pts, loadString conv f [] = let* s := build (map vop pts) in m_setupNeighbors s) \/ loadString conv f [] = Throw NodeError \/ loadString conv f [] = Throw LengthError.
Proof.
  intros HI. assert (P : post (foreach (getlines f) (per_line (header 2 NodeError) (node_row conv)) (mkP false 1 0 m_new)) made node_exn).
  { apply (foreach_post (fun _ => made) node_exn _ (getlines f) []); [exists []; split; [reflexivity|apply bare_new]|].
    intros l d st Hl M. destruct l as [|c r]; [exact M|]. apply per_line_safe; [|exact M]. apply (HI _ _ _ _ (getlines_file_lines f) Hl eq_refl). }
  unfold loadString, setupNode. destruct (foreach _ _ _) as [st|e| | | |]; cbn [post] in P; try contradiction.
  - left. destruct P as (pts & F & _). exists pts. unfold build. rewrite F. reflexivity.
  - right. destruct P as [-> | ->]; auto.
Qed.
End Safe.
Section Mesh.
Context {N : Num}.
Variable conv : text -> N * bool.
Lemma tri_points (pts : list (N * N)) els : points (tri_program pts els) = map (fun p => [fst p; snd p]) pts.
Proof. unfold tri_program. induction pts as [|p l IH]; cbn [map app points]; [|now rewrite IH]. induction els as [|((x, y), z) l IH]; auto. Qed.
Lemma tri_tris (pts : list (N * N)) els : tris (tri_program pts els) = map (fun f => match f with (x, y, z) => [x; y; z] end) els.
Proof. unfold tri_program. induction pts as [|p l IH]; cbn [map app tris]; auto. induction els as [|((x, y), z) l IH]; cbn [map tris]; congruence. Qed.
Lemma tri_marked (pts : list (N * N)) els k : ~ marked (tri_program pts els) k.
Proof. unfold marked, tri_program. rewrite in_app_iff, !in_map_iff. intros [(? & ? & _)|(((x, y), z) & ? & _)]; discriminate. Qed.
Lemma tri_valid (pts : list (N * N)) els : refers_to (length pts) els -> (forall x y z, In (x, y, z) els -> NoDup [x; y; z]) -> valid 0 (tri_program pts els).
Proof.
  intros Hr Hd. unfold tri_program. assert (G : forall (l : list (N * N)) n, n + length l = length pts -> valid n (map (fun p => AddVertex [fst p; snd p]) l ++ map (fun f => match f with (x, y, z) => AddElement x y z end) els)).
  { induction l as [|p l IH]; intros n Hn; cbn [map app valid length] in *.
    - rewrite Nat.add_0_r in Hn. subst n. clear - Hr Hd. induction els as [|((x, y), z) l IH]; cbn [map valid]; auto.
      pose proof (Hr x y z (or_introl eq_refl)) as R. pose proof (Hd x y z (or_introl eq_refl)) as D.
      apply NoDup_cons_iff in D as (D1 & D). apply NoDup_cons_iff in D as (D2 & _). cbn in D1, D2.
      split; [exact R|]. split; [repeat split; intros E; [apply D1|apply D1|apply D2]; rewrite E; auto|].
      apply IH; intros ? ? ? H; [apply Hr|apply Hd]; now right.
    - split; auto. apply IH. lia. }
  apply G. reflexivity.
Qed.
Theorem tri_mesh pts els f g : node_file conv pts f -> element_file els g -> refers_to (length pts) els -> (forall x y z, In (x, y, z) els -> NoDup [x; y; z]) ->
  let T := map (fun f => match f with (x, y, z) => [x; y; z] end) els in
  (~ three_share_a_face T -> returns (loadString conv f g) (holds (map (fun p => [fst p; snd p]) pts) (fun _ => False) T)) /\
  (three_share_a_face T -> loadString conv f g = Throw TooManySharedFaces).
Proof.
  intros Hf Hg Hr Hd T. rewrite (tri_loads conv pts els f g Hf Hg Hr). pose proof (tri_valid pts els Hr Hd) as Hv. unfold T. rewrite <- (tri_tris pts els). split; intros H3.
  - destruct (setup_holds _ Hv H3) as (s & Hs & [A B C]). exists s. split; auto. rewrite tri_points in *. constructor; auto.
    intros k Hk. destruct (B k Hk) as (B1 & x & B2 & B3 & B4 & B5). split; auto. exists x. split; [auto|]. split; [auto|]. split; [auto|]. split; [|intros []].
    intros F. apply B5 in F. now apply tri_marked in F.
  - now apply (setup_iff _ Hv).
Qed.
End Mesh.
