(** Proofs of the statements of PropDense.v. *)
From Coq Require Import List Arith Bool Lia Ring Field Field_theory.
From Verif Require Import Base BaseProofs Num Spec SpecProofs VectorModel VectorProofs SparseModel SparseSpec SparseOps
  SparseProofs SparseOps3 SparseFacts SparseFacts2 DenseModel DenseSpec DenseProofs MatI MatIProofs.
Import ListNotations.
Local Open Scope nat_scope.
Open Scope res_scope.

Section General.
Variable N : Num.
Implicit Types (m A B : dmat N) (a b : nat -> nat -> N).
Let bw := @dbuilt_wf N.

Lemma hr m d1 d2 a : @holds N (DenseI N) m d1 d2 a -> dreads m d1 d2 a.
Proof. intros H. exact (proj2 (proj1 (holds_dreads m d1 d2 a) H)). Qed.
Lemma rh m d1 d2 a : dbuilt m -> dreads m d1 d2 a -> @holds N (DenseI N) m d1 d2 a.
Proof. intros Hb H. apply holds_dreads. split; auto. Qed.

Lemma pd_reads m : dbuilt m -> exists a, dreads m (d_rows m) (d_cols m) a.
Proof. intros H. exists (tab m). apply hr. apply dwf_holds. now apply bw. Qed.
Lemma pd_new d1 d2 :
  (0 < d1 -> 0 < d2 -> exists m, d_new d1 d2 = Ok m /\ dbuilt m /\ dreads m d1 d2 (fun _ _ => n0)) /\
  (d1 = 0 \/ d2 = 0 -> @d_new N d1 d2 = Abort) /\
  dreads (@d_fixed_new N d1 d2) d1 d2 (fun _ _ => n0).
Proof.
  split; [|split].
  - intros H1 H2. destruct (holds_new (@dense_laws N) d1 d2 H1 H2) as (m & E & Hm). exists m. split; auto.
    split; [eapply db_new; exact E|]. now apply hr.
  - apply (ml_new0 _ (@dense_laws N)).
  - apply hr, holds_fixed.
Qed.
Lemma pd_do m d1 d2 a o : dbuilt m -> dreads m d1 d2 a -> in_range d1 d2 o ->
  exists m', d_do m o = Ok m' /\ dbuilt m' /\
   dreads m' d1 d2 (fun i j => if (fst (target d2 o) =? i) && (snd (target d2 o) =? j) then payload o else a i j).
Proof.
  intros Hb Hr Ho. pose proof (rh _ _ _ _ Hb Hr) as Hh. destruct o as [i j v|k v]; cbn [in_range d_do target payload fst snd] in *.
  - destruct (holds_set (@dense_laws N) m d1 d2 a i j v Hh) as (m' & E & H'); try tauto. exists m'. split; auto.
    split; [eapply db_set; [exact Hb|exact E]|]. apply hr. eapply holds_ext; [exact H'|]. intros i' j' _ _. unfold put2.
    now rewrite (Nat.eqb_sym i'), (Nat.eqb_sym j').
  - destruct Hr as (R1 & R2 & R3). unfold d_rows, d_cols in *. destruct (idx_div_lt _ _ _ Ho).
    destruct (holds_set (@dense_laws N) m d1 d2 a (k / d2) (k mod d2) v Hh) as (m' & E & H'); auto.
    exists m'. cbn [mi_set DenseI] in E. split; [rewrite d_lin_set; subst; auto|].
    split; [eapply db_set; [exact Hb|exact E]|]. apply hr. eapply holds_ext; [exact H'|]. intros i' j' _ _. unfold put2.
    now rewrite (Nat.eqb_sym i'), (Nat.eqb_sym j').
Qed.
Lemma pd_history ops : forall m d1 d2 a, dbuilt m -> dreads m d1 d2 a -> Forall (in_range d1 d2) ops ->
  exists m', d_run m ops = Ok m' /\ dbuilt m' /\ dreads m' d1 d2 (fun i j => last_write d2 ops i j (a i j)).
Proof.
  induction ops as [|o ops IH]; intros m d1 d2 a Hb Hr Ho; cbn [d_run].
  - exists m. auto.
  - inversion_clear Ho. destruct (pd_do m d1 d2 a o) as (m1 & -> & Hb1 & Hr1); auto. cbn [bind].
    destruct (IH m1 d1 d2 _ Hb1 Hr1) as (m' & E & Hb' & Hr'); auto. exists m'. split; auto.
Qed.
Lemma pd_out m d1 d2 a : dreads m d1 d2 a ->
  (forall i j v, d1 <= i \/ d2 <= j -> d_at m i j = Abort /\ d_set m i j v = Abort /\ d_has m i j = Abort) /\
  (forall k v, d1 * d2 <= k -> d_linear_at m k = Abort /\ d_linear_set m k v = Abort).
Proof.
  intros (<- & <- & _). split.
  - intros i j v H. unfold d_has. rewrite d_at_out, d_set_out by auto. auto.
  - intros. now apply d_lin_out.
Qed.
Lemma pd_has m d1 d2 a : dreads m d1 d2 a -> forall i j, i < d1 -> j < d2 ->
  d_has m i j = Ok (negb (is0 (a i j))) /\ d_has_val m i j = Ok (negb (is0 (a i j)), a i j).
Proof. intros (_ & _ & H) i j Hi Hj. unfold d_has, d_has_val. rewrite H by auto. auto. Qed.
Lemma pd_linear m d1 d2 a : dbuilt m -> dreads m d1 d2 a ->
  (forall i j, i < d1 -> j < d2 -> i * d2 + j < d_size m /\
     d_linear_at m (i * d2 + j) = d_at m i j /\ forall v, d_linear_set m (i * d2 + j) v = d_set m i j v) /\
  (forall k, k < d_size m -> exists i j, i < d1 /\ j < d2 /\ k = i * d2 + j /\
     d_linear_at m k = d_at m i j /\ forall v, d_linear_set m k v = d_set m i j v).
Proof.
  intros Hb (<- & <- & _). apply bw in Hb. unfold d_size, d_rows, d_cols.
  assert (H1 : forall i j, i < dr m -> j < dc m -> i * dc m + j < dr m * dc m /\
     d_linear_at m (i * dc m + j) = d_at m i j /\ forall v, d_linear_set m (i * dc m + j) v = d_set m i j v).
  { intros i j Hi Hj. pose proof (idx_lt _ _ _ _ Hi Hj). destruct (idx_div_eq i j (dc m) Hj) as (E1 & E2).
    split; auto. split; [|intros v]; [rewrite d_lin_at|rewrite d_lin_set]; auto; now rewrite E1, E2. }
  split; auto. intros k Hk. destruct (idx_split _ _ _ Hk) as (i & j & -> & Hi & Hj). exists i, j.
  destruct (H1 i j Hi Hj) as (_ & ? & ?). auto.
Qed.

(** elementwise *)
Lemma flat_reads m d1 d2 a i j : dbuilt m -> dreads m d1 d2 a -> i < d1 -> j < d2 ->
  nth (i * d2 + j) (dv m) n0 = a i j.
Proof. intros Hb Hr Hi Hj. destruct (dreads_tab _ _ _ _ (bw _ Hb) Hr) as (-> & -> & H). now rewrite H. Qed.
Lemma pd_combine op A B d1 d2 a b : dbuilt A -> dbuilt B -> dreads A d1 d2 a -> dreads B d1 d2 b ->
  exists C, d_combine_eq op A B = Ok C /\ dbuilt C /\ dreads C d1 d2 (fun i j => op (a i j) (b i j)).
Proof.
  intros HA HB RA RB. assert (E : d_size A = d_size B).
  { destruct RA as (? & ? & _), RB as (? & ? & _). unfold d_size. congruence. }
  pose proof (combine_ok op A B (bw _ HA) (bw _ HB) E) as Ec. eexists. split; [exact Ec|].
  split; [exact (db_combine _ _ _ _ HA HB Ec)|]. apply hr.
  destruct (dreads_tab _ _ _ _ (bw _ HA) RA) as (E1 & E2 & _). rewrite <- E1, <- E2.
  eapply holds_ext; [apply flat_holds|]. intros i j Hi Hj. cbn beta.
  now rewrite (flat_reads A d1 d2 a), (flat_reads B d1 d2 b).
Qed.
Lemma pd_ops A B d1 d2 a b : dbuilt A -> dbuilt B -> dreads A d1 d2 a -> dreads B d1 d2 b ->
  (exists C, d_add A B = Ok C /\ d_add_eq A B = Ok C /\ dbuilt C /\ dreads C d1 d2 (fun i j => (a i j + b i j)%num)) /\
  (exists C, d_sub A B = Ok C /\ d_sub_eq A B = Ok C /\ dbuilt C /\ dreads C d1 d2 (fun i j => (a i j - b i j)%num)) /\
  (exists C, d_hadamard A B = Ok C /\ d_hadamard_eq A B = Ok C /\ dbuilt C /\ dreads C d1 d2 (fun i j => (a i j * b i j)%num)).
Proof.
  intros HA HB RA RB. repeat split.
  - destruct (pd_combine nadd A B d1 d2 a b) as (C & E & ? & ?); auto. exists C. auto.
  - destruct (pd_combine nsub A B d1 d2 a b) as (C & E & ? & ?); auto. exists C. auto.
  - destruct (pd_combine nmul A B d1 d2 a b) as (C & E & ? & ?); auto. exists C. auto.
Qed.
Lemma pd_size_mismatch A B : d_rows A * d_cols A <> d_rows B * d_cols B ->
  d_add A B = Throw MatrixSizeMismatch /\ d_sub A B = Throw MatrixSizeMismatch /\ d_hadamard A B = Throw MatrixSizeMismatch /\
  d_add_eq A B = Throw MatrixSizeMismatch /\ d_sub_eq A B = Throw MatrixSizeMismatch /\ d_hadamard_eq A B = Throw MatrixSizeMismatch.
Proof. intros H. repeat split; apply combine_mismatch; exact H. Qed.
Lemma pd_reshape op A B d1 d2 e1 e2 a b : dbuilt A -> dbuilt B -> dreads A d1 d2 a -> dreads B e1 e2 b -> d1 * d2 = e1 * e2 ->
  exists C, d_combine_eq op A B = Ok C /\
    dreads C d1 d2 (fun i j => op (a i j) (b ((i * d2 + j) / e2) ((i * d2 + j) mod e2))).
Proof.
  intros HA HB RA RB Hs. assert (E : d_size A = d_size B).
  { destruct RA as (? & ? & _), RB as (? & ? & _). unfold d_size. congruence. }
  pose proof (combine_ok op A B (bw _ HA) (bw _ HB) E) as Ec. eexists. split; [exact Ec|]. apply hr.
  destruct (dreads_tab _ _ _ _ (bw _ HA) RA) as (E1 & E2 & _). rewrite <- E1, <- E2.
  eapply holds_ext; [apply flat_holds|]. intros i j Hi Hj. cbn beta.
  rewrite (flat_reads A d1 d2 a) by auto. f_equal.
  pose proof (idx_lt _ _ _ _ Hi Hj) as Hk. rewrite Hs in Hk. destruct (idx_div_lt _ _ _ Hk).
  rewrite <- (flat_reads B e1 e2 b) by auto. now rewrite idx_div by lia.
Qed.
Lemma pd_self op A d1 d2 a : dbuilt A -> dreads A d1 d2 a ->
  exists C, d_combine_self op A = Ok C /\ dbuilt C /\ dreads C d1 d2 (fun i j => op (a i j) (a i j)).
Proof.
  intros HA RA. pose proof (self_ok op A (bw _ HA)) as Ec. eexists. split; [exact Ec|].
  split; [exact (db_self _ _ _ HA Ec)|]. apply hr.
  destruct (dreads_tab _ _ _ _ (bw _ HA) RA) as (E1 & E2 & _). rewrite <- E1, <- E2.
  eapply holds_ext; [apply flat_holds|]. intros i j Hi Hj. cbn beta. now rewrite (flat_reads A d1 d2 a).
Qed.
Lemma pd_scale A d1 d2 a f : dbuilt A -> dreads A d1 d2 a ->
  exists C, d_scale A f = Ok C /\ d_scale_eq A f = Ok C /\ dbuilt C /\ dreads C d1 d2 (fun i j => (a i j * f)%num).
Proof.
  intros HA RA. pose proof (dscale_ok A f (bw _ HA)) as Ec. eexists. split; [exact Ec|]. split; [exact Ec|].
  split; [exact (db_scale _ _ _ HA Ec)|]. apply hr.
  destruct (dreads_tab _ _ _ _ (bw _ HA) RA) as (E1 & E2 & _). rewrite <- E1, <- E2.
  eapply holds_ext; [apply flat_holds|]. intros i j Hi Hj. cbn beta. now rewrite (flat_reads A d1 d2 a).
Qed.
Lemma pd_alias A d1 d2 a p q : dbuilt A -> dreads A d1 d2 a -> p < d1 -> q < d2 ->
  exists C, d_scale_alias A (p * d2 + q) = Ok C /\
    dreads C d1 d2 (fun i j => (a i j * (if i * d2 + j <=? p * d2 + q then a p q else a p q * a p q))%num).
Proof.
  intros HA RA Hp Hq. destruct (dreads_tab _ _ _ _ (bw _ HA) RA) as (E1 & E2 & _).
  pose proof (idx_lt _ _ _ _ Hp Hq). rewrite alias_ok by (auto; subst; auto).
  eexists. split; [reflexivity|]. apply hr. rewrite <- E1, <- E2.
  eapply holds_ext; [apply flat_holds|]. intros i j Hi Hj. cbn beta.
  now rewrite !(flat_reads A d1 d2 a).
Qed.

(** products and transposition *)
Lemma pd_mul A B d1 d2 d3 a b : dbuilt A -> dbuilt B -> dreads A d1 d2 a -> dreads B d2 d3 b ->
  exists C, d_fixed_mul A B = Ok C /\ dbuilt C /\ dreads C d1 d3 (prod2 d2 a b) /\
    (0 < d1 -> 0 < d3 -> d_mul A B = Ok C).
Proof.
  intros HA HB RA RB. destruct (mul_ok A B _ _ _ _ _ RA RB) as ((C & E & HC) & He). exists C. split; auto.
  split; [exact (db_fmul _ _ _ HA HB E)|]. split; [now apply hr|]. intros. now rewrite He.
Qed.
Lemma pd_mulv A d1 d2 a : dreads A d1 d2 a -> forall v,
  (length v = d2 -> d_mulv A v = Ok (map (fun i => bigsum d2 (fun j => (a i j * nth j v n0)%num)) (seq 0 d1))) /\
  (length v = d1 -> d_mulv_left A v = Ok (map (fun j => bigsum d1 (fun i => (a i j * nth i v n0)%num)) (seq 0 d2))) /\
  (length v <> d2 -> d_mulv A v = Throw MatrixMulMismatch) /\
  (length v <> d1 -> d_mulv_left A v = Throw MatrixMulMismatch).
Proof.
  intros R v. repeat split; intros.
  - now apply mulv_ok.
  - now apply mulv_left_ok.
  - apply mulv_mismatch. destruct R as (? & ? & _). congruence.
  - apply mulv_left_mismatch. destruct R as (? & ? & _). congruence.
Qed.
Lemma pd_transpose A d1 d2 a : dbuilt A -> dreads A d1 d2 a ->
  exists C, d_fixed_transpose A = Ok C /\ dbuilt C /\ dreads C d2 d1 (fun i j => a j i) /\
    (0 < d1 -> 0 < d2 -> d_transpose A = Ok C).
Proof.
  intros HA RA. destruct (transpose_ok A d1 d2 a (bw _ HA) RA) as ((C & E & HC) & He). exists C. split; auto.
  split; [exact (db_ftranspose _ _ HA E)|]. split; [now apply hr|]. intros. now rewrite He.
Qed.
Lemma pd_conj A d1 d2 a : dbuilt A -> dreads A d1 d2 a -> 0 < d1 -> 0 < d2 ->
  (exists C, d_conjugate A = Ok C /\ dbuilt C /\ dreads C d1 d2 (fun i j => nconj (a i j))) /\
  (exists C, d_adjugate A = Ok C /\ dbuilt C /\ dreads C d2 d1 (fun i j => nconj (a j i))).
Proof.
  intros HA RA H1 H2. split.
  - destruct (conjugate_ok A d1 d2 a (bw _ HA) RA H1 H2) as (C & E & HC). exists C. split; auto.
    split; [exact (db_conjugate _ _ HA E)|now apply hr].
  - destruct (adjugate_ok A d1 d2 a (bw _ HA) RA H1 H2) as (C & E & HC). exists C. split; auto.
    split; [exact (db_adjugate _ _ HA E)|now apply hr].
Qed.

(** iteration *)
Lemma in_pos p r c : In p (positions r c) <-> fst p < r /\ snd p < c.
Proof.
  unfold positions. destruct p as (i, j). rewrite in_prod_iff, !in_seq. cbn. lia.
Qed.
Lemma pd_entries m d1 d2 a : dreads m d1 d2 a ->
  d_entries m = Ok (map (with_value a) (positions d1 d2)).
Proof.
  intros (<- & <- & H). unfold d_entries. rewrite d_for_ok. rewrite (collect m a); auto.
  intros p Hp. apply in_pos in Hp. destruct Hp. auto.
Qed.
Lemma pd_for {St} m d1 d2 a (f : nat -> nat -> N -> St -> res St) s : dreads m d1 d2 a ->
  d_for m (fun it s => let* v := di_get m it in f (di1 it) (di2 it) v s) s
  = foreach (positions d1 d2) (fun p s => f (fst p) (snd p) (a (fst p) (snd p)) s) s.
Proof.
  intros (<- & <- & H). rewrite d_for_ok.
  assert (G : forall p, In p (positions (d_rows m) (d_cols m)) -> fst p < d_rows m /\ snd p < d_cols m) by (intros p; apply in_pos).
  fold (d_rows m) (d_cols m). revert s G. induction (positions (d_rows m) (d_cols m)) as [|p l IH]; intros s G; auto. cbn [map foreach].
  destruct (G p) as (G1 & G2); [now left|]. unfold to_dit at 1 2 3. cbn [di1 di2].
  unfold di_get at 1, di_valid. cbn [di1 di2]. bdec. cbn [andb]. rewrite H by auto. cbn [bind].
  destruct (f _ _ _ s); cbn [bind]; auto. apply IH. intros q Hq. apply G. now right.
Qed.
Lemma pd_row m d1 d2 a i : dreads m d1 d2 a ->
  (i < d1 -> d_row_entries m i = Ok (map (fun j => (i, j, a i j)) (seq 0 d2))) /\
  (d1 <= i -> d_row_entries m i = Abort).
Proof.
  intros (<- & <- & H). split; intros Hi.
  - unfold d_row_entries. rewrite d_for_row_ok by auto.
    replace (map (fun j => mkDI i j) (seq 0 (dc m))) with (map to_dit (map (pair i) (seq 0 (dc m)))) by (rewrite map_map; reflexivity).
    rewrite (collect m a).
    + now rewrite map_map.
    + intros p Hp. apply in_map_iff in Hp. destruct Hp as (j & <- & Hj). apply in_seq in Hj. cbn.
      unfold d_rows, d_cols in *. split; [lia|]. split; [lia|]. apply H; lia.
  - unfold d_row_entries, d_for_row, d_row_begin. bdec. reflexivity.
Qed.
Lemma pd_col m d1 d2 a j : dreads m d1 d2 a ->
  (j < d2 -> d_col_entries m j = Ok (map (fun i => (i, j, a i j)) (seq 0 d1))) /\
  (d2 <= j -> d_col_entries m j = Abort).
Proof.
  intros (<- & <- & H). split; intros Hj.
  - unfold d_col_entries. rewrite d_for_col_ok by auto.
    replace (map (fun i => mkDI i j) (seq 0 (dr m))) with (map to_dit (map (fun i => (i, j)) (seq 0 (dr m)))) by (rewrite map_map; reflexivity).
    rewrite (collect m a).
    + now rewrite map_map.
    + intros p Hp. apply in_map_iff in Hp. destruct Hp as (i & <- & Hi). apply in_seq in Hi. cbn.
      unfold d_rows, d_cols in *. split; [lia|]. split; [lia|]. apply H; lia.
  - unfold d_col_entries, d_for_col, d_col_begin. bdec. reflexivity.
Qed.
Lemma pd_set_it m d1 d2 a it v : dbuilt m -> dreads m d1 d2 a ->
  (di1 it < d1 -> di2 it < d2 ->
    exists m', d_set_it m it v = Ok (m', it) /\ dbuilt m' /\
      dreads m' d1 d2 (fun i j => if (i =? di1 it) && (j =? di2 it) then v else a i j)) /\
  (d1 <= di1 it \/ d2 <= di2 it -> d_set_it m it v = Ok (m, it)).
Proof.
  intros Hb Hr. pose proof (rh _ _ _ _ Hb Hr) as Hh. destruct Hr as (<- & <- & _). split; intros.
  - destruct (holds_set (@dense_laws N) m _ _ a (di1 it) (di2 it) v Hh) as (m' & E & H'); auto. cbn [mi_set DenseI] in E.
    assert (Es : d_set_it m it v = Ok (m', it)) by (unfold d_set_it; bdec; cbn [andb]; now rewrite E).
    exists m'. split; auto. split; [eapply db_setit; eauto|]. now apply hr in H'.
  - unfold d_set_it. destruct (Nat.ltb_spec (di1 it) (d_rows m)), (Nat.ltb_spec (di2 it) (d_cols m)); auto; lia.
Qed.

(** lists, equality, swap *)
Lemma pd_of_list (l : list (list N)) :
  (l <> [] -> (exists r, In r l /\ r <> []) ->
    exists m, d_of_list l = Ok m /\ dbuilt m /\ dreads m (length l) (list_max (map (@length N) l)) (ragged l)) /\
  (forall k1 k2, l <> [] -> length l <= k1 -> (forall r, In r l -> length r <= k2) ->
    exists m, d_fixed_of_list k1 k2 l = Ok m /\ dbuilt m /\ dreads m k1 k2 (ragged l)) /\
  (forall k1 k2, k1 < length l -> d_fixed_of_list k1 k2 l = Abort) /\
  (forall k1 k2, l <> [] -> length l <= k1 -> (exists r, In r l /\ k2 < length r) -> d_fixed_of_list k1 k2 l = Abort).
Proof.
  split; [|split; [|split]].
  - intros Hn (r & Hr & Hr0). destruct (of_list_ok l Hn) as (m & E & Hm).
    { assert (length r <= list_max (map (@length N) l)) by (apply list_max_ge; now apply in_map).
      destruct r; [easy|]. cbn in *. lia. }
    exists m. split; auto. split; [eapply db_list; eauto|now apply hr].
  - intros k1 k2 Hn H1 H2. destruct (fixed_of_list_ok k1 k2 l Hn H1 H2) as (m & E & Hm). exists m. split; auto.
    split; [eapply db_fixed_list; eauto|now apply hr].
  - intros k1 k2 H. unfold d_fixed_of_list. cbn zeta. bdec. reflexivity.
  - intros k1 k2 Hn H (r & Hr & H2). unfold d_fixed_of_list. cbn zeta. bdec. cbn [assert_ bind].
    assert (length r <= list_max (map (@length N) l)) by (apply list_max_ge; now apply in_map).
    destruct l as [|r0 l0]; [easy|]. destruct (Nat.leb_spec (list_max (map (@length N) (r0 :: l0))) k2); [lia|reflexivity].
Qed.
Lemma pd_eq A B d1 d2 e1 e2 a b : dbuilt A -> dbuilt B -> dreads A d1 d2 a -> dreads B e1 e2 b ->
  (d1 = e1 -> d2 = e2 -> exists r, d_eq A B = Ok r /\ d_ne A B = Ok (negb r) /\
     (r = true <-> forall i j, i < d1 -> j < d2 -> neqb (a i j) (b i j) = true)) /\
  (d1 <> e1 \/ d2 <> e2 -> d_eq A B = Throw MatrixSizeMismatch /\ d_ne A B = Throw MatrixSizeMismatch).
Proof.
  intros HA HB RA RB. destruct (dreads_tab _ _ _ _ (bw _ HA) RA) as (A1 & A2 & _), (dreads_tab _ _ _ _ (bw _ HB) RB) as (B1 & B2 & _).
  split.
  - intros <- <-. exists (forallb (fun k => neqb (nth k (dv A) n0) (nth k (dv B) n0)) (seq 0 (d_size A))).
    assert (E : d_eq A B = Ok (forallb (fun k => neqb (nth k (dv A) n0) (nth k (dv B) n0)) (seq 0 (d_size A)))).
    { unfold d_eq, d_rows, d_cols. rewrite <- A1, <- A2, <- B1, <- B2, !Nat.eqb_refl. cbn [negb orb].
      apply deq_loop; auto; unfold d_size, d_rows, d_cols; try (apply bw; auto); try lia; rewrite <- A1, <- A2, <- B1, <- B2; lia. }
    split; auto. unfold d_ne. rewrite E. split; auto. rewrite forallb_forall. unfold d_size, d_rows, d_cols. rewrite <- A1, <- A2. split.
    + intros H i j Hi Hj. rewrite <- (flat_reads A d1 d2 a), <- (flat_reads B d1 d2 b) by auto. apply H. apply in_seq.
      pose proof (idx_lt _ _ _ _ Hi Hj). lia.
    + intros H k Hk. apply in_seq in Hk. destruct (idx_split k d1 d2) as (i & j & -> & Hi & Hj); [lia|].
      rewrite (flat_reads A d1 d2 a), (flat_reads B d1 d2 b) by auto. now apply H.
  - intros H. unfold d_ne, d_eq, d_rows, d_cols. rewrite <- A1, <- A2, <- B1, <- B2.
    destruct (Nat.eqb_spec d1 e1), (Nat.eqb_spec d2 e2); cbn; auto. lia.
Qed.
Lemma pd_swap A B : d_swap A B = (B, A).
Proof. destruct A, B. reflexivity. Qed.
Lemma pd_resize A d1 d2 : 0 < d1 -> 0 < d2 -> d_resize A d1 d2 = Ok A.
Proof. intros. unfold d_resize. bdec. reflexivity. Qed.

(** aggregates *)
Lemma in_vals d1 d2 a x : In x (values d1 d2 a) <-> exists i j, i < d1 /\ j < d2 /\ a i j = x.
Proof.
  unfold values. rewrite in_map_iff. split.
  - intros ((i, j) & <- & Hp). apply in_pos in Hp. exists i, j. cbn in *. tauto.
  - intros (i & j & ? & ? & <-). exists (i, j). split; auto. apply in_pos. auto.
Qed.
Lemma pd_any (p : N -> bool) m d1 d2 a : dbuilt m -> dreads m d1 d2 a ->
  existsb p (dv m) = true <-> exists i j, i < d1 /\ j < d2 /\ p (a i j) = true.
Proof.
  intros Hb Hr. rewrite (dv_values m d1 d2 a (bw _ Hb) Hr), existsb_exists. split.
  - intros (x & Hx & Hp). apply in_vals in Hx. destruct Hx as (i & j & ? & ? & <-). eauto.
  - intros (i & j & ? & ? & Hp). exists (a i j). split; auto. apply in_vals. eauto.
Qed.
Lemma pd_counts m d1 d2 a : dbuilt m -> dreads m d1 d2 a ->
  d_size m = d1 * d2 /\
  (d_has_nan m = true <-> exists i j, i < d1 /\ j < d2 /\ nisnan (a i j) = true) /\
  (d_has_inf m = true <-> exists i j, i < d1 /\ j < d2 /\ nisinf (a i j) = true) /\
  (d_has_zero m = true <-> exists i j, i < d1 /\ j < d2 /\ is0 (a i j) = true) /\
  (d_empty m = true <-> forall i j, i < d1 -> j < d2 -> is0 (a i j) = true).
Proof.
  intros Hb Hr. split; [|split; [|split; [|split]]]; try (now apply pd_any).
  - destruct Hr as (<- & <- & _). reflexivity.
  - unfold d_empty. rewrite negb_true_iff. rewrite <- not_true_iff_false, (pd_any _ m d1 d2 a Hb Hr). split.
    + intros H i j Hi Hj. destruct (is0 (a i j)) eqn:E; auto. exfalso. apply H. exists i, j. unfold is0 in E. rewrite E. auto.
    + intros H (i & j & Hi & Hj & E). specialize (H i j Hi Hj). unfold is0 in H. rewrite H in E. discriminate.
Qed.
Lemma pd_trace m d1 d2 a : dreads m d1 d2 a -> d_trace m = Ok (bigsum (Nat.min d1 d2) (fun i => a i i)).
Proof.
  intros (<- & <- & H). unfold d_trace. apply (sum_loop (fun i => a i i)). intros i s Hi. rewrite H by lia. reflexivity.
Qed.
Lemma pd_sum m d1 d2 a : dbuilt m -> dreads m d1 d2 a -> d_sum m = fold_left nadd (values d1 d2 a) n0 /\
  d_avg m = (fold_left nadd (values d1 d2 a) n0 / nofnat (d1 * d2))%num.
Proof.
  intros Hb Hr. assert (E : d_sum m = fold_left nadd (values d1 d2 a) n0).
  { unfold d_sum. now rewrite (dv_values m d1 d2 a (bw _ Hb) Hr). }
  split; auto. unfold d_avg. rewrite E. destruct Hr as (<- & <- & _). reflexivity.
Qed.
End General.

Section Exact.
Variable N : Num.
Variable HF : FieldLaws N.
Add Field NF : (fl_field N HF).
Open Scope num_scope.
Implicit Types (m A B : dmat N) (a b : nat -> nat -> N).

Lemma fold_add (l : list N) : forall s, fold_left nadd l s = s + fold_left nadd l n0.
Proof. induction l as [|x l IH]; intros s; cbn; [ring|]. rewrite IH, (IH (n0 + x)). ring. Qed.
Lemma values_S d1 d2 a : values (S d1) d2 a = values d1 d2 a ++ map (a d1) (seq 0 d2).
Proof. unfold values. rewrite positions_S, map_app, map_map. reflexivity. Qed.
Lemma sum_values d1 d2 a : fold_left nadd (values d1 d2 a) n0 = bigsum d1 (fun i => bigsum d2 (fun j => a i j)).
Proof.
  induction d1 as [|d1 IH]; [reflexivity|]. rewrite values_S, fold_left_app, IH, fold_add. cbn [bigsum]. f_equal.
  change (bigsum d2 (fun j => a d1 j)) with (bigsum d2 (a d1)). rewrite <- (fold_bigsum (a d1) d2). generalize (seq 0 d2) (@n0 N). induction l as [|x l IHl]; intros s; cbn; auto.
Qed.
Lemma pd_sum_exact m d1 d2 a : dbuilt m -> dreads m d1 d2 a ->
  d_sum m = bigsum d1 (fun i => bigsum d2 (fun j => a i j)) /\
  d_avg m = bigsum d1 (fun i => bigsum d2 (fun j => a i j)) / nofnat (d1 * d2) /\
  d_trace m = Ok (bigsum (Nat.min d1 d2) (fun i => a i i)).
Proof.
  intros Hb Hr. destruct (pd_sum N m d1 d2 a Hb Hr) as (E1 & E2). rewrite E1, E2, sum_values.
  repeat split. now apply pd_trace.
Qed.
Lemma pd_neg A d1 d2 a : dbuilt A -> dreads A d1 d2 a ->
  exists C, d_neg A = Ok C /\ dbuilt C /\ dreads C d1 d2 (fun i j => - a i j).
Proof.
  intros HA RA. destruct (pd_scale N A d1 d2 a (- n1) HA RA) as (C & _ & E & HC & R1 & R2 & R3). exists C. split; auto. split; auto.
  split; auto. split; auto. intros i j Hi Hj. rewrite R3 by auto. f_equal. ring.
Qed.
Lemma dreads_eq A B d1 d2 a b : dbuilt A -> dbuilt B -> dreads A d1 d2 a -> dreads B d1 d2 b ->
  (forall i j, (i < d1)%nat -> (j < d2)%nat -> a i j = b i j) -> A = B.
Proof.
  intros HA HB RA RB E. pose proof (dv_values A d1 d2 a (dbuilt_wf _ HA) RA) as VA.
  pose proof (dv_values B d1 d2 b (dbuilt_wf _ HB) RB) as VB.
  assert (values d1 d2 a = values d1 d2 b).
  { unfold values. apply map_ext_in. intros p Hp. apply in_pos in Hp. apply E; tauto. }
  destruct A as [va ra ca], B as [vb rb cb]. destruct RA as (RA1 & RA2 & _), RB as (RB1 & RB2 & _). unfold d_rows, d_cols in *.
  cbn in *. congruence.
Qed.
(** (AB)^T = B^T A^T as objects *)
Lemma pd_mul_transpose A B d1 d2 d3 a b : dbuilt A -> dbuilt B -> dreads A d1 d2 a -> dreads B d2 d3 b ->
  (0 < d1)%nat -> (0 < d2)%nat -> (0 < d3)%nat ->
  exists T, (let* C := d_mul A B in d_transpose C)%res = Ok T /\
            (let* A' := d_transpose A in let* B' := d_transpose B in d_mul B' A')%res = Ok T.
Proof.
  intros HA HB RA RB P1 P2 P3.
  destruct (pd_mul N A B _ _ _ _ _ HA HB RA RB) as (C & _ & HC & RC & EC). rewrite EC by auto. cbn [bind].
  destruct (pd_transpose N C _ _ _ HC RC) as (T & _ & HT & RT & ET). rewrite ET by auto.
  destruct (pd_transpose N A _ _ _ HA RA) as (A' & _ & HA' & RA' & EA'). rewrite EA' by auto.
  destruct (pd_transpose N B _ _ _ HB RB) as (B' & _ & HB' & RB' & EB'). rewrite EB' by auto. cbn [bind].
  destruct (pd_mul N B' A' _ _ _ _ _ HB' HA' RB' RA') as (D & _ & HD & RD & ED). rewrite ED by auto.
  exists T. split; auto. f_equal. eapply dreads_eq; eauto. intros i j Hi Hj. unfold prod2. apply bigsum_ext.
  intros. ring.
Qed.
Lemma pd_mul_assoc A B C d1 d2 d3 d4 a b c : dbuilt A -> dbuilt B -> dbuilt C ->
  dreads A d1 d2 a -> dreads B d2 d3 b -> dreads C d3 d4 c ->
  (0 < d1)%nat -> (0 < d2)%nat -> (0 < d3)%nat -> (0 < d4)%nat ->
  exists R, (let* X := d_mul A B in d_mul X C)%res = Ok R /\ (let* X := d_mul B C in d_mul A X)%res = Ok R.
Proof.
  intros HA HB HC RA RB RC P1 P2 P3 P4.
  destruct (pd_mul N A B _ _ _ _ _ HA HB RA RB) as (X & _ & HX & RX & EX). rewrite EX by auto. cbn [bind].
  destruct (pd_mul N X C _ _ _ _ _ HX HC RX RC) as (R & _ & HR & RR & ER). rewrite ER by auto.
  destruct (pd_mul N B C _ _ _ _ _ HB HC RB RC) as (Y & _ & HY & RY & EY). rewrite EY by auto. cbn [bind].
  destruct (pd_mul N A Y _ _ _ _ _ HA HY RA RY) as (S & _ & HS & RS & ES). rewrite ES by auto.
  exists R. split; auto. f_equal. eapply dreads_eq; eauto. intros i j Hi Hj. unfold prod2. symmetry.
  apply (mul_assoc_tables HF).
Qed.
Lemma pd_transpose_invol A d1 d2 a : dbuilt A -> dreads A d1 d2 a -> (0 < d1)%nat -> (0 < d2)%nat ->
  (let* B := d_transpose A in d_transpose B)%res = Ok A.
Proof.
  intros HA RA P1 P2. destruct (pd_transpose N A _ _ _ HA RA) as (B & _ & HB & RB & EB). rewrite EB by auto. cbn [bind].
  destruct (pd_transpose N B _ _ _ HB RB) as (C & _ & HC & RC & EC). rewrite EC by auto. f_equal.
  eapply dreads_eq; eauto.
Qed.
End Exact.

Section Ord.
Variable N : Num.
Variable HO : OrdFieldLaws N.
Implicit Types (m : dmat N) (a : nat -> nat -> N).
Lemma pd_max m d1 d2 a : dbuilt m -> dreads m d1 d2 a ->
  (exists i j, i < d1 /\ j < d2 /\ nleb nminpos (a i j) = true) -> greatest d1 d2 a (d_max m).
Proof.
  intros Hb Hr (i0 & j0 & H1 & H2 & H3). unfold d_max. rewrite (dv_values m d1 d2 a (dbuilt_wf _ Hb) Hr).
  destruct (fold_max_spec HO (values d1 d2 a) nminpos) as (M1 & M2 & M3). set (M := fold_left _ _ _) in *. clearbody M.
  assert (Ha : forall i j, i < d1 -> j < d2 -> nleb (a i j) M = true) by (intros; apply M2; apply in_vals; eauto).
  split; auto. destruct M3 as [->|M3].
  - exists i0, j0. repeat split; auto. apply (of_le_antisym N HO); auto.
  - apply in_vals in M3. exact M3.
Qed.
Lemma pd_min m d1 d2 a : dbuilt m -> dreads m d1 d2 a ->
  (exists i j, i < d1 /\ j < d2 /\ nleb (a i j) nmax = true) -> least d1 d2 a (d_min m).
Proof.
  intros Hb Hr (i0 & j0 & H1 & H2 & H3). unfold d_min. rewrite (dv_values m d1 d2 a (dbuilt_wf _ Hb) Hr).
  destruct (fold_min_spec HO (values d1 d2 a) nmax) as (M1 & M2 & M3). set (M := fold_left _ _ _) in *. clearbody M.
  assert (Ha : forall i j, i < d1 -> j < d2 -> nleb M (a i j) = true) by (intros; apply M2; apply in_vals; eauto).
  split; auto. destruct M3 as [->|M3].
  - exists i0, j0. repeat split; auto. apply (of_le_antisym N HO); auto.
  - apply in_vals in M3. exact M3.
Qed.
End Ord.
