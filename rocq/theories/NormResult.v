(** max_norm2 is a norm; min_norm2 and cond per representation; vector norm inequalities (used by PropNorm). *)
From Coq Require Import List Arith Bool Lia Ring Field.
From Verif Require Import Base BaseProofs Num OrdField Spec SpecProofs VectorModel VectorSpec VectorProofs VectorPropProofs
  SparseModel SparseSpec SparseFacts SparseFacts2 SparsePropProofs DenseModel DenseSpec DenseProofs DensePropProofs
  MatI MatIProofs MatOps MatOpsProofs DetSpec DetProofs LUModel LUProofs LUSolve IterResult NormProofs.
Import ListNotations.
Local Open Scope nat_scope.
Open Scope res_scope.

Section Result.
Context {N : Num} (HO : OrdFieldLaws N) (HS : SqrtLaws N).
Let HF : FieldLaws N := of_field N HO.
Add Field rfld : (fl_field N HF).
Notation le x y := (nleb x y = true).
Notation lt x y := (nltb x y = true).
Implicit Types (a : nat -> nat -> N) (f g : nat -> N).
Open Scope num_scope.

Section Max.
Context {M : RowMat N} (HM : RowLaws M).
Lemma max_norm_value (m : M) d1 d2 a : (0 < d2)%nat -> holds m d1 d2 a ->
  exists f, (forall i, (i < d1)%nat -> largest (row_abs a d2 i) (f i)) /\ max_norm2 m = Ok (nrm d1 f).
Proof. intros Hd Hm. exact (max_norm_rows HO HM m d1 d2 a Hd Hm). Qed.
Lemma max_row_nonneg a d2 i x : largest (row_abs a d2 i) x -> le n0 x.
Proof. intros [H _]. now apply (row_abs_nonneg HO a d2 i). Qed.
Lemma max_nonneg (m : M) d1 d2 a : (0 < d2)%nat -> holds m d1 d2 a -> exists v, max_norm2 m = Ok v /\ le n0 v.
Proof. intros Hd Hm. destruct (max_norm_value m d1 d2 a Hd Hm) as (f & _ & E). exists (nrm d1 f). split; auto. now apply (nrm_nonneg HO HS). Qed.
Lemma max_entry (m : M) d1 d2 a v i j : holds m d1 d2 a -> max_norm2 m = Ok v -> (i < d1)%nat -> (j < d2)%nat -> le (nabs (a i j)) v.
Proof.
  intros Hm E Hi Hj. destruct (max_norm_value m d1 d2 a) as (f & Hf & E'); auto; [lia|]. rewrite E in E'. injection E' as ->.
  eapply (ole_trans HO) with (y := f i); [apply (Hf i Hi); now apply in_row_abs|].
  eapply (ole_trans HO); [apply (oabs_le HO)|]. now apply (nrm_term HO HS).
Qed.
Lemma max_definite (m : M) d1 d2 a : (0 < d2)%nat -> holds m d1 d2 a ->
  (max_norm2 m = Ok n0 <-> forall i j, (i < d1)%nat -> (j < d2)%nat -> a i j = n0).
Proof.
  intros Hd Hm. split.
  - intros E i j Hi Hj. apply (oabs_0_iff HO). apply (ole_antisym HO); [now apply (max_entry m d1 d2 a n0 i j)|apply (oabs_nonneg HO)].
  - intros H. destruct (max_norm_value m d1 d2 a Hd Hm) as (f & Hf & E). rewrite E. f_equal. unfold nrm.
    replace (ssq d1 f) with (@n0 N); [now apply (sqrt_0 HO HS)|]. symmetry. unfold ssq. apply (bigsum_0 HF). intros i Hi.
    destruct (Hf i Hi) as [Hin _]. apply in_map_iff in Hin. destruct Hin as (j & Hj & Hj'). apply in_seq in Hj'.
    rewrite (H i j) in Hj by lia. rewrite (oabs_0 HO) in Hj. rewrite <- Hj. ring.
Qed.
Lemma max_scale (m m' : M) d1 d2 a c v : (0 < d2)%nat -> holds m d1 d2 a -> holds m' d1 d2 (fun i j => c * a i j) ->
  max_norm2 m = Ok v -> max_norm2 m' = Ok (nabs c * v).
Proof.
  intros Hd Hm Hm' E. destruct (max_norm_value m d1 d2 a Hd Hm) as (f & Hf & E1). destruct (max_norm_value m' d1 d2 _ Hd Hm') as (g & Hg & E2).
  rewrite E in E1. injection E1 as ->. rewrite E2. f_equal. rewrite <- (nrm_scale HO HS) by apply (oabs_nonneg HO).
  apply (nrm_ext). intros i Hi. apply (largest_unique HO (row_abs (fun i j => c * a i j) d2 i)); [now apply Hg|].
  destruct (Hf i Hi) as [H1 H2]. split.
  - apply in_map_iff in H1. destruct H1 as (j & <- & Hj). rewrite <- (oabs_mul HO). apply (in_row_abs (fun i j => c * a i j)). apply in_seq in Hj. lia.
  - intros y Hy. apply in_map_iff in Hy. destruct Hy as (j & <- & Hj). rewrite (oabs_mul HO).
    apply (ole_mul_l HO); [apply (oabs_nonneg HO)|]. apply H2. apply in_row_abs. apply in_seq in Hj. lia.
Qed.
Lemma max_triangle (A B C : M) d1 d2 a b u v w : (0 < d2)%nat -> holds A d1 d2 a -> holds B d1 d2 b -> holds C d1 d2 (fun i j => a i j + b i j) ->
  max_norm2 A = Ok u -> max_norm2 B = Ok v -> max_norm2 C = Ok w -> le w (u + v).
Proof.
  intros Hd HA HB HC E1 E2 E3.
  destruct (max_norm_value A d1 d2 a Hd HA) as (f & Hf & F1). destruct (max_norm_value B d1 d2 b Hd HB) as (g & Hg & F2).
  destruct (max_norm_value C d1 d2 _ Hd HC) as (h & Hh & F3). rewrite E1 in F1. rewrite E2 in F2. rewrite E3 in F3.
  injection F1 as ->. injection F2 as ->. injection F3 as ->.
  eapply (ole_trans HO); [|apply (nrm_add HO HS)]. apply (nrm_mono HO HS).
  - intros i Hi. apply (max_row_nonneg _ d2 i (h i) (Hh i Hi)).
  - intros i Hi. destruct (Hh i Hi) as [Hin _]. apply in_map_iff in Hin. destruct Hin as (j & <- & Hj). apply in_seq in Hj.
    eapply (ole_trans HO); [apply (oabs_add HO)|]. apply (ole_add HO); [apply (Hf i Hi)|apply (Hg i Hi)]; apply in_row_abs; lia.
Qed.
(** |A x|_2 <= max_norm2(A) * (|x_0| + |x_1| + ...) *)
Lemma max_mulv (A : M) d1 d2 a (x y : list N) v t : (0 < d2)%nat -> holds A d1 d2 a -> length x = d2 -> max_norm2 A = Ok v ->
  mo_mulv A x = Ok y -> v_mag y = Ok t -> le t (v * bigsum d2 (fun j => nabs (nth j x n0))).
Proof.
  intros Hd HA Hx E Ey Et. destruct (max_norm_value A d1 d2 a Hd HA) as (f & Hf & F). rewrite E in F. injection F as ->.
  rewrite (ol_mulv M (rl_ops M HM) A d1 d2 a x HA Hx) in Ey. injection Ey as <-.
  unfold v_mag, v_magSqr in Et. rewrite dot_ok in Et by auto. cbn [bind] in Et. injection Et as <-.
  rewrite map_length, seq_length.
  set (s := bigsum d2 (fun j => nabs (nth j x n0))).
  assert (Hs : le n0 s) by (apply (bigsum_nonneg HO); intros; apply (oabs_nonneg HO)).
  match goal with |- nleb (nsqrt (bigsum d1 (fun i => nth i ?l n0 * _))) _ = true => change (le (nrm d1 (fun i => nth i l n0)) (nrm d1 f * s)) end.
  replace (nrm d1 f * s) with (s * nrm d1 f) by ring. rewrite <- (nrm_scale HO HS) by auto.
  unfold nrm. apply (sqrt_le HO HS); [apply (ssq_nonneg HO)|]. apply (bigsum_le HO). intros i Hi.
  rewrite (nth_indep _ n0 ((fun i => bigsum d2 (fun j => a i j * nth j x n0)) 0%nat)) by (rewrite map_length, seq_length; auto).
  rewrite (map_nth (fun i => bigsum d2 (fun j => a i j * nth j x n0))), seq_nth by auto. cbn [Nat.add].
  set (z := bigsum d2 (fun j => a i j * nth j x n0)). rewrite <- (abs_sqr HO z). apply (sqr_le HO); [apply (oabs_nonneg HO)|].
  eapply (ole_trans HO); [apply (bigsum_abs HO)|]. unfold s. rewrite <- (bigsum_mul_r HF). apply (bigsum_le HO). intros j Hj.
  rewrite (oabs_mul HO). replace (nabs (nth j x n0) * f i) with (f i * nabs (nth j x n0)) by ring.
  replace (nabs (a i j) * nabs (nth j x n0)) with (nabs (nth j x n0) * nabs (a i j)) by ring.
  replace (f i * nabs (nth j x n0)) with (nabs (nth j x n0) * f i) by ring.
  apply (ole_mul_l HO); [apply (oabs_nonneg HO)|]. apply (Hf i Hi). now apply in_row_abs.
Qed.
End Max.

(** ** min_norm2 *)
Lemma min_row {M : RowMat N} (m : M) (d2 i : nat) a keep : rm_row m i = Ok (map (fun j => (j, a i j)) (filter keep (seq 0 d2))) ->
  exists r, row_fold (fun x s => nltb x s) nmax m i = Ok r /\
  let l := map (fun j => nabs (a i j)) (filter keep (seq 0 d2)) in
  (smallest l r \/ r = nmax) /\ ((exists x, In x l /\ le x nmax) -> smallest l r).
Proof.
  intros E. unfold row_fold. rewrite E. cbn [bind]. eexists. split; [reflexivity|]. cbn zeta.
  set (l := map (fun j => (j, a i j)) (filter keep (seq 0 d2))).
  assert (El : map (fun j => nabs (a i j)) (filter keep (seq 0 d2)) = map (fun e => nabs (snd e)) l).
  { unfold l. now rewrite map_map. }
  rewrite El. destruct (fold_min HO l nmax) as (H0 & H1 & H2). set (r := fold_left _ l nmax) in *.
  assert (Hlb : forall y, In y (map (fun e => nabs (snd e)) l) -> le r y).
  { intros y Hy. apply in_map_iff in Hy. destruct Hy as (e & <- & He). auto. }
  assert (Hs : (exists e, In e l /\ r = nabs (snd e)) -> smallest (map (fun e => nabs (snd e)) l) r).
  { intros (e & He & ->). split; [now apply (in_map (fun e => nabs (snd e)))|]. intros y Hy. now apply Hlb. }
  split.
  - destruct H2 as [H2|H2]; auto.
  - intros (x & Hx & Hle). destruct H2 as [H2|H2]; auto. apply Hs. apply in_map_iff in Hx. destruct Hx as (e & <- & He).
    exists e. split; auto. apply (ole_antisym HO); auto. now rewrite H2.
Qed.
Lemma min_dense (m : DenseR N) d1 d2 a : holds m d1 d2 a -> (forall i, (i < d1)%nat -> exists j, (j < d2)%nat /\ le (nabs (a i j)) nmax) ->
  exists f, (forall i, (i < d1)%nat -> smallest (row_abs a d2 i) (f i)) /\ min_norm2 (M := DenseR N) m = Ok (nrm d1 f).
Proof.
  intros Hm H.
  destruct (choose_rows (fun i r => row_fold (M := DenseR N) (fun x s => nltb x s) nmax m i = Ok r /\ smallest (row_abs a d2 i) r) d1) as [f Hf].
  { intros i Hi. assert (Hd : dwf m /\ dreads m d1 d2 a) by now apply holds_dreads.
    destruct (min_row (M := DenseR N) m d2 i a (fun _ => true)) as (r & Er & _ & Hr).
    { cbn [rm_row DenseR]. rewrite (proj1 (pd_row N m d1 d2 a i (proj2 Hd)) Hi). cbn [bind]. rewrite map_map, filter_true. reflexivity. }
    rewrite filter_true in Hr. exists r. split; auto. apply Hr. destruct (H i Hi) as (j & Hj & Hle). exists (nabs (a i j)). split; auto.
    now apply in_row_abs. }
  exists f. split; [intros i Hi; now apply Hf|]. apply (norm2_rows (M := DenseR N) _ _ m d1 d2 a f Hm). intros i Hi. now apply Hf.
Qed.
Lemma filter_map_comm {A B} (h : A -> B) p l : filter p (map h l) = map h (filter (fun x => p (h x)) l).
Proof. induction l as [|x l IH]; cbn; auto. destruct (p (h x)); cbn; now rewrite IH. Qed.
Lemma abs_is0 (x : N) : neqb (nabs x) n0 = is0 x.
Proof.
  apply Bool.eq_iff_eq_true. unfold is0. rewrite !(fl_eqb N HF). apply (oabs_0_iff HO).
Qed.
Lemma min_sparse (m : SparseR N) d1 d2 a : holds m d1 d2 a ->
  exists f, (forall i, (i < d1)%nat -> (smallest (row_abs_nz a d2 i) (f i) \/ f i = nmax) /\
    ((exists x, In x (row_abs_nz a d2 i) /\ le x nmax) -> smallest (row_abs_nz a d2 i) (f i))) /\
    min_norm2 (M := SparseR N) m = Ok (nrm d1 f).
Proof.
  intros Hm.
  destruct (choose_rows (fun i r => row_fold (M := SparseR N) (fun x s => nltb x s) nmax m i = Ok r /\
     (smallest (row_abs_nz a d2 i) r \/ r = nmax) /\ ((exists x, In x (row_abs_nz a d2 i) /\ le x nmax) -> smallest (row_abs_nz a d2 i) r)) d1) as [f Hf].
  { intros i Hi. assert (Hm' := Hm). apply s_holds in Hm'. destruct Hm' as [Hb Hr].
    destruct (min_row (M := SparseR N) m d2 i a (fun j => negb (is0 (a i j)))) as (r & Er & Hs).
    { cbn [rm_row SparseR]. rewrite (row_iteration N (field_zero_laws N HF) d1 d2 a m i Hb Hr Hi). cbn [bind]. rewrite map_map. reflexivity. }
    exists r. split; auto. cbn zeta in Hs. unfold row_abs_nz, row_abs. rewrite filter_map_comm.
    rewrite (filter_ext _ (fun j => negb (is0 (a i j)))) by (intros j; now rewrite abs_is0). exact Hs. }
  exists f. split; [intros i Hi; now apply Hf|]. apply (norm2_rows (M := SparseR N) _ _ m d1 d2 a f Hm). intros i Hi. now apply Hf.
Qed.

(** ** cond *)
Lemma div_ge1 (u w : N) : lt n0 w -> le w u -> le n1 (u / w).
Proof.
  intros Hw H. assert (Hn : w <> n0) by (intros ->; now apply (olt_irrefl HO n0)).
  replace (@n1 N) with (n1 / w * w) by (field; auto). replace (u / w) with (n1 / w * u) by (field; auto).
  apply (ole_mul_l HO); auto. apply (olt_le HO). now apply (olt_0_inv HO).
Qed.
Lemma cond_ge1 {M : RowMat N} (m : M) n f g w : max_norm2 m = Ok (nrm n f) -> min_norm2 m = Ok (nrm n g) ->
  (forall i, (i < n)%nat -> le n0 (g i)) -> (forall i, (i < n)%nat -> le (g i) (f i)) -> min_norm2 m = Ok w -> w <> n0 ->
  exists c, cond m = Ok c /\ le n1 c.
Proof.
  intros E1 E2 H0 H1 E3 Hw. rewrite E2 in E3. injection E3 as <-. unfold cond. rewrite E1, E2. cbn [bind].
  eexists. split; [reflexivity|]. apply div_ge1; [|now apply (nrm_mono HO HS)].
  apply (olt_iff_ne HO). split; [now apply (nrm_nonneg HO HS)|congruence].
Qed.
Lemma smallest_nonneg a d2 i x l : (forall y, In y l -> In y (row_abs a d2 i)) -> smallest l x -> le n0 x.
Proof. intros H [H1 _]. apply (row_abs_nonneg HO a d2 i). auto. Qed.
Lemma in_nz a d2 i j : (j < d2)%nat -> a i j <> n0 -> In (nabs (a i j)) (row_abs_nz a d2 i).
Proof.
  intros Hj H. apply filter_In. split; [now apply in_row_abs|]. rewrite abs_is0.
  destruct (is0 (a i j)) eqn:E; auto. exfalso. apply H. now apply (is0_iff HF).
Qed.
Lemma cond_dense (m : DenseR N) d1 d2 a w : (0 < d2)%nat -> holds m d1 d2 a -> (forall i, (i < d1)%nat -> exists j, (j < d2)%nat /\ a i j <> n0 /\ le (nabs (a i j)) nmax) ->
  min_norm2 (M := DenseR N) m = Ok w -> w <> n0 -> exists c, cond (M := DenseR N) m = Ok c /\ le n1 c.
Proof.
  intros Hd Hm H Ew Hw. destruct (max_norm_value (dense_rows N HF) m d1 d2 a Hd Hm) as (f & Hf & E1).
  destruct (min_dense m d1 d2 a Hm) as (g & Hg & E2). { intros i Hi. destruct (H i Hi) as (j & ? & ? & ?). eauto. }
  apply (cond_ge1 (M := DenseR N) m d1 f g w); auto.
  - intros i Hi. apply (smallest_nonneg a d2 i (g i) (row_abs a d2 i)); auto.
  - intros i Hi. apply (Hf i Hi). apply (Hg i Hi).
Qed.
Lemma cond_sparse (m : SparseR N) d1 d2 a w : (0 < d2)%nat -> holds m d1 d2 a -> (forall i, (i < d1)%nat -> exists j, (j < d2)%nat /\ a i j <> n0 /\ le (nabs (a i j)) nmax) ->
  min_norm2 (M := SparseR N) m = Ok w -> w <> n0 -> exists c, cond (M := SparseR N) m = Ok c /\ le n1 c.
Proof.
  intros Hd Hm H Ew Hw. destruct (max_norm_value (sparse_rows N HF) m d1 d2 a Hd Hm) as (f & Hf & E1).
  destruct (min_sparse m d1 d2 a Hm) as (g & Hg & E2).
  assert (Hsub : forall i y, In y (row_abs_nz a d2 i) -> In y (row_abs a d2 i)) by (intros i y Hy; apply filter_In in Hy; tauto).
  assert (Hg' : forall i, (i < d1)%nat -> smallest (row_abs_nz a d2 i) (g i)).
  { intros i Hi. apply (Hg i Hi). destruct (H i Hi) as (j & Hj & Hz & Hl). exists (nabs (a i j)). split; auto. now apply in_nz. }
  apply (cond_ge1 (M := SparseR N) m d1 f g w); auto.
  - intros i Hi. apply (smallest_nonneg a d2 i (g i) (row_abs_nz a d2 i)); auto.
  - intros i Hi. apply (Hf i Hi). apply Hsub. now apply (Hg' i Hi).
Qed.

(** ** vectors *)
Lemma v_cauchy (v w : list N) d p q : length v = length w -> v_dot v w = Ok d -> v_mag v = Ok p -> v_mag w = Ok q -> le (nabs d) (p * q).
Proof.
  intros Hl Ed Ep Eq. rewrite dot_ok in Ed by auto. injection Ed as <-. unfold v_mag, v_magSqr in Ep, Eq. rewrite dot_ok in Ep, Eq by auto.
  cbn [bind] in Ep, Eq. injection Ep as <-. injection Eq as <-. rewrite <- Hl. apply (dot_le_nrm HO HS).
Qed.
Lemma v_triangle (v w s : list N) p q t : v_add v w = Ok s -> v_mag v = Ok p -> v_mag w = Ok q -> v_mag s = Ok t -> le t (p + q).
Proof.
  intros Es Ep Eq Et. destruct (Nat.eq_dec (length v) (length w)) as [Hl|Hl].
  2: { exfalso. unfold v_add, v_add_eq in Es. rewrite inplace_mismatch in Es by auto. discriminate. }
  unfold v_add, v_add_eq in Es. rewrite inplace_ok in Es by auto. injection Es as <-. unfold v_mag, v_magSqr in Ep, Eq, Et. rewrite dot_ok in Ep, Eq, Et by auto.
  cbn [bind] in Ep, Eq, Et. injection Ep as <-. injection Eq as <-. injection Et as <-. rewrite <- Hl. replace (length (zip nadd v w)) with (length v) by (rewrite <- map2_seq by auto; now rewrite map_length, seq_length).
  eapply (ole_trans HO); [|apply (nrm_add HO HS)]. match goal with |- nleb (nsqrt (bigsum ?n (fun i => nth i ?l n0 * _))) _ = true => change (le (nrm n (fun i => nth i l n0)) (nrm n (fun i => nth i v n0 + nth i w n0))) end.
  rewrite (nrm_ext (length v) _ (fun i => nth i v n0 + nth i w n0)); [apply (ole_refl HO)|].
  intros i Hi. rewrite <- map2_seq by auto. rewrite (nth_indep _ n0 ((fun j => nth j v n0 + nth j w n0) 0%nat)) by (rewrite map_length, seq_length; auto).
  rewrite (map_nth (fun j => nth j v n0 + nth j w n0)), seq_nth by auto. reflexivity.
Qed.
End Result.
