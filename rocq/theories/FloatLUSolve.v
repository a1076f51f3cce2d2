(** Residual of a linear system solved by doolittle, the product with the permutation and solve_lu, on doubles. *)
From Coq Require Import ZArith Reals List Arith Bool SpecFloat Lia Lra Permutation.
From Flocq Require Import Core.
From Verif Require Import Base BaseProofs Num NumInst Spec SpecProofs VectorModel VectorProofs
  SparseModel SparseSpec SparseFacts SparseFacts2 SparsePropProofs DenseModel DenseSpec DenseProofs DensePropProofs MatI MatIProofs MatOps MatOpsProofs OrderProofs
  ConstructProofs DetSpec DetProofs LUModel LUProofs LUSolve FloatSpec FloatLUSpec F64Flocq FloatProofs FloatResult FloatSolve FloatLU.
Import ListNotations.
Local Open Scope R_scope.
Open Scope res_scope.

(** ** Products with 0 and 1 and sums with one non-zero term are exact *)
Lemma add_exact (x y : NumF64) : double x -> double y -> finite x -> finite y -> real x = 0 \/ real y = 0 ->
  finite (x + y)%num /\ real (x + y)%num = real x + real y.
Proof.
  intros Dx Dy Fx Fy H.
  assert (E : rnd (real x + real y) = real x + real y).
  { apply rnd_id. destruct H as [H|H]; rewrite H; [rewrite Rplus_0_l|rewrite Rplus_0_r]; now apply real_format. }
  assert (F : finite (x + y)%num).
  { apply add_finite; auto. rewrite E. destruct H as [H|H]; rewrite H; [rewrite Rplus_0_l|rewrite Rplus_0_r]; now apply real_lt_max. }
  split; [exact F|]. now rewrite (add_real x y Dx Dy F).
Qed.
Lemma mul_exact (x y : NumF64) : double x -> double y -> finite x -> finite y -> real x = 0 \/ real x = 1 ->
  finite (x * y)%num /\ real (x * y)%num = real x * real y.
Proof.
  intros Dx Dy Fx Fy H.
  assert (E : rnd (real x * real y) = real x * real y).
  { apply rnd_id. destruct H as [H|H]; rewrite H; [rewrite Rmult_0_l; apply generic_format_0|rewrite Rmult_1_l; now apply real_format]. }
  assert (F : finite (x * y)%num).
  { apply mul_finite; auto. rewrite E. destruct H as [H|H]; rewrite H.
    - rewrite Rmult_0_l, Rabs_R0. apply bpow_gt_0.
    - rewrite Rmult_1_l. now apply real_lt_max. }
  split; [exact F|]. now rewrite (mul_real x y Dx Dy F).
Qed.
Lemma acc_single (l : list nat) (f : nat -> NumF64) c : NoDup l -> (forall i, In i l -> double (f i) /\ finite (f i)) ->
  (forall i, In i l -> i <> c -> real (f i) = 0) ->
  finite (acc l f) /\ (In c l -> real (acc l f) = real (f c)) /\ (~ In c l -> real (acc l f) = 0).
Proof.
  induction l as [|i l IH] using rev_ind; intros Nd Df Hz.
  - split; [exact I|]. split; [intros []|]. reflexivity.
  - rewrite acc_snoc. apply NoDup_remove in Nd. rewrite app_nil_r in Nd. destruct Nd as (Nd & Ni).
    destruct IH as (F & H1 & H2); [exact Nd|intros; apply Df, in_or_app; auto|intros; apply Hz; auto; apply in_or_app; auto|].
    assert (Ii : In i (l ++ [i])) by (apply in_or_app; right; now left). destruct (Df i Ii) as (Di & Fi).
    assert (Da : double (acc l f)) by (apply acc_double; intros; apply Df, in_or_app; auto).
    destruct (Nat.eq_dec i c) as [->|Hne].
    + specialize (H2 Ni). destruct (add_exact _ _ Da Di F Fi (or_introl H2)) as (F' & E). split; [exact F'|].
      split; [intros _; rewrite E, H2; ring|]. intros C. now apply C in Ii.
    + destruct (add_exact _ _ Da Di F Fi (or_intror (Hz i Ii Hne))) as (F' & E). split; [exact F'|]. rewrite E, (Hz i Ii Hne), Rplus_0_r.
      split; intros C; [apply H1; apply in_app_or in C; destruct C as [C|[C|[]]]; congruence|apply H2; intros C'; apply C, in_or_app; auto].
Qed.

Definition perm_table (rt : list nat) (i j : nat) : NumF64 := if (j =? nth i rt 0)%nat then n1 else n0.
Lemma perm_dot n rt (b : list NumF64) i (keep : nat -> bool) : (i < n)%nat -> Permutation rt (seq 0 n) -> length b = n -> doubles b ->
  (forall j, (j < n)%nat -> finite (nth j b n0)) -> (forall j, keep j = false -> is0 (perm_table rt i j) = true) ->
  let s := acc (filter keep (seq 0 n)) (fun j => perm_table rt i j * nth j b n0)%num in
  double s /\ finite s /\ real s = real (nth (nth i rt 0%nat) b n0).
Proof.
  intros Hi HP Hb Db Fb Hk. cbv zeta. set (f := fun j => (perm_table rt i j * nth j b n0)%num).
  pose proof (perm_lt rt n i HP Hi) as Hr.
  assert (Pt : forall j, double (perm_table rt i j) /\ finite (perm_table rt i j) /\
     (real (perm_table rt i j) = if (j =? nth i rt 0)%nat then 1 else 0)).
  { intros j. unfold perm_table. destruct (j =? nth i rt 0)%nat; [|repeat split]. split; [reflexivity|]. split; [exact I|apply real_n1]. }
  assert (Fj : forall j, In j (filter keep (seq 0 n)) -> (double (f j) /\ finite (f j)) /\ real (f j) = real (perm_table rt i j) * real (nth j b n0)).
  { intros j Hj. apply filter_In in Hj. destruct Hj as (Hj & _). apply in_seq in Hj. destruct (Pt j) as (D & F & R).
    assert (Dj : double (nth j b n0)) by (apply Db, nth_In; lia).
    destruct (mul_exact (perm_table rt i j) (nth j b n0)) as (G & E); auto; [apply Fb; lia|rewrite R; destruct (j =? nth i rt 0)%nat; auto|].
    split; [split; [now apply mul_double|exact G]|exact E]. }
  destruct (acc_single (filter keep (seq 0 n)) f (nth i rt 0%nat)) as (F & H1 & _).
  - apply NoDup_filter, seq_NoDup.
  - intros j Hj. apply (Fj j Hj).
  - intros j Hj Hne. destruct (Fj j Hj) as (_ & ->). destruct (Pt j) as (_ & _ & ->).
    replace (j =? nth i rt 0)%nat with false by (symmetry; now apply Nat.eqb_neq). ring.
  - split; [apply acc_double; intros j Hj; apply (Fj j Hj)|]. split; [exact F|].
    assert (Inr : In (nth i rt 0%nat) (filter keep (seq 0 n))).
    { apply filter_In. split; [apply in_seq; lia|]. destruct (keep (nth i rt 0%nat)) eqn:E; auto. apply Hk in E.
      unfold perm_table in E. rewrite Nat.eqb_refl in E. vm_compute in E. discriminate. }
    rewrite (H1 Inr). destruct (Fj _ Inr) as (_ & ->). destruct (Pt (nth i rt 0%nat)) as (_ & _ & ->). rewrite Nat.eqb_refl. ring.
Qed.
Definition permuted n rt (b pb : list NumF64) : Prop := length pb = n /\ doubles pb /\
  forall i, (i < n)%nat -> finite (nth i pb n0) /\ real (nth i pb n0) = real (nth (nth i rt 0%nat) b n0).
Lemma permuted_map n rt b (g : nat -> NumF64) : (forall i, (i < n)%nat -> double (g i) /\ finite (g i) /\ real (g i) = real (nth (nth i rt 0%nat) b n0)) ->
  permuted n rt b (map g (seq 0 n)).
Proof.
  intros H. split; [now rewrite map_length, seq_length|]. split.
  - intros x Hx. apply in_map_iff in Hx. destruct Hx as (i & <- & Hi). apply in_seq in Hi. apply H. lia.
  - intros i Hi. rewrite nth_map_seq by auto. apply H. auto.
Qed.
Lemma permute_dense (P : DenseI NumF64) n rt b : MatI.holds P n n (perm_table rt) -> Permutation rt (seq 0 n) -> length b = n -> doubles b ->
  (forall j, (j < n)%nat -> finite (nth j b n0)) -> exists pb, d_mulv P b = Ok pb /\ permuted n rt b pb.
Proof.
  intros HP Hp Hb Db Fb. destruct (pd_mulv _ P n n (perm_table rt)) with (v := b) as (E & _).
  { destruct HP as (_ & H1 & H2 & H3). split; [exact H1|]. split; [exact H2|]. exact H3. }
  eexists. split; [now apply E|]. apply permuted_map. intros i Hi.
  rewrite bigsum_acc.
  pose proof (perm_dot n rt b i (fun _ => true) Hi Hp Hb Db Fb) as H. cbv zeta in H.
  replace (filter (fun _ => true) (seq 0 n)) with (seq 0 n) in H; [apply H; discriminate|].
  clear. generalize (seq 0 n). intros l. induction l; cbn [filter]; congruence.
Qed.
Lemma permute_sparse (P : SparseI NumF64) n rt b : MatI.holds P n n (perm_table rt) -> Permutation rt (seq 0 n) -> length b = n -> doubles b ->
  (forall j, (j < n)%nat -> finite (nth j b n0)) -> exists pb, s_mulv P b = Ok pb /\ permuted n rt b pb.
Proof.
  intros HP Hp Hb Db Fb. apply s_holds in HP. destruct HP as (Hbu & Hr).
  destruct (mulv_general _ NumF64_zero_laws n n (perm_table rt) P b Hbu Hr) as (E & _).
  eexists. split; [now apply E|]. apply permuted_map. intros i Hi. rewrite sparse_dot_acc.
  apply (perm_dot n rt b i); auto. intros j Hj. now apply negb_false_iff in Hj.
Qed.

(** ** Sums over the triangle *)
Lemma rsum_0 n : rsum n (fun _ => 0) = 0.
Proof. induction n; cbn [rsum]; lra. Qed.
Lemma rsum_app m k f : rsum (m + k) f = rsum m f + rsum k (fun t => f (m + t)%nat).
Proof. induction k as [|k IH]; [rewrite Nat.add_0_r; cbn [rsum]; lra|]. rewrite Nat.add_succ_r. cbn [rsum]. rewrite IH. lra. Qed.
Lemma rsum_exch m n (g : nat -> nat -> R) : rsum n (fun j => rsum m (fun t => g t j)) = rsum m (fun t => rsum n (fun j => g t j)).
Proof.
  induction m as [|m IH]; cbn [rsum]; [apply rsum_0|]. rewrite rsum_plus, IH. reflexivity.
Qed.
Lemma rsum_cut m k f : (forall t, (t < k)%nat -> f (m + t)%nat = 0) -> rsum (m + k) f = rsum m f.
Proof. intros H. rewrite rsum_app, (rsum_ext k _ (fun _ => 0)) by exact H. rewrite rsum_0. lra. Qed.
Lemma rsum_skip m k f : (forall t, (t < m)%nat -> f t = 0) -> rsum (m + k) f = rsum k (fun t => f (m + t)%nat).
Proof. intros H. rewrite rsum_app, (rsum_ext m f (fun _ => 0)) by exact H. rewrite rsum_0. lra. Qed.
Lemma rsum_triangle n i (f : nat -> nat -> R) : (i < n)%nat ->
  rsum n (fun j => rsum (S (min i j)) (fun t => f t j)) = rsum (S i) (fun t => rsum (n - t) (fun s => f t (t + s)%nat)).
Proof.
  intros Hi. set (g := fun t j => if (t <=? j)%nat then f t j else 0).
  rewrite (rsum_ext n _ (fun j => rsum (S i) (fun t => g t j))).
  - rewrite rsum_exch. apply rsum_ext. intros t Ht. replace n with (t + (n - t))%nat at 1 by lia. rewrite rsum_skip.
    + apply rsum_ext. intros s _. unfold g. replace (t <=? t + s)%nat with true by (symmetry; apply Nat.leb_le; lia). reflexivity.
    + intros s Hs. unfold g. replace (t <=? s)%nat with false by (symmetry; apply Nat.leb_gt; lia). reflexivity.
  - intros j Hj. replace (S i) with (S (min i j) + (i - min i j))%nat by lia. rewrite rsum_cut.
    + apply rsum_ext. intros t Ht. unfold g. replace (t <=? j)%nat with true by (symmetry; apply Nat.leb_le; lia). reflexivity.
    + intros t Ht. unfold g. replace (S (min i j) + t <=? j)%nat with false by (symmetry; apply Nat.leb_gt; lia). reflexivity.
Qed.
Lemma rsum_scal_r n c f : rsum n (fun i => f i * c) = rsum n f * c.
Proof. induction n as [|n IH]; cbn [rsum]; [ring|]. rewrite IH. ring. Qed.

(** ** Decomposition and substitution together *)
Lemma full_residual {M : RowMat NumF64} (HR : RowReads M) (L U : M) n a l u rt b pb x : (0 < n)%nat ->
  MatI.holds L n n l -> MatI.holds U n n u -> doubles2 n n l -> doubles2 n n u -> all_finite n l -> all_finite n u ->
  lu_bounds n a l u rt -> (forall j, (j < n)%nat -> Rabs (real (u j j)) <= powerRZ 2 1022) ->
  permuted n rt b pb -> solve_lu L U pb = Ok x -> (forall i, (i < n)%nat -> finite (nth i x n0)) ->
  forall i, (i < n)%nat ->
    Rabs (rsum n (fun j => real (a (nth i rt 0%nat) j) * real (nth j x n0)) - real (nth (nth i rt 0%nat) b n0))
    <= rsum n (fun j => row_bound (n + 1) (lu_terms l u i j) (real (u j j)) * Rabs (real (nth j x n0)))
       + solve_bound n (lux_terms n l u x i) (slack n l u i).
Proof.
  intros Hn HL HU Dl Du Fl Fu HB Hp (Lpb & Dpb & Hpb) Ex Fx i Hi.
  destruct HB as (_ & HB); [split; [intros; apply Fl; lia|split; [intros; apply Fu; lia|exact Hp]]|].
  pose proof (solve_float HR L U n l u pb Hn HL HU Lpb Dl Du Fl Fu Dpb) as H. rewrite Ex in H. cbn [post] in H.
  destruct H as (_ & H). destruct (H Fx) as (_ & y & H1 & H2).
  pose proof (solve_combine n (fun i j => real (l i j)) (fun i j => real (u i j)) (fun i => real (nth i x n0)) y (fun i => real (nth i pb n0)) H1 H2 i Hi) as S.
  clear H1 H2 H. cbv beta in S. rewrite (proj2 (Hpb i Hi)) in S.
  assert (E1 : rsum n (fun j => rsum (Datatypes.S (min i j)) (fun t => real (l i t) * real (u t j)) * real (nth j x n0)) =
    rsum (Datatypes.S i) (fun j => real (l i j) * rsum (n - j) (fun t => real (u j (j + t)%nat) * real (nth (j + t) x n0)))).
  { rewrite (rsum_ext n _ (fun j => rsum (Datatypes.S (min i j)) (fun t => real (l i t) * real (u t j) * real (nth j x n0)))).
    - rewrite (rsum_triangle n i (fun t j => real (l i t) * real (u t j) * real (nth j x n0)) Hi). apply rsum_ext. intros t Ht.
      rewrite <- rsum_scal. apply rsum_ext. intros s Hs. ring.
    - intros j Hj. now rewrite rsum_scal_r. }
  assert (E2 : lux_terms n l u x i =
    rsum (Datatypes.S i) (fun j => Rabs (real (l i j)) * rsum (n - j) (fun t => Rabs (real (u j (j + t)%nat) * real (nth (j + t) x n0))))).
  { unfold lux_terms, lu_terms. rewrite (rsum_ext n _ (fun j => rsum (Datatypes.S (min i j)) (fun t => Rabs (real (l i t) * real (u t j)) * Rabs (real (nth j x n0))))).
    - rewrite (rsum_triangle n i (fun t j => Rabs (real (l i t) * real (u t j)) * Rabs (real (nth j x n0))) Hi). apply rsum_ext. intros t Ht.
      rewrite <- rsum_scal. apply rsum_ext. intros s Hs. rewrite !Rabs_mult. ring.
    - intros j Hj. now rewrite rsum_scal_r. }
  rewrite <- E1, <- E2 in S. fold (slack n l u i) in S.
  set (p := fun j => rsum (Datatypes.S (min i j)) (fun t => real (l i t) * real (u t j))) in *.
  replace (rsum n (fun j => real (a (nth i rt 0%nat) j) * real (nth j x n0)) - real (nth (nth i rt 0%nat) b n0))
    with (rsum n (fun j => (real (a (nth i rt 0%nat) j) - p j) * real (nth j x n0)) + (rsum n (fun j => p j * real (nth j x n0)) - real (nth (nth i rt 0%nat) b n0))).
  2:{ rewrite (rsum_ext n (fun j => (real (a (nth i rt 0%nat) j) - p j) * real (nth j x n0)) (fun j => real (a (nth i rt 0%nat) j) * real (nth j x n0) - p j * real (nth j x n0))) by (intros; ring).
      rewrite rsum_minus. ring. }
  eapply Rle_trans; [apply Rabs_triang|]. apply Rplus_le_compat; [|exact S].
  eapply Rle_trans; [apply rsum_abs|]. apply rsum_le. intros j Hj. rewrite Rabs_mult. apply Rmult_le_compat_r; [apply Rabs_pos|].
  exact (HB i j Hi Hj).
Qed.

(** What follows from a successful decomposition when the library's own permutation and solver are used. *)
Lemma solve_all {M : RowMat NumF64} (HR : RowReads M)
  (HP : forall (P : M) n rt b, MatI.holds P n n (perm_table rt) -> Permutation rt (seq 0 n) -> length b = n -> doubles b ->
    (forall j, (j < n)%nat -> finite (nth j b n0)) -> exists pb, mo_mulv P b = Ok pb /\ permuted n rt b pb)
  (L U P : M) cnt n a b x : (0 < n)%nat -> lu_float n a (fun _ _ => n0) (fun _ _ => n0) (L, U, P, cnt) ->
  length b = n -> doubles b -> (forall j, (j < n)%nat -> finite (nth j b n0)) ->
  (let* pb := mo_mulv P b in solve_lu L U pb) = Ok x -> (forall i, (i < n)%nat -> finite (nth i x n0)) ->
  exists l u rt, MatI.holds L n n l /\ MatI.holds U n n u /\ Permutation rt (seq 0 n) /\
    (lu_usable n l u -> all_finite n u -> forall i, (i < n)%nat ->
      Rabs (rsum n (fun j => real (a (nth i rt 0%nat) j) * real (nth j x n0)) - real (nth (nth i rt 0%nat) b n0))
      <= rsum n (fun j => row_bound (n + 1) (lu_terms l u i j) (real (u j j)) * Rabs (real (nth j x n0)))
         + solve_bound n (lux_terms n l u x i) (slack n l u i)).
Proof.
  intros Hn (l & u & rt & HL & HU & HPm & _ & _ & Hp & Dl & Du & Hd & HB) Lb Db Fb Ex Fx.
  exists l, u, rt. do 3 (split; [assumption|]). intros Hus Fu.
  destruct (HP P n rt b HPm Hp Lb Db Fb) as (pb & Epb & Hpb). rewrite Epb in Ex. cbn [bind] in Ex.
  assert (Fl : all_finite n l).
  { intros i j Hi Hj. destruct (Nat.lt_ge_cases j i) as [C|C]; [apply (proj1 Hus); lia|]. rewrite Hd by auto.
    destruct (i =? j)%nat; exact I. }
  apply (full_residual HR L U n a l u rt b pb x); auto. apply Hus.
Qed.
