(** Solving and inverse() on doubles for matrices with bounded entries: residual bounds with explicit constants. *)
From Coq Require Import ZArith Reals List Arith Bool SpecFloat Lia Lra Permutation.
From Flocq Require Import Core.
From Verif Require Import Base BaseProofs Num NumInst OrdField Spec SpecProofs VectorModel VectorProofs UtilsSpec UtilsInst
  SparseModel SparseSpec SparseFacts SparseFacts2 SparsePropProofs DenseModel DenseSpec DenseProofs DensePropProofs MatI MatIProofs MatOps MatOpsProofs OrderProofs
  ConstructProofs DetSpec DetProofs LUModel LUProofs LUSolve FloatSpec FloatLUSpec F64Flocq FloatProofs FloatResult FloatSolve FloatLU FloatLUSolve FloatGrowth FloatDetSpec FloatDet.
Import ListNotations.
Local Open Scope nat_scope.
Open Scope res_scope.
Local Open Scope R_scope.

Record good (n : nat) (e : Z) (a l u : nat -> nat -> NumF64) (rt : list nat) : Prop := {
  gd_perm : Permutation rt (seq 0 n);
  gd_dl : doubles2 n n l; gd_du : doubles2 n n u;
  gd_fl : all_finite n l; gd_fu : all_finite n u;
  gd_l : forall i j, (i < n)%nat -> (j < n)%nat -> Rabs (real (l i j)) <= 1;
  gd_u : forall i j, (i < n)%nat -> (j < n)%nat -> Rabs (real (u i j)) <= powerRZ 2 (e + Z.of_nat n);
  gd_b : lu_bounds n a l u rt }.
Lemma make_good n e a l u rt cnt : (0 < n)%nat -> (e + Z.of_nat n <= 1022)%Z -> finv n a (ldiag (fun _ _ => n0)) (n - 1) l u rt cnt -> grow n e (n - 1) l u -> good n e a l u rt.
Proof.
  intros Hn Hen Hinv Hg. pose proof (grow_usable n e l u _ a rt cnt Hen Hinv Hg) as (Hus & Fu). pose proof Hinv as (_ & Hp & Dl & Du & Hup & _).
  assert (Hl : forall i j, (i < n)%nat -> (j < n)%nat -> finite (l i j) /\ Rabs (real (l i j)) <= 1).
  { intros i j Hi Hj. destruct (Nat.lt_ge_cases j i) as [C|C]; [apply Hg; lia|]. rewrite Hup by auto. unfold ldiag.
    destruct (i =? j)%nat; (split; [exact I|]); [rewrite real_n1, Rabs_R1|change (real n0) with 0; rewrite Rabs_R0]; lra. }
  split; auto.
  - intros i j Hi Hj. apply Hl; auto.
  - intros i j Hi Hj. apply Hl; auto.
  - intros i j Hi Hj. rewrite <- B_powerRZ. apply (grow_le n e (n - 1) i j l u); auto; lia.
  - apply (finv_bounds n a (ldiag (fun _ _ => n0)) l u rt cnt); auto. intros i Hi. unfold ldiag. now rewrite Nat.eqb_refl.
Qed.
Lemma good_pivots n e a l u rt : (e + Z.of_nat n <= 1022)%Z -> good n e a l u rt -> forall j, (j < n)%nat -> Rabs (real (u j j)) <= powerRZ 2 1022.
Proof. intros Hen G j Hj. eapply Rle_trans; [apply (gd_u _ _ _ _ _ _ G); auto|]. change 2 with (IZR radix2). rewrite <- !bpow_powerRZ. apply bpow_le. lia. Qed.
Lemma uniform n e a l u rt x i : (e + Z.of_nat n <= 1022)%Z -> good n e a l u rt -> (i < n)%nat ->
  rsum n (fun j => row_bound (n + 1) (lu_terms l u i j) (real (u j j)) * Rabs (real (nth j x n0))) + solve_bound n (lux_terms n l u x i) (slack n l u i)
  <= solve_error n e (rsum n (fun j => Rabs (real (nth j x n0)))).
Proof.
  intros Hen G Hi. set (B := powerRZ 2 (e + Z.of_nat n)). set (X := rsum n (fun j => Rabs (real (nth j x n0)))).
  assert (Bp : 0 < B) by (apply powerRZ_lt; lra).
  assert (Xp : 0 <= X) by (apply rsum_pos; intros; apply Rabs_pos).
  assert (T : forall j, (j < n)%nat -> lu_terms l u i j <= INR n * B).
  { intros j Hj. unfold lu_terms. eapply Rle_trans; [apply (rsum_const _ B)|].
    - intros t Ht. rewrite Rabs_mult. rewrite <- (Rmult_1_l B). apply Rmult_le_compat; try apply Rabs_pos; [apply (gd_l _ _ _ _ _ _ G)|apply (gd_u _ _ _ _ _ _ G)]; lia.
    - apply Rmult_le_compat_r; [lra|]. apply le_INR. lia. }
  unfold solve_error. fold B. apply Rplus_le_compat.
  - apply Rle_trans with (rsum n (fun j => lu_error n e * Rabs (real (nth j x n0)))); [|rewrite rsum_scal; right; reflexivity].
    apply rsum_le. intros j Hj. apply Rmult_le_compat_r; [apply Rabs_pos|]. unfold lu_error. fold B. apply row_bound_le; [now apply T|].
    rewrite (Rabs_pos_eq B) by lra. apply (gd_u _ _ _ _ _ _ G); auto.
  - unfold solve_bound. pose proof (pow_ge_1 (2 * n)) as P. pose proof eta64_pos as Ep. pose proof (pos_INR n) as Np. apply Rplus_le_compat.
    + apply Rmult_le_compat_l; [lra|]. unfold lux_terms. apply Rle_trans with (rsum n (fun j => INR n * B * Rabs (real (nth j x n0)))); [|rewrite rsum_scal; right; reflexivity].
      apply rsum_le. intros j Hj. apply Rmult_le_compat_r; [apply Rabs_pos|]. now apply T.
    + apply Rmult_le_compat_r; [lra|]. apply Rmult_le_compat_r; [lra|]. unfold slack. apply Rplus_le_compat.
      * apply Rplus_le_compat_l. apply (gd_l _ _ _ _ _ _ G); auto.
      * eapply Rle_trans; [apply (rsum_const _ (INR n + B))|apply Rmult_le_compat_r; [lra|apply le_INR; lia]].
        intros t Ht. rewrite <- (Rmult_1_l (INR n + B)). apply Rmult_le_compat; [apply Rabs_pos| |apply (gd_l _ _ _ _ _ _ G); lia|].
        -- pose proof (Rabs_pos (real (u t t))). lra.
        -- apply Rplus_le_compat_l. apply (gd_u _ _ _ _ _ _ G); lia.
Qed.
Section Generic.
Context {M : RowMat NumF64} (HR : RowReads M) (nz : NumF64 -> NumF64) (HS : SetLaws (I := M) nz).
Hypothesis Zr : forall x, real (nz x) = real x.
Hypothesis Zf : forall x, finite (nz x) <-> finite x.
Hypothesis HP : forall (P : M) n rt b, MatI.holds P n n (perm_table rt) -> Permutation rt (seq 0 n) -> length b = n -> doubles b ->
    (forall j, (j < n)%nat -> finite (nth j b n0)) -> exists pb, mo_mulv P b = Ok pb /\ permuted n rt b pb.
Variables (n : nat) (e : Z) (a l u : nat -> nat -> NumF64) (rt : list nat) (L U P : M).
Hypothesis Hn : (0 < n)%nat.
Hypothesis Hen : (e + Z.of_nat n <= 1022)%Z.
Hypothesis G : good n e a l u rt.
Hypothesis HL : MatI.holds L n n l.
Hypothesis HU : MatI.holds U n n u.
Hypothesis HPm : MatI.holds P n n (perm_table rt).
Lemma solve_good b : length b = n -> doubles b -> (forall j, (j < n)%nat -> finite (nth j b n0)) ->
  post (let* pb := mo_mulv P b in solve_lu L U pb) (fun x => length x = n /\
    ((forall i, (i < n)%nat -> finite (nth i x n0)) -> residual n e a (fun i => nth i b n0) (fun i => nth i x n0)))
    (fun ex => ex = Singular).
Proof.
  intros Lb Db Fb. destruct (HP P n rt b HPm (gd_perm _ _ _ _ _ _ G) Lb Db Fb) as (pb & -> & Hpb). cbn [bind].
  pose proof Hpb as (Lpb & Dpb & _).
  pose proof (solve_float HR L U n l u pb Hn HL HU Lpb (gd_dl _ _ _ _ _ _ G) (gd_du _ _ _ _ _ _ G) (gd_fl _ _ _ _ _ _ G) (gd_fu _ _ _ _ _ _ G) Dpb) as S.
  destruct (solve_lu L U pb) as [x|ex| | | |] eqn:E; cbn [post] in S |- *; auto. destruct S as (Lx & _). split; [exact Lx|]. intros Fx i Hi.
  destruct (perm_surj rt n i (gd_perm _ _ _ _ _ _ G) Hi) as (i' & Hi' & <-).
  eapply Rle_trans; [|apply (uniform n e a l u rt x i' Hen G Hi')].
  assert (Hp : forall j, (j < n)%nat -> Rabs (real (u j j)) <= powerRZ 2 1022).
  { intros j Hj. eapply Rle_trans; [apply (gd_u _ _ _ _ _ _ G); auto|]. change 2 with (IZR radix2). rewrite <- !bpow_powerRZ. apply bpow_le. lia. }
  exact (full_residual HR L U n a l u rt b pb x Hn HL HU (gd_dl _ _ _ _ _ _ G) (gd_du _ _ _ _ _ _ G) (gd_fl _ _ _ _ _ _ G) (gd_fu _ _ _ _ _ _ G)
    (gd_b _ _ _ _ _ _ G) Hp Hpb E Fx i' Hi').
Qed.
Lemma col_z (f : nat -> NumF64) (at_ : nat -> res NumF64) (X : M) x c : (forall j, (j < n)%nat -> at_ j = Ok (f j)) -> MatI.holds X n n x -> (c < n)%nat ->
  exists X', for_ 0 n (fun j X => let* xj := at_ j in mi_set X j c xj) X = Ok X' /\ MatI.holds X' n n (fun i j => if (j =? c)%nat then nz (f i) else x i j).
Proof.
  intros Hf HX Hc.
  destruct (for_returns (fun k X => MatI.holds X n n (fun i j => if ((i <? k) && (j =? c))%nat%bool then nz (f i) else x i j)) 0 n
    (fun j X => let* xj := at_ j in mi_set X j c xj) X) as (X' & E & H); [lia|exact HX| |].
  - intros k Y Hk HY. rewrite Hf by lia. cbn [bind]. destruct (HS Y n n _ k c (f k) HY) as (Y' & EY & HY'); try lia. exists Y'. split; [exact EY|].
    eapply MatIProofs.holds_ext; [exact HY'|]. intros i j Hi Hj. unfold put2. cbn beta. bcase; subst; auto; try lia.
  - exists X'. split; [exact E|]. eapply MatIProofs.holds_ext; [exact H|]. intros i j Hi Hj. cbn beta. bcase; auto; lia.
Qed.
(** Every column without overflow solves its system. *)
Lemma inverse3_f : post (inverse3 L U P) (fun X => exists x, MatI.holds X n n x /\
    forall c, (c < n)%nat -> (forall i, (i < n)%nat -> finite (x i c)) -> residual n e a (fun i => if (i =? c)%nat then n1 else n0) (fun i => x i c))
  (fun ex => ex = Singular).
Proof.
  unfold inverse3.
  rewrite (MatIProofs.holds_rows _ _ _ _ HL), (MatIProofs.holds_cols _ _ _ _ HL), (MatIProofs.holds_rows _ _ _ _ HU), (MatIProofs.holds_cols _ _ _ _ HU),
    (MatIProofs.holds_rows _ _ _ _ HPm), (MatIProofs.holds_cols _ _ _ _ HPm), Nat.eqb_refl. cbn [negb].
  apply post_bind.
  eapply post_mono; [apply (for_post (fun k (st : list NumF64 * M) => fst st = v_new n /\ exists x, MatI.holds (snd st) n n x /\
      forall c, (c < k)%nat -> (forall i, (i < n)%nat -> finite (x i c)) -> residual n e a (fun i => if (i =? c)%nat then n1 else n0) (fun i => x i c))
      (fun ex => ex = Singular)); try lia| |auto].
  - cbn [fst snd]. split; auto. exists l. split; auto. lia.
  - intros i (b, X) Hi (Eb & x & HX & Hx). cbn [fst snd] in *. subst b.
    assert (Hlen : length (@v_new NumF64 n) = n) by apply repeat_length.
    rewrite v_set_ok by lia. cbn [bind].
    assert (Hb : forall j, (j < n)%nat -> nth j (upd (@v_new NumF64 n) i n1) n0 = if (j =? i)%nat then n1 else n0).
    { intros j Hj. destruct (Nat.eqb_spec j i) as [->|Hne]; [apply nth_upd_eq; lia|]. rewrite nth_upd_ne by auto. unfold v_new. apply nth_repeat. }
    assert (Lb : length (upd (@v_new NumF64 n) i n1) = n) by (rewrite upd_length; lia).
    rewrite <- bind_assoc.
    apply post_bind. eapply post_mono; [apply (solve_good (upd (v_new n) i n1) Lb)| |auto].
    + intros y Hy. apply In_nth with (d := n0) in Hy as (j & Hj & <-). rewrite Hb by lia. destruct (j =? i)%nat; reflexivity.
    + intros j Hj. rewrite Hb by lia. destruct (j =? i)%nat; exact I.
    + intros y (Ly & Hres). cbn beta.
      destruct (col_z (fun j => nth j y n0) (v_at y) X x i) as (X' & E & HX'); [intros j Hj; apply v_at_ok; lia|exact HX|lia|].
      rewrite E. cbn [bind]. rewrite v_set_ok by (rewrite upd_length; lia). cbn [bind post fst snd]. split.
      { rewrite upd_upd. replace (@n0 NumF64) with (nth i (@v_new NumF64 n) n0) by (unfold v_new; apply nth_repeat). apply upd_same. lia. }
      eexists. split; [exact HX'|]. intros c Hc Fc. destruct (Nat.eq_dec c i) as [->|Hne].
      * assert (Fy : forall j, (j < n)%nat -> finite (nth j y n0)).
        { intros j Hj. specialize (Fc j Hj). cbn beta in Fc. rewrite Nat.eqb_refl in Fc. now apply Zf. }
        specialize (Hres Fy). intros r Hr. specialize (Hres r Hr). cbn beta. rewrite Nat.eqb_refl. cbn beta in Hres. rewrite Hb in Hres by exact Hr.
        erewrite (rsum_ext n (fun j => real (a r j) * real (nz (nth j y n0)))) by (intros j Hj; rewrite Zr; reflexivity).
        erewrite (rsum_ext n (fun j => Rabs (real (nz (nth j y n0))))) by (intros j Hj; rewrite Zr; reflexivity). exact Hres.
      * intros r Hr. specialize (Hx c ltac:(lia)). assert (Q : (c =? i)%nat = false) by (now apply Nat.eqb_neq). rewrite Q in *. apply Hx; auto. intros j Hj. specialize (Fc j Hj). cbn beta in Fc. now rewrite Q in Fc.
  - intros (b, X) (_ & x & HX & Hx). cbn [snd post]. exists x. auto.
Qed.
End Generic.

(** ** The two overloads *)
Definition lu_good {I : MatI NumF64} n e a (r : I * I * I * nat) : Prop := let '(L, U, P, cnt) := r in exists l u rt,
  MatI.holds L n n l /\ MatI.holds U n n u /\ MatI.holds P n n (perm_table rt) /\ good n e a l u rt.
Lemma dense_good (A L0 P0 : DenseI NumF64) n e a : (0 < n)%nat -> MatI.holds A n n a -> MatI.holds L0 n n (fun _ _ => n0) -> MatI.holds P0 n n (fun _ _ => n0) ->
  doubles2 n n a -> (-1074 <= e)%Z -> (e + Z.of_nat n <= 1022)%Z -> entries_bounded n e a ->
  post (doolittle_dense A L0 P0) (lu_good n e a) (fun ex => ex = Singular).
Proof.
  intros Hn HA HL0 HP0 Da He Hen Ha.
  unfold doolittle_dense. rewrite (holds_rows _ _ _ _ HA), (holds_cols _ _ _ _ HA), (holds_rows _ _ _ _ HL0), (holds_cols _ _ _ _ HL0), (holds_rows _ _ _ _ HP0), (holds_cols _ _ _ _ HP0).
  rewrite Nat.eqb_refl. cbn [negb orb].
  eapply post_mono; [apply (main_g (fun x => x) dense_sets (fun _ => eq_refl) (fun _ H => H) (fun _ => conj (fun H => H) (fun H => H)) eq_refl n a (fun _ _ => n0) (fun _ _ => n0) e A L0); try exact (bounded_bpow n e a Ha); auto|..].
  - intros i j _ _. reflexivity.
  - exists P0. auto.
  - intros (((L, U), P), cnt) (l & u & rt & H1 & H2 & H3 & H4 & H5 & H6). exists l, u, rt. split; [exact H1|]. split; [exact H2|]. split; [exact H3|].
    exact (make_good n e a l u rt cnt Hn Hen H4 H5).
  - intros ex (-> & _). reflexivity.
Qed.
Lemma sparse_good (A : SparseI NumF64) n e a : (0 < n)%nat -> MatI.holds A n n a ->
  doubles2 n n a -> (-1074 <= e)%Z -> (e + Z.of_nat n <= 1022)%Z -> entries_bounded n e a ->
  post (doolittle_sparse A) (lu_good n e a) (fun ex => ex = Singular).
Proof.
  intros Hn HA Da He Hen Ha. unfold doolittle_sparse. rewrite (holds_rows _ _ _ _ HA), (holds_cols _ _ _ _ HA). rewrite Nat.eqb_refl. cbn [negb].
  assert (Z : exists m, @mi_new NumF64 (SparseI NumF64) n n = Ok m /\ MatI.holds m n n (fun _ _ => n0)).
  { destruct (SparseProofs.srep_new (N := NumF64) n n Hn Hn) as (m & E & _). exists m. split; [exact E|].
    apply s_holds. split; [eapply b_new; eauto|]. now apply (new_inv NumF64_zero_laws) in E. }
  destruct Z as (Zm & E & HZm). rewrite E. cbn [bind].
  eapply post_mono; [apply (main_g norm0 sparse_sets norm0_real norm0_double norm0_finite eq_refl n a (fun _ _ => n0) (fun _ _ => n0) e A Zm); try exact (bounded_bpow n e a Ha); auto|..].
  - intros i j _ _. reflexivity.
  - exists Zm. auto.
  - intros (((L, U), P), cnt) (l & u & rt & H1 & H2 & H3 & H4 & H5 & H6). exists l, u, rt. split; [exact H1|]. split; [exact H2|]. split; [exact H3|].
    exact (make_good n e a l u rt cnt Hn Hen H4 H5).
  - intros ex (-> & _). reflexivity.
Qed.
