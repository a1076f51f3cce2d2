(** Proofs about Iterative::jacobi and Iterative::sor. *)
From Coq Require Import List Arith Bool Lia Ring Field.
From Verif Require Import Base BaseProofs Num OrdField Spec SpecProofs VectorModel VectorSpec VectorProofs MatI MatIProofs MatOps
  DetSpec DetProofs DetMult LUModel LUProofs LUSolve CholProofs CGMath IterModel CGProofs CGResult.
Import ListNotations.
Local Open Scope nat_scope.
Open Scope res_scope.

(** The sum over all columns but i. *)
Definition offsum {N : Num} (n i : nat) (f : nat -> N) : N := bigsum n (fun j => if j =? i then n0 else f j).

Section Sweep.
Context {N : Num} (HF : FieldLaws N) {M : RowMat N} (HR : RowLaws M).
Add Field swfld : (fl_field N HF).
Implicit Types (a : nat -> nat -> N) (b x y h : nat -> N).

Lemma row_fold keep (f h : nat -> N) i body n :
  (forall j m t, j < n -> j <> i -> body (j, f j) (m, t) = Ok (m, t + f j * h j)%num) ->
  (forall m t, i < n -> body (i, f i) (m, t) = Ok (f i, t)) ->
  (forall j, j < n -> keep j = false -> f j = n0) ->
  foreach (cols keep f 0 n) body (n0, n0) = Ok (if i <? n then f i else n0, offsum n i (fun j => f j * h j)%num).
Proof.
  intros H1 H2 Hk. induction n as [|n IH]; [reflexivity|].
  unfold cols. rewrite seq_S, filter_app, map_app, foreach_app. fold (cols keep f 0 n).
  rewrite IH; [|intros; apply H1; lia|intros; apply H2; lia|intros; apply Hk; auto; lia]. cbn [bind].
  unfold offsum. cbn [bigsum filter]. replace (0 + n) with n by lia. destruct (keep n) eqn:E; cbn [map foreach].
  - destruct (Nat.eq_dec n i) as [->|Hne].
    + rewrite H2 by lia. cbn [bind]. rewrite Nat.eqb_refl. bcase. f_equal. f_equal. ring.
    + rewrite H1 by lia. cbn [bind]. bcase; try congruence; reflexivity.
  - pose proof (Hk n ltac:(lia) E) as E0. rewrite E0. f_equal. f_equal.
    + bcase; auto. replace n with i in E0 by lia. congruence.
    + bcase; try ring.
Qed.

Definition jac_next n a b x : nat -> N := fun i => ((b i - offsum n i (fun j => a i j * x j)) / a i i)%num.
Lemma jac_sweep_ok (A : M) n a b x xm : holds A n n a -> length xm = n ->
  jac_sweep A (V n b) (V n x) xm = Ok (V n (jac_next n a b x)).
Proof.
  intros HA Hl. unfold jac_sweep. rewrite (holds_rows _ _ _ _ HA). rewrite <- Hl at 1.
  rewrite (write_all (jac_next n a b x)); [now rewrite Hl|].
  intros i u Hi Hu _ _. rewrite Hl in *. destruct (rl_row M HR A n n a i HA Hi) as (keep & -> & Hk). cbn [bind].
  change (map (fun j => (j, a i j)) (filter keep (seq 0 n))) with (cols keep (a i) 0 n).
  unfold jac_row. rewrite (row_fold keep (a i) x i); auto.
  - cbn [bind fst snd]. rewrite v_at_ok by (now rewrite V_len). cbn [bind]. rewrite V_nth by auto. bcase. apply v_set_ok. lia.
  - intros j m t Hj Hne. cbn [fst snd]. rewrite (proj2 (Nat.eqb_neq _ _) Hne). cbn [negb].
    rewrite v_at_ok by (now rewrite V_len). cbn [bind]. now rewrite V_nth.
  - intros m t _. cbn [fst snd]. now rewrite Nat.eqb_refl.
Qed.

(** One relaxation sweep: [old] is the vector mixed with weight 1-w. *)
Definition sor_eq n a b (w : N) old x y : Prop := forall i, i < n ->
  y i = ((n1 - w) * old i + w * ((b i - offsum n i (fun j => a i j * (if j <? i then y j else x j))) / a i i))%num.
Lemma sor_exists n a b w old x : exists y, sor_eq n a b w old x y.
Proof.
  assert (H : forall m, exists y, forall i, i < m ->
    y i = ((n1 - w) * old i + w * ((b i - offsum n i (fun j => a i j * (if j <? i then y j else x j))) / a i i))%num).
  { induction m as [|m (y & Hy)]; [exists x; lia|].
    set (v := ((n1 - w) * old m + w * ((b m - offsum n m (fun j => a m j * (if j <? m then y j else x j))) / a m m))%num).
    exists (fun j => if j =? m then v else y j). intros i Hi.
    assert (E : forall i, i <= m -> offsum n i (fun j => a i j * (if j <? i then if j =? m then v else y j else x j))%num =
      offsum n i (fun j => a i j * (if j <? i then y j else x j))%num).
    { intros k Hk. unfold offsum. apply bigsum_ext. intros j Hj. bcase; auto. }
    rewrite E by lia. destruct (Nat.eqb_spec i m) as [->|Hne]; [reflexivity|]. apply Hy. lia. }
  destruct (H n) as (y & Hy). exists y. exact Hy.
Qed.
Lemma sor_sweep_ok (A : M) n a b w old x y : holds A n n a -> sor_eq n a b w old x y ->
  sor_sweep A (V n b) w (V n x) (V n old) = Ok (V n y).
Proof.
  intros HA Hy. unfold sor_sweep. rewrite (holds_rows _ _ _ _ HA). rewrite <- (V_len n old) at 1.
  rewrite (write_all y); [now rewrite V_len|].
  intros i u Hi Hu H1 H2. rewrite V_len in *. destruct (rl_row M HR A n n a i HA Hi) as (keep & -> & Hk). cbn [bind].
  change (map (fun j => (j, a i j)) (filter keep (seq 0 n))) with (cols keep (a i) 0 n).
  unfold sor_row. rewrite (row_fold keep (a i) (fun j => if j <? i then y j else x j) i); auto.
  - cbn [bind fst snd]. rewrite v_at_ok by (now rewrite V_len). cbn [bind]. rewrite V_nth by auto.
    rewrite v_at_ok by lia. cbn [bind]. rewrite H1, V_nth by lia. rewrite (proj2 (Nat.ltb_lt i n)) by auto.
    rewrite v_set_ok by lia. rewrite (Hy i) by auto. reflexivity.
  - intros j m t Hj Hne. cbn [fst snd]. bcase.
    + rewrite v_at_ok by lia. cbn [bind]. now rewrite H2.
    + rewrite v_at_ok by (now rewrite V_len). cbn [bind]. now rewrite V_nth.
  - intros m t _. cbn [fst snd]. bcase. reflexivity.
Qed.
End Sweep.

Section Run.
Context {N : Num} (HO : OrdFieldLaws N).
Let HF : FieldLaws N := of_field N HO.
Add Field runfld : (fl_field N HF).
Implicit Types (a : nat -> nat -> N) (x y : nat -> N).

Definition dist2 n x y : N := bigsum n (fun i => (y i - x i) * (y i - x i))%num.
Lemma dist2_nonneg n x y : nleb n0 (dist2 n x y) = true.
Proof. apply (bigsum_nonneg HO). intros. apply (ole_0_sqr HO). Qed.
Lemma conv_ok eps2 n x y : conv_test eps2 (V n x) (V n y) = Ok (nleb (dist2 n x y) eps2).
Proof.
  unfold conv_test. rewrite V_sub. cbn [bind]. rewrite V_magSqr. cbn [bind]. rewrite (of_nan N HO), (of_inf N HO). cbn [orb].
  change (dot n (fun i => y i - x i)%num (fun i => y i - x i)%num) with (dist2 n x y).
  now rewrite (of_abs_pos N HO) by apply dist2_nonneg.
Qed.

(** The iteration X 0, X 1, ... stops at the first step that is small, else after maxIter steps. *)
Definition run_ends n (X : nat -> nat -> N) (maxIter : nat) (eps2 : N) (it : nat) : Prop :=
  it <= maxIter /\
  (forall k, k < maxIter -> S k < it -> nleb (dist2 n (X k) (X (S k))) eps2 = false) /\
  (it < maxIter -> exists k, it = S k /\ nleb (dist2 n (X k) (X (S k))) eps2 = true) /\
  (0 < maxIter -> 0 < it).
Lemma sweeps_ok sweep n (X : nat -> nat -> N) maxIter eps2 :
  (forall k xm, sweep (V n (X k)) xm = Ok (V n (X (S k))) \/ k <> 0 /\ xm <> V n (X k) \/ k = 0 /\ xm <> V n (fun _ => n0)) ->
  forall fuel it xm, it + fuel = maxIter -> (it = 0 -> xm = V n (fun _ => n0)) -> (it <> 0 -> xm = V n (X it)) ->
  exists it', sweeps sweep fuel it maxIter eps2 (V n (X it)) xm = Ok (V n (X it'), it') /\ it <= it' <= maxIter /\
   (forall k, it <= k -> S k < it' -> nleb (dist2 n (X k) (X (S k))) eps2 = false) /\
   (it' < maxIter -> exists k, it <= k /\ it' = S k /\ nleb (dist2 n (X k) (X (S k))) eps2 = true) /\
   (0 < fuel -> it < it').
Proof.
  intros Hs. induction fuel as [|f IH]; intros it xm Hf H0 H1; cbn [sweeps].
  - exists it. replace maxIter with it by lia. split; [reflexivity|]. repeat split; try lia.
  - assert (E : sweep (V n (X it)) xm = Ok (V n (X (S it)))).
    { destruct (Hs it xm) as [E|[(Hk & Hx)|(Hk & Hx)]]; auto; exfalso; auto. }
    rewrite E. cbn [bind]. rewrite conv_ok. cbn [bind]. destruct (nleb (dist2 n (X it) (X (S it))) eps2) eqn:Ec.
    + exists (S it). replace (it + 1) with (S it) by lia. split; [reflexivity|]. repeat split; try lia. intros _. exists it. auto.
    + destruct (IH (S it) (V n (X (S it)))) as (it' & E' & Hi & H2 & H3 & H4); [lia|lia|auto|]. exists it'. split; [exact E'|].
      repeat split; try lia.
      * intros k Hk Hk'. destruct (Nat.eq_dec k it) as [->|]; auto. apply H2; lia.
      * intros Hlt. destruct (H3 Hlt) as (k & Hk & -> & Ek). exists k. split; [lia|]. auto.
Qed.
Lemma run_of sweep n (X : nat -> nat -> N) maxIter eps2 :
  (forall k xm, sweep (V n (X k)) xm = Ok (V n (X (S k))) \/ k <> 0 /\ xm <> V n (X k) \/ k = 0 /\ xm <> V n (fun _ => n0)) ->
  exists it, sweeps sweep maxIter 0 maxIter eps2 (V n (X 0)) (V n (fun _ => n0)) = Ok (V n (X it), it) /\ run_ends n X maxIter eps2 it.
Proof.
  intros Hs. destruct (sweeps_ok sweep n X maxIter eps2 Hs maxIter 0 (V n (fun _ => n0))) as (it & E & Hi & H1 & H2 & H3); auto; [lia|].
  exists it. split; auto. split; [lia|]. split; [intros; apply H1; lia|]. split; auto.
  intros H. destruct (H2 H) as (k & _ & Hk). exists k. exact Hk.
Qed.

Context {M : RowMat N} (HR : RowLaws M).
Variables (A : M) (n : nat) (a : nat -> nat -> N) (b x0 : list N).
Hypotheses (HA : holds A n n a) (Hb : length b = n) (Hx : length x0 = n).
Let fb i := nth i b n0.
Let fx i := nth i x0 n0.
Lemma fill_V : v_fill x0 n0 = Ok (V n (fun _ => n0)).
Proof.
  rewrite fill_ok, Hx. f_equal. unfold V. clear. generalize 0 as s. induction n as [|m IH]; intros s; cbn; auto. now rewrite <- IH.
Qed.

(** jacobi: X 0 = x0, X (k+1) = D^-1 (b - (A - D) X k). *)
Theorem jacobi_run maxIter eps : exists (X : nat -> nat -> N) it,
  it_jacobi A b x0 maxIter eps = Ok (V n (X it), it) /\
  (forall i, i < n -> X 0 i = nth i x0 n0) /\ (forall k i, i < n -> X (S k) i = jac_next n a fb (X k) i) /\
  run_ends n X maxIter (eps * eps)%num it.
Proof.
  set (X := fun k => Nat.iter k (jac_next n a fb) fx). exists X.
  unfold it_jacobi. rewrite (holds_rows _ _ _ _ HA), (holds_cols _ _ _ _ HA). unfold v_size. rewrite Hb, Hx, Nat.eqb_refl. cbn [negb orb].
  rewrite fill_V. cbn [bind].
  destruct (run_of (jac_sweep A (V n fb)) n X maxIter (eps * eps)%num) as (it & E & H).
  { intros k xm. destruct (list_eq_dec (neq_dec HO) xm (V n (X k))) as [->|Hne].
    - left. apply (jac_sweep_ok HF HR A n a); auto. apply V_len.
    - destruct (Nat.eq_dec k 0) as [->|]; [|right; left; auto].
      destruct (list_eq_dec (neq_dec HO) xm (V n (fun _ => n0))) as [->|Hne2]; [left|right; right; auto].
      apply (jac_sweep_ok HF HR A n a); auto. apply V_len. }
  exists it. split.
  { etransitivity; [|exact E]. rewrite (V_self b n n0 Hb) at 1. change (fun i => nth i b n0) with fb. f_equal. now apply V_self. }
  split; [reflexivity|]. split; [reflexivity|]. exact H.
Qed.
(** sor: the first sweep mixes with the zero vector, the later ones with the previous iterate. *)
Theorem sor_run w maxIter eps : exists (X : nat -> nat -> N) it,
  it_sor A b x0 w maxIter eps = Ok (V n (X it), it) /\
  (forall i, i < n -> X 0 i = nth i x0 n0) /\ sor_eq n a fb w (fun _ => n0) (X 0) (X 1) /\
  (forall k, 0 < k -> sor_eq n a fb w (X k) (X k) (X (S k))) /\
  run_ends n X maxIter (eps * eps)%num it.
Proof.
  assert (HX' : exists X : nat -> nat -> N, X 0 = fx /\
    forall k, sor_eq n a fb w (if k =? 0 then fun _ => n0 else X k) (X k) (X (S k))).
  { set (nx := fix nx (old x : nat -> N) (m : nat) {struct m} : nat -> N := match m with
      | 0 => x
      | S p => fun j => if j =? p then ((n1 - w) * old p + w * ((fb p - offsum n p (fun q => a p q * (if q <? p then nx old x p q else x q))) / a p p))%num
               else nx old x p j end).
    assert (Hnx : forall old x m i, i < m -> nx old x m i = ((n1 - w) * old i + w * ((fb i - offsum n i (fun j => a i j * (if j <? i then nx old x m j else x j))) / a i i))%num).
    { intros old x. induction m as [|m IH]; intros i Hi; [lia|]. cbn [nx].
      assert (Eo : forall i, i <= m -> offsum n i (fun j => a i j * (if j <? i then if j =? m then ((n1 - w) * old m + w * ((fb m - offsum n m (fun q => a m q * (if q <? m then nx old x m q else x q))) / a m m)) else nx old x m j else x j))%num =
        offsum n i (fun j => a i j * (if j <? i then nx old x m j else x j))%num).
      { intros k Hk. unfold offsum. apply bigsum_ext. intros j Hj. bcase; auto. }
      rewrite Eo by lia. destruct (Nat.eqb_spec i m) as [->|Hne]; [reflexivity|]. apply IH. lia. }
    exists (fun k => match k with 0 => fx | S p => Nat.iter p (fun x => nx x x n) (nx (fun _ => n0) fx n) end). split; [reflexivity|].
    intros [|k] i Hi; cbn [Nat.eqb].
    - apply Hnx. exact Hi.
    - cbn [Nat.iter]. apply Hnx. exact Hi. }
  destruct HX' as (X & X0 & XS). exists X.
  unfold it_sor. rewrite (holds_rows _ _ _ _ HA), (holds_cols _ _ _ _ HA). unfold v_size. rewrite Hb, Hx, Nat.eqb_refl. cbn [negb orb].
  rewrite fill_V. cbn [bind].
  destruct (run_of (sor_sweep A (V n fb) w) n X maxIter (eps * eps)%num) as (it & E & H).
  { intros k xm. pose proof (XS k) as XSk. destruct k as [|k]; cbn [Nat.eqb] in XSk.
    - destruct (list_eq_dec (neq_dec HO) xm (V n (fun _ => n0))) as [->|Hne2]; [left|right; right; auto].
      now apply (sor_sweep_ok HF HR A n a).
    - destruct (list_eq_dec (neq_dec HO) xm (V n (X (S k)))) as [->|Hne2]; [left|right; left; auto].
      now apply (sor_sweep_ok HF HR A n a). }
  exists it. split.
  { etransitivity; [|exact E]. rewrite (V_self b n n0 Hb) at 1. change (fun i => nth i b n0) with fb. f_equal. rewrite X0. now apply V_self. }
  split; [now rewrite X0|]. split; [exact (XS 0)|]. split; [|exact H].
  intros k Hk. specialize (XS k). rewrite (proj2 (Nat.eqb_neq k 0)) in XS by lia. exact XS.
Qed.
End Run.
