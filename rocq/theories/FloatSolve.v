(** Rounding errors of the triangular solves (solve_lu) on doubles. *)
From Coq Require Import ZArith Reals List Arith SpecFloat Lia Lra.
From Flocq Require Import Core Relative Plus_error.
From Verif Require Import Base BaseProofs Num NumInst Spec SpecProofs VectorModel VectorProofs
  SparseModel SparseSpec SparsePropProofs DenseModel DenseSpec DenseProofs DensePropProofs MatI MatIProofs MatOps MatOpsProofs OrderProofs
  ConstructProofs DetSpec DetProofs LUModel LUProofs LUSolve FloatSpec F64Flocq FloatProofs.
Import ListNotations.
Local Open Scope nat_scope.
Open Scope res_scope.

(** ** The loops, for any number type *)
Section Loops.
Context {N : Num} {M : RowMat N}.
Definition RowReads (M : RowMat N) : Prop := forall (m : M) d1 d2 a i, MatI.holds m d1 d2 a -> i < d1 ->
  exists keep, rm_row m i = Ok (map (fun j => (j, a i j)) (filter keep (seq 0 d2))) /\
  forall j, j < d2 -> keep j = false -> is0 (a i j) = true.
Hypothesis HR : RowReads M.

(** s - e1 * v(c1) - e2 * v(c2) - ... *)
Definition chain (es : list (nat * N)) (v : nat -> N) (s : N) : N := fold_left (fun s e => s - snd e * v (fst e))%num es s.
Lemma chain_ext es v w s : (forall e, In e es -> v (fst e) = w (fst e)) -> chain es v s = chain es w s.
Proof.
  revert s. induction es as [|e es IH]; intros s H; [reflexivity|]. unfold chain in *. cbn [fold_left]. rewrite H by now left. apply IH.
  intros; apply H; now right.
Qed.
Definition skips (keep : nat -> bool) (f : nat -> N) n := forall j, j < n -> keep j = false -> is0 (f j) = true.

Lemma forward_chain (L : M) n l b : MatI.holds L n n l -> length b = n ->
  post (lu_forward L b) (fun y => length y = n /\ (forall i, i < n -> tiny (l i i) = false /\ exists keep, skips keep (l i) n /\
      nth i y n0 = (chain (cols keep (l i) 0 i) (fun j => nth j y n0) (nth i b n0) / l i i)%num)) (fun e => e = Singular /\ exists i, i < n /\ tiny (l i i) = true).
Proof.
  intros HL Hb. unfold lu_forward. rewrite (holds_rows _ _ _ _ HL).
  eapply post_mono; [apply (for_post (fun k y => length y = n /\ (forall i, i < k -> tiny (l i i) = false /\ exists keep, skips keep (l i) n /\
      nth i y n0 = (chain (cols keep (l i) 0 i) (fun j => nth j y n0) (nth i b n0) / l i i)%num) /\
      (forall i, k <= i -> nth i y n0 = nth i b n0)) (fun e => e = Singular /\ exists i, i < n /\ tiny (l i i) = true)); try lia| |auto].
  - split; auto. split; auto. lia.
  - intros i y Hi (Hl & H1 & H2). destruct (HR L n n l i HL) as (keep & -> & Hk); [lia|]. cbn [bind].
    change (map (fun j => (j, l i j)) (filter keep (seq 0 n))) with (cols keep (l i) 0 n).
    rewrite (proj1 (cols_take keep (l i) n i ltac:(lia))).
    rewrite sub_loop by (try lia; intros e He; apply cols_range in He; lia). cbn [bind].
    fold (chain (cols keep (l i) 0 i) (fun j => nth j y n0) (nth i y n0)).
    unfold div_mid. rewrite (holds_at _ _ _ _ _ _ HL) by lia. cbn [bind].
    destruct (tiny (l i i)) eqn:Et; [cbn [post]; split; [reflexivity|]; exists i; split; [lia|exact Et]|].
    rewrite v_at_ok by (rewrite upd_length; lia). cbn [bind]. rewrite v_set_ok by (rewrite upd_length; lia). cbn [post].
    rewrite nth_upd_eq, upd_upd by lia. split; [now rewrite upd_length|]. split.
    + intros r Hr. destruct (Nat.eq_dec r i) as [->|Hne].
      * split; auto. exists keep. split; auto. rewrite nth_upd_eq by lia. rewrite (H2 i) by lia. f_equal.
        apply chain_ext. intros e He. apply cols_range in He. rewrite nth_upd_ne by lia. reflexivity.
      * destruct (H1 r ltac:(lia)) as (H3 & kp & H4 & H5). split; auto. exists kp. split; auto. rewrite nth_upd_ne by lia. rewrite H5. f_equal.
        apply chain_ext. intros e He. apply cols_range in He. rewrite nth_upd_ne by lia. reflexivity.
    + intros r Hr. rewrite nth_upd_ne by lia. apply H2. lia.
  - intros y (H1 & H2 & _). auto.
Qed.
Lemma backward_chain (U : M) n u y : MatI.holds U n n u -> length y = n ->
  (0 < n -> post (lu_backward U y) (fun x => length x = n /\ (forall i, i < n -> tiny (u i i) = false /\ exists keep, skips keep (u i) n /\
      nth i x n0 = (chain (cols keep (u i) (S i) (n - S i)) (fun j => nth j x n0) (nth i y n0) / u i i)%num)) (fun e => e = Singular /\ exists i, i < n /\ tiny (u i i) = true)).
Proof.
  intros HU Hy Hn. unfold lu_backward. rewrite (holds_rows _ _ _ _ HU). unfold usub.
  replace (1 <=? n) with true by (symmetry; apply Nat.leb_le; lia). cbn [bind].
  eapply post_mono; [apply (down_n_post (fun k x => length x = n /\ (forall i, k <= i < n -> tiny (u i i) = false /\ exists keep, skips keep (u i) n /\
      nth i x n0 = (chain (cols keep (u i) (S i) (n - S i)) (fun j => nth j x n0) (nth i y n0) / u i i)%num) /\
      (forall i, i < k -> nth i x n0 = nth i y n0)) (fun e => e = Singular /\ exists i, i < n /\ tiny (u i i) = true))| |auto].
  - split; auto. split; auto. lia.
  - intros i x Hi (Hl & H1 & H2). destruct (HR U n n u i HU) as (keep & -> & Hk); [lia|]. cbn [bind].
    change (map (fun j => (j, u i j)) (filter keep (seq 0 n))) with (cols keep (u i) 0 n).
    rewrite (cols_split keep (u i) n (S i)) by lia. rewrite foreach_app.
    rewrite skip_loop by (intros e He; apply cols_range in He; lia). cbn [bind].
    rewrite noskip_loop by (intros e He; apply cols_range in He; lia).
    rewrite sub_loop by (try lia; intros e He; apply cols_range in He; lia). cbn [bind].
    fold (chain (cols keep (u i) (S i) (n - S i)) (fun j => nth j x n0) (nth i x n0)).
    unfold div_mid. rewrite (holds_at _ _ _ _ _ _ HU) by lia. cbn [bind].
    destruct (tiny (u i i)) eqn:Et; [cbn [post]; split; [reflexivity|]; exists i; split; [lia|exact Et]|].
    rewrite v_at_ok by (rewrite upd_length; lia). cbn [bind]. rewrite v_set_ok by (rewrite upd_length; lia). cbn [post].
    rewrite nth_upd_eq, upd_upd by lia. split; [now rewrite upd_length|]. split.
    + intros r Hr. destruct (Nat.eq_dec r i) as [->|Hne].
      * split; auto. exists keep. split; auto. rewrite nth_upd_eq by lia. rewrite (H2 i) by lia. f_equal.
        apply chain_ext. intros e He. apply cols_range in He. rewrite nth_upd_ne by lia. reflexivity.
      * destruct (H1 r ltac:(lia)) as (H3 & kp & H4 & H5). split; auto. exists kp. split; auto. rewrite nth_upd_ne by lia. rewrite H5. f_equal.
        apply chain_ext. intros e He. apply cols_range in He. rewrite nth_upd_ne by lia. reflexivity.
    + intros r Hr. rewrite nth_upd_ne by lia. apply H2. lia.
  - intros x (H1 & H2 & _). split; auto. intros i Hi. apply H2. lia.
Qed.
End Loops.

Lemma dense_reads : RowReads (DenseR NumF64).
Proof.
  intros m d1 d2 a i Hm Hi. assert (Hd : dwf m /\ dreads m d1 d2 a) by now apply holds_dreads.
  exists (fun _ => true). split; [|discriminate]. cbn [rm_row DenseR].
  rewrite (proj1 (pd_row _ m d1 d2 a i (proj2 Hd)) Hi). cbn [bind]. rewrite map_map, filter_true. reflexivity.
Qed.
Lemma sparse_reads : RowReads (SparseR NumF64).
Proof.
  intros m d1 d2 a i Hm Hi. apply s_holds in Hm. destruct Hm as [Hb Hr].
  exists (fun j => negb (is0 (a i j))). cbn [rm_row SparseR].
  rewrite (row_iteration _ NumF64_zero_laws d1 d2 a m i Hb Hr Hi). cbn [bind]. rewrite map_map. split; [reflexivity|].
  intros j Hj E. now destruct (is0 (a i j)).
Qed.

(** ** Rounding *)
Local Open Scope R_scope.
Lemma rnd_back a : Rabs (a - rnd a) <= u64 * Rabs (rnd a) + eta64.
Proof.
  assert (P : Prec_gt_0 53) by reflexivity. rewrite Rabs_minus_sym. pose proof u64_pos. pose proof eta64_pos.
  pose proof (Rabs_pos (rnd a)).
  destruct (Rle_or_lt (bpow radix2 (-1074 + 53 - 1)) (Rabs a)) as [H2|H2].
  - pose proof (relative_error_N_FLT_round radix2 (-1074) 53 P (fun x => negb (Z.even x)) a H2) as E.
    rewrite <- u64_bpow in E. lra.
  - pose proof (error_le_half_ulp radix2 fexp64 (fun x => negb (Z.even x)) a) as E.
    rewrite (ulp_FLT_small radix2 (-1074) 53) in E.
    + rewrite <- eta64_bpow in E. assert (0 <= u64 * Rabs (rnd a)) by (apply Rmult_le_pos; lra). lra.
    + eapply Rlt_trans; [exact H2|]. apply bpow_lt. lia.
Qed.
Lemma rnd_back_plus a b : generic_format radix2 fexp64 a -> generic_format radix2 fexp64 b ->
  Rabs (a + b - rnd (a + b)) <= u64 * Rabs (rnd (a + b)).
Proof.
  intros Ha Hb. assert (P : Prec_gt_0 53) by reflexivity.
  destruct (FLT_plus_error_N_round_ex radix2 (-1074) 53 (fun x => negb (Z.even x)) a b Ha Hb) as [d [D E]].
  rewrite E at 1. replace (rnd (a + b) * (1 + d) - rnd (a + b)) with (d * rnd (a + b)) by ring.
  rewrite Rabs_mult. apply Rmult_le_compat_r; [apply Rabs_pos|]. unfold u_ro in D. now rewrite <- u64_bpow in D.
Qed.
Lemma sub_back (x y : NumF64) : double x -> double y -> finite (x - y)%num ->
  Rabs (real x - real y - real (x - y)%num) <= u64 * Rabs (real (x - y)%num).
Proof.
  intros Hx Hy F. rewrite (sub_real x y Hx Hy F). apply rnd_back_plus; [now apply real_format|].
  apply generic_format_opp. now apply real_format.
Qed.

Lemma mul_fwd (x y : NumF64) : double x -> double y -> finite (x * y)%num ->
  Rabs (real (x * y)%num - real x * real y) <= u64 * Rabs (real x * real y) + eta64.
Proof.
  intros Hx Hy F. destruct (mul_err x y Hx Hy F) as [d [e [Hd [He E]]]]. rewrite E.
  replace (real x * real y * (1 + d) + e - real x * real y) with (d * (real x * real y) + e) by ring.
  eapply Rle_trans; [apply Rabs_triang|]. rewrite (Rabs_mult d). apply Rplus_le_compat; auto.
  apply Rmult_le_compat_r; [apply Rabs_pos|auto].
Qed.

Definition terms (es : list (nat * NumF64)) (v : nat -> NumF64) : list (NumF64 * NumF64) := map (fun e => (snd e, v (fst e))) es.

Lemma chain_error es (v : nat -> NumF64) : forall s, double s -> (forall e, In e es -> double (snd e) /\ double (v (fst e))) ->
  finite (chain es v s) ->
  double (chain es v s) /\ finite s /\ (forall e, In e es -> finite (snd e) /\ finite (v (fst e))) /\
  Rabs (real s - rlist es (fun e => real (snd e) * real (v (fst e))) - real (chain es v s))
    <= ((1 + u64) ^ (length es + 1) - 1) * rlist es (fun e => Rabs (real (snd e) * real (v (fst e))))
       + ((1 + u64) ^ length es - 1) * Rabs (real (chain es v s)) + INR (length es) * (1 + u64) ^ length es * eta64.
Proof.
  induction es as [|e es IH]; intros s Ds H F.
  - cbn [chain fold_left rlist length INR pow] in *. split; auto. split; auto. split; [intros ? []|].
    replace (real s - 0 - real s) with 0 by ring. rewrite Rabs_R0. simpl. lra.
  - destruct (H e (or_introl eq_refl)) as [De Dv].
    assert (Dm : double (snd e * v (fst e))%num) by now apply mul_double.
    change (chain (e :: es) v s) with (chain es v (s - snd e * v (fst e))%num) in *.
    set (s1 := (s - snd e * v (fst e))%num) in *. set (t := chain es v s1) in *.
    assert (D1 : double s1) by now apply sub_double.
    destruct (IH s1 D1 (fun e' He' => H e' (or_intror He')) F) as (Dt & F1 & Fe & B). fold t in Dt, B.
    destruct (sub_finite_args _ _ F1) as [Fs Fm]. destruct (mul_finite_args _ _ Fm) as [Fe1 Fv].
    split; auto. split; auto. split; [intros e' [<-|He']; auto|].
    pose proof (sub_back s _ Ds Dm F1) as B1. fold s1 in B1. pose proof (mul_fwd _ _ De Dv Fm) as B2.
    cbn [rlist length]. rewrite S_INR. replace (S (length es) + 1)%nat with (S (length es + 1)) by lia. cbn [pow].
    replace ((1 + u64) ^ (length es + 1)) with ((1 + u64) * (1 + u64) ^ length es) in * by (rewrite Nat.add_1_r; reflexivity).
    pose proof (pow_ge_1 (length es)) as P. set (w := (1 + u64) ^ length es) in *.
    pose proof (pos_INR (length es)) as I. set (m := INR (length es)) in *.
    set (A := rlist es (fun e => real (snd e) * real (v (fst e)))) in *.
    pose proof (rlist_abs es (fun e => real (snd e) * real (v (fst e)))) as AB. fold A in AB.
    set (ab := rlist es (fun e => Rabs (real (snd e) * real (v (fst e))))) in *.
    set (x := real (snd e) * real (v (fst e))) in *. set (p := real (snd e * v (fst e))%num) in *.
    set (rs := real s) in *. set (rs1 := real s1) in *. set (rt := real t) in *.
    pose proof u64_pos as U. pose proof eta64_pos as V.
    assert (Q : 0 <= ab) by (eapply Rle_trans; [apply Rabs_pos|exact AB]).
    pose proof (Rabs_pos x) as X. pose proof (Rabs_pos rt) as T.
    assert (S1 : Rabs rs1 <= (1 + u64) * w * ab + w * Rabs rt + m * w * eta64).
    { replace rs1 with ((rs1 - A - rt) + (A + rt)) by ring. eapply Rle_trans; [apply Rabs_triang|].
      pose proof (Rabs_triang A rt). lra. }
    assert (S2 : u64 * Rabs rs1 <= u64 * ((1 + u64) * w * ab + w * Rabs rt + m * w * eta64)) by (apply Rmult_le_compat_l; lra).
    replace (rs - (x + A) - rt) with ((rs - p - rs1) + ((p - x) + (rs1 - A - rt))) by ring.
    eapply Rle_trans; [apply Rabs_triang|]. eapply Rle_trans; [apply Rplus_le_compat_l, Rabs_triang|].
    assert (U1 : u64 * Rabs x <= ((1 + u64) * ((1 + u64) * w) - 1) * Rabs x).
    { apply Rmult_le_compat_r; [lra|]. assert (0 <= (w - 1) * u64) by (apply Rmult_le_pos; lra). assert (0 <= u64 * (w * u64)) by (repeat apply Rmult_le_pos; lra). lra. }
    assert (U2 : eta64 <= (1 + u64) * w * eta64).
    { rewrite <- (Rmult_1_l eta64) at 1. apply Rmult_le_compat_r; [lra|]. assert (0 <= u64 * w) by (apply Rmult_le_pos; lra). lra. }
    lra.
Qed.

Lemma row_error es (v : nat -> NumF64) b d : double b -> double d -> finite d ->
  (forall e, In e es -> double (snd e) /\ double (v (fst e))) -> finite (chain es v b / d)%num ->
  double (chain es v b / d)%num /\ finite b /\ (forall e, In e es -> finite (v (fst e))) /\
  Rabs (rlist es (fun e => real (snd e) * real (v (fst e))) + real d * real (chain es v b / d)%num - real b)
    <= ((1 + u64) ^ (length es + 1) - 1) * (rlist es (fun e => Rabs (real (snd e) * real (v (fst e)))) + Rabs (real d * real (chain es v b / d)%num))
       + (INR (length es) + Rabs (real d)) * (1 + u64) ^ length es * eta64.
Proof.
  intros Db Dd Fd H F.
  assert (Dt : double (chain es v b)).
  { clear F. revert b Db. induction es as [|e es IH]; intros b Db; auto. cbn [chain fold_left]. apply IH.
    - intros; apply H; now right.
    - apply sub_double; auto. apply mul_double; apply H; now left. }
  destruct (div_finite_args _ _ Dd F) as [Ft N0]. specialize (N0 Fd).
  destruct (chain_error es v b Db H Ft) as (_ & Fb & Fe & B).
  split; [now apply div_double|]. split; auto. split; [intros e He; now apply Fe|].
  pose proof (div_real _ _ Dt Dd Fd F) as E. set (q := real (chain es v b / d)%num) in *. set (t := real (chain es v b)) in *.
  pose proof (rnd_back (t / real d)) as BD. rewrite <- E in BD. set (rd := real d) in *.
  replace ((1 + u64) ^ (length es + 1)) with ((1 + u64) * (1 + u64) ^ length es) in * by (rewrite Nat.add_1_r; reflexivity).
  pose proof (pow_ge_1 (length es)) as P. set (w := (1 + u64) ^ length es) in *.
  set (A := rlist es (fun e => real (snd e) * real (v (fst e)))) in *.
  set (ab := rlist es (fun e => Rabs (real (snd e) * real (v (fst e))))) in *.
  pose proof u64_pos as U. pose proof eta64_pos as V. pose proof (Rabs_pos rd) as R1. pose proof (Rabs_pos (rd * q)) as R2.
  assert (T1 : Rabs (t - rd * q) <= u64 * Rabs (rd * q) + Rabs rd * eta64).
  { replace (t - rd * q) with (rd * (t / rd - q)) by (field; exact N0). rewrite Rabs_mult.
    eapply Rle_trans; [apply Rmult_le_compat_l; [exact R1|exact BD]|]. rewrite Rabs_mult. lra. }
  assert (T2 : Rabs t <= (1 + u64) * Rabs (rd * q) + Rabs rd * eta64).
  { replace t with (rd * q + (t - rd * q)) by ring. eapply Rle_trans; [apply Rabs_triang|]. lra. }
  assert (T3 : (w - 1) * Rabs t <= (w - 1) * ((1 + u64) * Rabs (rd * q) + Rabs rd * eta64)) by (apply Rmult_le_compat_l; lra).
  rewrite Rabs_minus_sym. replace (real b - (A + rd * q)) with ((real b - A - t) + (t - rd * q)) by ring.
  eapply Rle_trans; [apply Rabs_triang|]. lra.
Qed.

Lemma rlist_map {A B} (g : A -> B) l f : rlist (map g l) f = rlist l (fun x => f (g x)).
Proof. induction l as [|x t IH]; simpl; auto. now rewrite IH. Qed.
Lemma rlist_shift lo m f : rlist (seq lo m) f = rsum m (fun t => f (lo + t)%nat).
Proof.
  revert lo. induction m as [|m IH]; intros lo; [reflexivity|]. rewrite seq_S, rlist_app, IH. simpl. lra.
Qed.
Lemma filter_len {A} (p : A -> bool) l : (length (filter p l) <= length l)%nat.
Proof. induction l as [|x t IH]; simpl; auto. destruct (p x); simpl; lia. Qed.
Lemma cols_length {N : Num} keep (f : nat -> N) lo m : (length (cols keep f lo m) <= m)%nat.
Proof. unfold cols. rewrite map_length. eapply Nat.le_trans; [apply filter_len|]. now rewrite seq_length. Qed.
Lemma cols_sum n keep (f v : nat -> NumF64) (h : R -> R) lo m : skips keep f n -> (lo + m <= n)%nat -> h 0 = 0 ->
  rlist (cols keep f lo m) (fun e => h (real (snd e) * real (v (fst e)))) = rsum m (fun t => h (real (f (lo + t)%nat) * real (v (lo + t)%nat))).
Proof.
  intros K Hm H0. unfold cols. rewrite rlist_map. cbn [fst snd]. rewrite rlist_filter, rlist_shift; auto.
  intros j Hj E. apply in_seq in Hj. rewrite (proj2 (is0_real _ (K j ltac:(lia) E))), Rmult_0_l. exact H0.
Qed.

Lemma row_bound_mono k n t d : (k <= n)%nat -> 0 <= t -> row_bound k t d <= row_bound n t d.
Proof.
  intros H T. unfold row_bound. pose proof u64_pos. pose proof eta64_pos. pose proof (pow_ge_1 k). pose proof (pow_ge_1 n).
  assert (W : (1 + u64) ^ k <= (1 + u64) ^ n) by (apply Rle_pow; [lra|lia]). pose proof (pos_INR k). pose proof (Rabs_pos d).
  apply Rplus_le_compat; [apply Rmult_le_compat_r; lra|]. apply Rmult_le_compat_r; [lra|]. apply Rmult_le_compat; try lra.
  apply Rplus_le_compat_r. now apply le_INR.
Qed.
Lemma rsum_ext n f g : (forall i, (i < n)%nat -> f i = g i) -> rsum n f = rsum n g.
Proof. induction n as [|n IH]; intros H; [reflexivity|]. simpl. rewrite IH, H; auto. Qed.
Lemma rsum_pos n f : (forall i, (i < n)%nat -> 0 <= f i) -> 0 <= rsum n f.
Proof. induction n as [|n IH]; intros H; simpl; [lra|]. apply Rplus_le_le_0_compat; auto. Qed.
Lemma rsum_le n f g : (forall i, (i < n)%nat -> f i <= g i) -> rsum n f <= rsum n g.
Proof. induction n as [|n IH]; intros H; simpl; [lra|]. apply Rplus_le_compat; auto. Qed.
Lemma rsum_abs n f : Rabs (rsum n f) <= rsum n (fun i => Rabs (f i)).
Proof. induction n as [|n IH]; simpl; [rewrite Rabs_R0; lra|]. eapply Rle_trans; [apply Rabs_triang|]. lra. Qed.
Lemma rsum_plus n f g : rsum n (fun i => f i + g i) = rsum n f + rsum n g.
Proof. induction n as [|n IH]; simpl; [lra|]. rewrite IH. lra. Qed.
Lemma rsum_minus n f g : rsum n (fun i => f i - g i) = rsum n f - rsum n g.
Proof. induction n as [|n IH]; simpl; [lra|]. rewrite IH. lra. Qed.
Lemma rsum_scal n c f : rsum n (fun i => c * f i) = c * rsum n f.
Proof. induction n as [|n IH]; simpl; [lra|]. rewrite IH. lra. Qed.
Lemma rsum_head n f : rsum (S n) f = f O + rsum n (fun t => f (S t)).
Proof. induction n as [|n IH]; [simpl; lra|]. cbn [rsum] in *. rewrite IH. lra. Qed.

(** One row in terms of sums over all columns. *)
Lemma row_error_cols n keep (f v : nat -> NumF64) lo m b d : skips keep f n -> (lo + m <= n)%nat -> double b -> double d -> finite d ->
  (forall j, (j < n)%nat -> double (f j)) -> (forall j, (lo <= j < lo + m)%nat -> double (v j)) ->
  finite (chain (cols keep f lo m) v b / d)%num ->
  double (chain (cols keep f lo m) v b / d)%num /\ finite b /\
  Rabs (rsum m (fun t => real (f (lo + t)%nat) * real (v (lo + t)%nat)) + real d * real (chain (cols keep f lo m) v b / d)%num - real b)
    <= row_bound (m + 1) (rsum m (fun t => Rabs (real (f (lo + t)%nat) * real (v (lo + t)%nat))) + Rabs (real d * real (chain (cols keep f lo m) v b / d)%num)) (real d).
Proof.
  intros K Hm Db Dd Fd Df Dv F.
  assert (H : forall e, In e (cols keep f lo m) -> double (snd e) /\ double (v (fst e))).
  { intros e He. apply cols_range in He as [He1 He2]. rewrite He2. split; [apply Df|apply Dv]; lia. }
  destruct (row_error _ v b d Db Dd Fd H F) as (D & Fb & _ & B). split; auto. split; auto.
  rewrite (cols_sum n keep f v (fun x => x) lo m K Hm eq_refl) in B. cbv beta in B.
  rewrite (cols_sum n keep f v Rabs lo m K Hm Rabs_R0) in B.
  set (T := rsum m (fun t => Rabs _) + Rabs _) in *. assert (T0 : 0 <= T).
  { unfold T. apply Rplus_le_le_0_compat; [apply rsum_pos; intros|]; apply Rabs_pos. }
  eapply Rle_trans; [exact B|]. set (k := length (cols keep f lo m)) in *.
  assert (Hk : (k <= m)%nat) by apply cols_length.
  eapply Rle_trans; [|apply (row_bound_mono (k + 1) (m + 1) T (real d)); [lia|exact T0]].
  unfold row_bound. apply Rplus_le_compat_l. pose proof u64_pos. pose proof eta64_pos. pose proof (pow_ge_1 k) as P. pose proof (pos_INR k). pose proof (Rabs_pos (real d)).
  rewrite plus_INR. change (INR 1) with 1. rewrite Nat.add_1_r. cbn [pow].
  apply Rmult_le_compat_r; [lra|]. apply Rmult_le_compat; try lra.
  assert (0 <= u64 * (1 + u64) ^ k) by (apply Rmult_le_pos; lra). lra.
Qed.


Lemma solve_float {M : RowMat NumF64} (HR : RowReads M) (L U : M) n l u b : (0 < n)%nat ->
  MatI.holds L n n l -> MatI.holds U n n u -> length b = n ->
  doubles2 n n l -> doubles2 n n u -> all_finite n l -> all_finite n u -> doubles b ->
  post (solve_lu L U b) (fun x => length x = n /\ ((forall i, (i < n)%nat -> finite (nth i x n0)) -> doubles x /\ exists y : nat -> R,
      (forall i, (i < n)%nat -> Rabs (rsum (S i) (fun j => real (l i j) * y j) - real (nth i b n0))
         <= row_bound n (rsum (S i) (fun j => Rabs (real (l i j) * y j))) (real (l i i))) /\
      (forall i, (i < n)%nat -> Rabs (rsum (n - i) (fun t => real (u i (i + t)%nat) * real (nth (i + t) x n0)) - y i)
         <= row_bound n (rsum (n - i) (fun t => Rabs (real (u i (i + t)%nat) * real (nth (i + t) x n0)))) (real (u i i)))))
    (fun e => e = Singular).
Proof.
  intros Hn HL HU Lb Dl Du Fl Fu Db. unfold solve_lu.
  rewrite (holds_rows _ _ _ _ HL), (holds_rows _ _ _ _ HU), (holds_cols _ _ _ _ HL), (holds_cols _ _ _ _ HU).
  unfold v_size. rewrite Lb, !Nat.eqb_refl. cbn [negb].
  apply post_bind. eapply post_mono; [apply (forward_chain HR L n l b HL Lb)| |intros ex [-> _]; reflexivity]. intros y (Ly & Hy).
  eapply post_mono; [apply (backward_chain HR U n u y HU Ly Hn)| |intros ex [-> _]; reflexivity]. intros x (Lx & Hx). split; auto.
  intros Fx.
  assert (Dy : forall i, (i < n)%nat -> double (nth i y n0)).
  { intros i. induction i as [i IH] using (well_founded_induction lt_wf). intros Hi.
    destruct (Hy i Hi) as (_ & kp & K & E). rewrite E. apply div_double; [|now apply Dl].
    assert (G : forall es s, double s -> (forall e, In e es -> double (snd e) /\ double (nth (fst e) y n0)) -> double (chain es (fun j => nth j y n0) s)).
    { induction es as [|e es IHe]; intros s Ds H; auto. cbn [chain fold_left]. apply IHe; [|intros; apply H; now right].
      apply sub_double; auto. destruct (H e (or_introl eq_refl)). now apply mul_double. }
    apply G; [apply Db, nth_In; lia|]. intros e He. apply cols_range in He as [H1 H2]. rewrite H2. split; [apply Dl; lia|apply IH; lia]. }
  (* backwards: every x is a double and every y is finite *)
  assert (B1 : forall k, (k <= n)%nat -> forall i, (n - k <= i < n)%nat -> double (nth i x n0) /\ finite (nth i y n0) /\
     Rabs (rsum (n - i) (fun t => real (u i (i + t)%nat) * real (nth (i + t) x n0)) - real (nth i y n0))
         <= row_bound n (rsum (n - i) (fun t => Rabs (real (u i (i + t)%nat) * real (nth (i + t) x n0)))) (real (u i i))).
  { induction k as [|k IH]; intros Hk i Hi; [lia|]. destruct (Nat.eq_dec i (n - S k)) as [Ei|Ne]; [|apply IH; lia].
    destruct (Hx i ltac:(lia)) as (_ & kp & K & E). pose proof (Fx i ltac:(lia)) as F. rewrite E in F.
    destruct (row_error_cols n kp (u i) (fun j => nth j x n0) (S i) (n - S i) (nth i y n0) (u i i)) as (D & Fy & B); auto; try lia.
    - apply Dy; lia.
    - apply Du; lia.
    - apply Fu; lia.
    - intros j Hj. apply Du; lia.
    - intros j Hj. apply IH; lia.
    - rewrite <- E in D, B. split; auto. split; auto.
      replace (n - i)%nat with (S (n - S i)) by lia. rewrite !rsum_head. rewrite Nat.add_0_r.
      rewrite (rsum_ext (n - S i) (fun t => real (u i (i + S t)%nat) * real (nth (i + S t) x n0)) (fun t => real (u i (S i + t)%nat) * real (nth (S i + t) x n0)))
        by (intros t _; replace (i + S t)%nat with (S i + t)%nat by lia; reflexivity).
      rewrite (rsum_ext (n - S i) (fun t => Rabs (real (u i (i + S t)%nat) * real (nth (i + S t) x n0))) (fun t => Rabs (real (u i (S i + t)%nat) * real (nth (S i + t) x n0))))
        by (intros t _; replace (i + S t)%nat with (S i + t)%nat by lia; reflexivity).
      rewrite (Rplus_comm (real (u i i) * _)), (Rplus_comm (Rabs (real (u i i) * _))).
      eapply Rle_trans; [exact B|]. apply row_bound_mono; [lia|].
      apply Rplus_le_le_0_compat; [apply rsum_pos; intros|]; apply Rabs_pos. }
  split.
  { intros z Hz. destruct (In_nth _ _ n0 Hz) as (i & Hi & <-). apply (B1 n); lia. }
  exists (fun i => real (nth i y n0)). split; [|intros i Hi; apply (B1 n); lia].
  intros i Hi. destruct (Hy i Hi) as (_ & kp & K & E). destruct (B1 n (Nat.le_refl n) i ltac:(lia)) as (_ & F & _). rewrite E in F.
  destruct (row_error_cols n kp (l i) (fun j => nth j y n0) 0 i (nth i b n0) (l i i)) as (_ & _ & B); auto; try lia.
  - apply Db, nth_In; lia.
  - intros j Hj. apply Dy; lia.
  - rewrite <- E in B. cbn [rsum plus] in *. eapply Rle_trans; [exact B|]. apply row_bound_mono; [lia|].
    apply Rplus_le_le_0_compat; [apply rsum_pos; intros|]; apply Rabs_pos.
Qed.

Lemma solve_combine n (l u : nat -> nat -> R) (x y b : nat -> R) :
  (forall i, (i < n)%nat -> Rabs (rsum (S i) (fun j => l i j * y j) - b i) <= row_bound n (rsum (S i) (fun j => Rabs (l i j * y j))) (l i i)) ->
  (forall i, (i < n)%nat -> Rabs (rsum (n - i) (fun t => u i (i + t)%nat * x (i + t)%nat) - y i)
         <= row_bound n (rsum (n - i) (fun t => Rabs (u i (i + t)%nat * x (i + t)%nat))) (u i i)) ->
  forall i, (i < n)%nat -> Rabs (rsum (S i) (fun j => l i j * rsum (n - j) (fun t => u j (j + t)%nat * x (j + t)%nat)) - b i)
    <= solve_bound n (rsum (S i) (fun j => Rabs (l i j) * rsum (n - j) (fun t => Rabs (u j (j + t)%nat * x (j + t)%nat))))
         (INR n + Rabs (l i i) + rsum (S i) (fun j => Rabs (l i j) * (INR n + Rabs (u j j)))).
Proof.
  intros HL HU i Hi. set (ux := fun j => rsum (n - j) (fun t => u j (j + t)%nat * x (j + t)%nat)).
  set (au := fun j => rsum (n - j) (fun t => Rabs (u j (j + t)%nat * x (j + t)%nat))).
  assert (HU' : forall j, (j < n)%nat -> Rabs (ux j - y j) <= row_bound n (au j) (u j j)) by exact HU. clear HU.
  specialize (HL i Hi).
  change (rsum (S i) (fun j => l i j * rsum (n - j) (fun t => u j (j + t)%nat * x (j + t)%nat))) with (rsum (S i) (fun j => l i j * ux j)).
  change (rsum (S i) (fun j => Rabs (l i j) * rsum (n - j) (fun t => Rabs (u j (j + t)%nat * x (j + t)%nat)))) with (rsum (S i) (fun j => Rabs (l i j) * au j)).
  assert (AU : forall j, Rabs (ux j) <= au j) by (intros j; apply rsum_abs).
  unfold row_bound, solve_bound in *. replace (2 * n)%nat with (n + n)%nat by lia. rewrite pow_add.
  pose proof u64_pos as U. pose proof eta64_pos as V. pose proof (pow_ge_1 n) as P. set (w := (1 + u64) ^ n) in *.
  set (e := fun j => INR n + Rabs (u j j)) in *.
  change (rsum (S i) (fun j => Rabs (l i j) * (INR n + Rabs (u j j)))) with (rsum (S i) (fun j => Rabs (l i j) * e j)).
  assert (E0 : forall j, 0 <= e j) by (intros j; unfold e; pose proof (pos_INR n); pose proof (Rabs_pos (u j j)); lra).
  assert (Y1 : forall j, (j < n)%nat -> Rabs (y j) <= w * au j + e j * w * eta64).
  { intros j Hj. specialize (HU' j Hj). specialize (AU j). rewrite Rabs_minus_sym in HU'.
    replace (y j) with ((y j - ux j) + ux j) by ring. eapply Rle_trans; [apply Rabs_triang|]. fold (e j) in HU'. lra. }
  assert (S1 : Rabs (rsum (S i) (fun j => l i j * ux j) - rsum (S i) (fun j => l i j * y j)) <=
    (w - 1) * rsum (S i) (fun j => Rabs (l i j) * au j) + w * eta64 * rsum (S i) (fun j => Rabs (l i j) * e j)).
  { rewrite <- rsum_minus, <- !rsum_scal, <- rsum_plus. eapply Rle_trans; [apply rsum_abs|]. apply rsum_le. intros j Hj.
    replace (l i j * ux j - l i j * y j) with (l i j * (ux j - y j)) by ring. rewrite Rabs_mult.
    eapply Rle_trans; [apply Rmult_le_compat_l; [apply Rabs_pos|apply HU'; lia]|]. fold (e j). lra. }
  assert (S2 : rsum (S i) (fun j => Rabs (l i j * y j)) <= w * rsum (S i) (fun j => Rabs (l i j) * au j) + w * eta64 * rsum (S i) (fun j => Rabs (l i j) * e j)).
  { rewrite <- !rsum_scal, <- rsum_plus. apply rsum_le. intros j Hj. rewrite Rabs_mult.
    eapply Rle_trans; [apply Rmult_le_compat_l; [apply Rabs_pos|apply Y1; lia]|]. lra. }
  set (T := rsum (S i) (fun j => Rabs (l i j) * au j)) in *. set (E := rsum (S i) (fun j => Rabs (l i j) * e j)) in *.
  set (g := INR n + Rabs (l i i)) in *.
  assert (G0 : 0 <= g) by (unfold g; pose proof (pos_INR n); pose proof (Rabs_pos (l i i)); lra).
  assert (EE : 0 <= E) by (apply rsum_pos; intros; apply Rmult_le_pos; [apply Rabs_pos|apply E0]).
  set (ly := rsum (S i) (fun j => l i j * y j)) in *. set (lux := rsum (S i) (fun j => l i j * ux j)) in *.
  replace (lux - b i) with ((lux - ly) + (ly - b i)) by ring. eapply Rle_trans; [apply Rabs_triang|].
  assert (S3 : (w - 1) * rsum (S i) (fun j => Rabs (l i j * y j)) <= (w - 1) * (w * T + w * eta64 * E)) by (apply Rmult_le_compat_l; lra).
  assert (S4 : 0 <= g * eta64 * w * (w - 1)) by (repeat apply Rmult_le_pos; lra). lra.
Qed.
