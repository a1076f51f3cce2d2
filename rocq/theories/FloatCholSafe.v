(** cholesky on doubles succeeds on matrices that stay positive definite under perturbations of the size of its own rounding errors. *)
From Coq Require Import ZArith Reals List Arith Bool SpecFloat Lia Lra.
From Flocq Require Import Core Relative BinarySingleNaN.
From Verif Require Import Base BaseProofs Num NumInst OrdField Spec SpecProofs UtilsInst SparseModel DenseModel MatI MatIProofs MatOps DenseSpec LUModel LUProofs CholProofs
  FloatSpec FloatLUSpec FloatCholSpec FloatDetSpec F64Flocq FloatProofs FloatResult FloatSolve FloatLU FloatLUSolve FloatIter FloatGrowth FloatDet FloatChol.
Import ListNotations.
Local Open Scope R_scope.

(** ** A real matrix near a with a vector that makes its form small *)
Lemma rsum_pick n m i f : (m <= i < n)%nat -> (forall q, (m <= q < n)%nat -> q <> i -> f q = 0) -> rsum n f = rsum m f + f i.
Proof.
  intros Hi H. induction n as [|n IH]; [lia|]. cbn [rsum]. destruct (Nat.eq_dec i n) as [->|Hne].
  - f_equal. clear IH. replace n with (m + (n - m))%nat by lia. apply rsum_cut. intros t Ht. apply H; lia.
  - rewrite IH; [|lia|intros; apply H; lia]. rewrite (H n) by lia. lra.
Qed.
Lemma null_real m (r : nat -> nat -> R) : (forall c, (c < m)%nat -> 0 < r c c) -> (forall p c, (p < c < m)%nat -> r p c = 0) -> 
  exists x : nat -> R, forall t, (t < m)%nat -> rsum m (fun p => x p * r p t) + r m t = 0.
Proof.
  intros Hd Hu. set (l := fun p t => if (t <? m)%nat then r p t else 0).
  destruct (null_vec (N := NumR) NumR_ord (S m) (fun i k => bigsum (N := NumR) (S k) (fun t => l i t * l k t)) m l (Nat.lt_succ_diag_r m)) as (x & X1 & _ & X3).
  - split; [|split].
    + intros i k Hi Hk [H|H]; unfold l; destruct (Nat.ltb_spec k m); try lia; try reflexivity. apply Hu. lia.
    + reflexivity.
    + intros k Hk. unfold l. destruct (Nat.ltb_spec k m); [|lia]. change (negb (NumInst.Rle_bool (r k k) 0) = true).
      destruct (NumInst.Rle_bool (r k k) 0) eqn:B; [|reflexivity]. apply NumInst.Rle_bool_iff in B. pose proof (Hd k Hk). lra.
  - exists x. intros t Ht. specialize (X3 t Ht). rewrite <- rsum_bigsum in X3. cbn [rsum] in X3. change (T NumR) with R in X1.
    rewrite X1 in X3. unfold l in X3. destruct (Nat.ltb_spec t m); [|lia].
    change (rsum m (fun p => x p * r p t) + 1 * r m t = 0) in X3. lra.
Qed.

Section Key.
Variables (n : nat) (ar : nat -> nat -> R) (d : R).
Hypothesis Hd : 0 <= d.
Hypothesis Sym : forall i j, (i < n)%nat -> (j < n)%nat -> ar i j = ar j i.
Hypothesis PD : forall E : nat -> nat -> R, (forall i j, (i < n)%nat -> (j < n)%nat -> E i j = E j i /\ Rabs (E i j) <= d) ->
  forall x : nat -> R, (exists i, (i < n)%nat /\ x i <> 0) -> 0 < rsum n (fun i => rsum n (fun j => x i * (ar i j + E i j) * x j)).

Lemma key m i (r : nat -> nat -> R) : (m <= i < n)%nat -> (forall c, (c < m)%nat -> 0 < r c c) -> (forall p c, (p < c < m)%nat -> r p c = 0) ->
  (forall p c, (c < m)%nat -> (c <= p)%nat -> (p < m)%nat \/ p = i -> Rabs (ar p c - rsum (S c) (fun t => r p t * r c t)) <= d) ->
  rsum m (fun t => r i t * r i t) + d < ar i i.
Proof.
  intros Hi Hp Hu Hb. set (G := fun q s => rsum m (fun t => r q t * r s t)).
  assert (Gs : forall q s, G q s = G s q) by (intros; unfold G; apply rsum_ext; intros; ring).
  assert (Gc : forall q c, (c < m)%nat -> G q c = rsum (S c) (fun t => r q t * r c t)).
  { intros q c Hc. unfold G. replace m with (S c + (m - S c))%nat by lia. apply rsum_cut. intros t Ht. rewrite (Hu c) by lia. ring. }
  set (sup := fun q => (q <? m)%nat || (q =? i)%nat).
  set (E := fun q s => if sup q && sup s then (if (q =? i)%nat && (s =? i)%nat then - d else G q s - ar q s) else 0).
  assert (HE : forall q s, (q < n)%nat -> (s < n)%nat -> E q s = E s q /\ Rabs (E q s) <= d).
  { intros q s Hq Hs. split.
    - unfold E. rewrite (andb_comm (sup s)), (andb_comm (s =? i)%nat). rewrite (Gs s q), (Sym s q) by lia. reflexivity.
    - unfold E. destruct (sup q && sup s) eqn:S0; [|rewrite Rabs_R0; exact Hd]. unfold sup in S0. apply andb_prop in S0. destruct S0 as (S1 & S2).
      apply orb_prop in S1. apply orb_prop in S2. rewrite Nat.ltb_lt, Nat.eqb_eq in S1, S2.
      destruct (Nat.eqb_spec q i) as [Eq|Eq]; destruct (Nat.eqb_spec s i) as [Es|Es]; cbn [andb]; try (rewrite Rabs_Ropp, Rabs_pos_eq; lra).
      + rewrite Rabs_minus_sym. rewrite Gc by lia. apply Hb; [lia|lia|right; exact Eq].
      + rewrite Rabs_minus_sym. rewrite Gs, Sym, Gc by lia. apply Hb; [lia|lia|right; exact Es].
      + rewrite Rabs_minus_sym. destruct (Nat.le_gt_cases s q).
        * rewrite Gc by lia. apply Hb; lia.
        * rewrite Gs, Sym, Gc by lia. apply Hb; lia. }
  destruct (null_real m (fun p t => if (p <? m)%nat then r p t else r i t)) as (x & Hx).
  { intros c Hc. destruct (Nat.ltb_spec c m); [auto|lia]. }
  { intros p c Hc. destruct (Nat.ltb_spec p m); [auto|lia]. }
  assert (Hx' : forall t, (t < m)%nat -> rsum m (fun p => r p t * x p) + r i t = 0).
  { intros t Ht. specialize (Hx t Ht). rewrite Nat.ltb_irrefl in Hx. eapply eq_trans; [|exact Hx]. f_equal. apply rsum_ext. intros p Hp'.
    destruct (Nat.ltb_spec p m); [ring|lia]. }
  set (X := fun q => if (q <? m)%nat then x q else if (q =? i)%nat then 1 else 0).
  specialize (PD E HE X).
  assert (Xi : X i = 1) by (unfold X; destruct (Nat.ltb_spec i m); [lia|]; now rewrite Nat.eqb_refl).
  assert (Xn : forall q, (m <= q)%nat -> q <> i -> X q = 0).
  { intros q Hq Hne. unfold X. destruct (Nat.ltb_spec q m); [lia|]. destruct (Nat.eqb_spec q i); [lia|reflexivity]. }
  assert (Xm : forall q, (q < m)%nat -> X q = x q) by (intros q Hq; unfold X; destruct (Nat.ltb_spec q m); [reflexivity|lia]).
  assert (P : 0 < rsum n (fun q => rsum n (fun s => X q * (ar q s + E q s) * X s))).
  { apply PD. exists i. split; [lia|]. rewrite Xi. lra. }
  rewrite (rsum_pick n m i) in P; [|lia|].
  2: { intros q Hq Hne. rewrite (rsum_ext n _ (fun _ => 0)); [apply rsum_0|]. intros s Hs. rewrite (Xn q) by lia. ring. }
  assert (Row : forall q, (q < m)%nat \/ q = i -> rsum n (fun s => X q * (ar q s + E q s) * X s) = X q * (if (q =? i)%nat then ar i i - d - G i i else 0)).
  { intros q Hq. rewrite (rsum_pick n m i); [|lia|intros s Hs Hne; rewrite (Xn s) by lia; ring].
    assert (Sq : sup q = true) by (unfold sup; destruct Hq as [Hq| ->]; [apply orb_true_intro; left; now apply Nat.ltb_lt|rewrite Nat.eqb_refl; apply orb_true_r]).
    assert (Si : sup i = true) by (unfold sup; rewrite Nat.eqb_refl; apply orb_true_r).
    rewrite (rsum_ext m _ (fun s => X q * (G q s * x s))).
    2: { intros s Hs. unfold E. assert (Ss : sup s = true) by (unfold sup; apply orb_true_intro; left; now apply Nat.ltb_lt).
         rewrite Sq, Ss. cbn [andb]. destruct (Nat.eqb_spec s i); [lia|]. rewrite andb_false_r, (Xm s) by lia. ring. }
    assert (Y : rsum m (fun s => G q s * x s) + G q i = 0).
    { unfold G. rewrite (rsum_ext m (fun s => rsum m (fun t => r q t * r s t) * x s) (fun s => rsum m (fun t => r q t * r s t * x s))) by (intros; now rewrite rsum_scal_r).
      rewrite rsum_exch. rewrite <- rsum_plus. rewrite (rsum_ext m _ (fun _ => 0)); [apply rsum_0|]. intros t Ht.
      rewrite (rsum_ext m (fun s => r q t * r s t * x s) (fun s => r q t * (r s t * x s))) by (intros; ring).
      rewrite rsum_scal. replace (r q t * rsum m (fun i0 => r i0 t * x i0) + r q t * r i t) with (r q t * (rsum m (fun p => r p t * x p) + r i t)) by ring.
      rewrite Hx' by lia. ring. }
    rewrite rsum_scal. unfold E. rewrite Sq, Si, Xi. cbn [andb]. rewrite Nat.eqb_refl, andb_true_r. destruct (Nat.eqb_spec q i) as [->|Hne].
    - rewrite Xi. replace (rsum m (fun s => G i s * x s)) with (- G i i) by lra. ring.
    - replace (rsum m (fun s => G q s * x s)) with (- G q i) by lra. ring. }
  rewrite (Row i) in P by auto. rewrite Xi, Nat.eqb_refl in P.
  rewrite (rsum_ext m _ (fun _ => 0)) in P.
  - rewrite rsum_0 in P. fold (G i i). lra.
  - intros q Hq. rewrite Row by auto. destruct (Nat.eqb_spec q i); [lia|ring].
Qed.
End Key.

(** ** Constants *)
Lemma pow_small k : INR k * u64 <= / 32 -> (1 + u64) ^ k <= 17 / 16.
Proof.
  intros H. pose proof u64_pos as U.
  assert (X : forall m, (m <= k)%nat -> (1 + u64) ^ m * (1 - INR m * u64) <= 1).
  { induction m as [|m IH]; intros Hm; [cbn; lra|]. specialize (IH ltac:(lia)). rewrite S_INR. cbn [pow]. pose proof (pow_ge_1 m) as P. set (w := (1 + u64) ^ m) in *.
    pose proof (pos_INR m). assert (0 <= w * u64 * (INR m + 1) * u64) by (repeat apply Rmult_le_pos; lra). nra. }
  specialize (X k (le_n k)). pose proof (pow_ge_1 k). set (w := (1 + u64) ^ k) in *. nra.
Qed.

Section Safe.
Context {I : MatI NumF64} (nz : NumF64 -> NumF64) (HS : SetLaws (I := I) nz).
Hypothesis Zs : forall x, nz x = x \/ exists s, x = S754_zero s /\ nz x = S754_zero false.
Variables (n : nat) (a : nat -> nat -> NumF64) (e : Z).
Hypothesis Hn : (Z.of_nat n <= 2 ^ 40)%Z.
Hypothesis He : (-1000 <= e <= 1000)%Z.
Hypothesis Da : doubles2 n n a.
Hypothesis Ba : entries_bounded n e a.
Hypothesis Sym : forall i j, (i < n)%nat -> (j < n)%nat -> real (a i j) = real (a j i).
Hypothesis PD : safely_pd n (chol_error n e) a.

Let M := bpow radix2 e.
Let g := (1 + u64) ^ (n + 7).
Lemma M_pos : 0 < M.
Proof. apply bpow_gt_0. Qed.
Lemma n_small : INR (n + 7) <= bpow radix2 41.
Proof.
  rewrite INR_IZR_INZ. rewrite <- (IZR_Zpower radix2 41) by lia. apply IZR_le. change (radix2 ^ 41)%Z with (2 * 2 ^ 40)%Z. lia.
Qed.
Lemma g_small : 1 <= g <= 17 / 16.
Proof.
  split; [apply pow_ge_1|]. apply pow_small. rewrite u64_b. apply Rle_trans with (bpow radix2 41 * bpow radix2 (-53)).
  - apply Rmult_le_compat_r; [apply bpow_ge_0|apply n_small].
  - rewrite <- bpow_plus. apply Rle_trans with (bpow radix2 (-5)); [apply bpow_le; lia|]. cbn. lra.
Qed.
Lemma eta_small : eta64 <= M * bpow radix2 (-75).
Proof.
  rewrite eta64_bpow. unfold M. rewrite <- bpow_plus. change (/ 2) with (bpow radix2 (-1)). rewrite <- bpow_plus. apply bpow_le. lia.
Qed.
Lemma neta_small : INR (n + 7) * g * eta64 <= M / 64.
Proof.
  pose proof g_small. pose proof n_small. pose proof eta_small as H1. pose proof eta64_pos. pose proof (pos_INR (n + 7)). pose proof M_pos.
  apply Rle_trans with (bpow radix2 41 * 2 * (M * bpow radix2 (-75))).
  - apply Rmult_le_compat; [apply Rmult_le_pos; lra|lra|apply Rmult_le_compat; lra|exact H1].
  - replace (bpow radix2 41 * 2 * (M * bpow radix2 (-75))) with (2 * M * (bpow radix2 41 * bpow radix2 (-75))) by ring. rewrite <- bpow_plus.
    assert (bpow radix2 (41 + -75) <= bpow radix2 (-7)) by (apply bpow_le; lia). change (bpow radix2 (-7)) with (/ 128) in *. nra.
Qed.
Lemma u_small : 0 < u64 <= / 1024 /\ u64 <= g - 1.
Proof.
  split; [split; [apply u64_pos|]|].
  - rewrite u64_b. change (/ 1024) with (bpow radix2 (-10)). apply bpow_le. lia.
  - unfold g. pose proof (pow_le_u 1 (n + 7) ltac:(lia)). cbn [pow] in H. lra.
Qed.
Definition dlt : R := chol_error n e.
Lemma dlt_eq : dlt = (g - 1) * (4 * M) + INR (n + 7) * g * eta64 + (1 + 2 * M) * g * eta64.
Proof.
  unfold dlt, chol_error, row_bound. rewrite !powerRZ_add by lra. fold (powerRZ (IZR radix2) e). change 2 with (IZR radix2) at 1 2 3 4.
  rewrite <- !bpow_powerRZ. fold M g. change (bpow radix2 2) with 4. change (bpow radix2 1) with 2. pose proof M_pos. rewrite Rabs_pos_eq by lra. ring.
Qed.
Lemma dlt_pos : 0 <= dlt.
Proof.
  rewrite dlt_eq. pose proof g_small. pose proof M_pos. pose proof eta64_pos. pose proof (pos_INR (n + 7)).
  assert (0 <= (g - 1) * (4 * M)) by (apply Rmult_le_pos; lra). assert (0 <= INR (n + 7) * g * eta64) by (repeat apply Rmult_le_pos; lra).
  assert (0 <= (1 + 2 * M) * g * eta64) by (repeat apply Rmult_le_pos; lra). lra.
Qed.
(** Sums of at most n products with |terms| adding up to at most M *)
Lemma dot_small i q : (i <= n)%nat -> 0 <= q <= M -> dot_bound i q <= (g - 1) * M + INR (n + 7) * g * eta64 /\ dot_bound i q <= M / 8.
Proof.
  intros Hi Hq. pose proof (dot_le i n q Hi (proj1 Hq)) as H. fold g in H. pose proof g_small. pose proof neta_small. pose proof M_pos.
  assert ((g - 1) * q <= (g - 1) * M) by (apply Rmult_le_compat_l; lra). split; nra.
Qed.
Lemma row_small t v : t <= 4 * M -> Rabs v <= 1 + 2 * M -> row_bound (n + 7) t v <= dlt.
Proof.
  intros H1 H2. rewrite dlt_eq. unfold row_bound. fold g. pose proof g_small. pose proof eta64_pos.
  assert ((g - 1) * t <= (g - 1) * (4 * M)) by (apply Rmult_le_compat_l; lra).
  assert (Rabs v * (g * eta64) <= (1 + 2 * M) * (g * eta64)) by (apply Rmult_le_compat_r; [apply Rmult_le_pos; lra|lra]).
  replace ((INR (n + 7) + Rabs v) * g * eta64) with (INR (n + 7) * g * eta64 + Rabs v * (g * eta64)) by ring. lra.
Qed.
Lemma a_bound i j : (i < n)%nat -> (j < n)%nat -> finite (a i j) /\ Rabs (real (a i j)) <= M.
Proof. intros Hi Hj. destruct (Ba i j Hi Hj) as (F & B). split; [exact F|]. unfold M. rewrite bpow_powerRZ. exact B. Qed.
Lemma Fa : lower_finite n a.
Proof. intros i j H. apply a_bound; lia. Qed.
Lemma sum_fin i (x y : nat -> NumF64) : (i <= n)%nat -> (forall t, (t < i)%nat -> double (x t) /\ finite (x t) /\ double (y t) /\ finite (y t)) ->
  rsum i (fun t => Rabs (real (x t) * real (y t))) <= M -> finite (bigsum i (fun t => x t * y t)%num).
Proof.
  intros Hi H B. rewrite bigsum_acc. apply dot_total.
  - intros t Ht. apply in_seq in Ht. apply H. lia.
  - rewrite seq_length, rlist_seq. pose proof g_small. pose proof neta_small. pose proof M_pos.
    pose proof (pow_le_u (i + 1) (n + 7) ltac:(lia)) as P. fold g in P. pose proof eta64_pos.
    assert (Hi' : INR i <= INR (n + 7)) by (apply le_INR; lia). pose proof (pos_INR i). pose proof (pow_ge_1 (i + 1)). 
    assert (X : INR i * eta64 <= M / 64).
    { apply Rle_trans with (INR (n + 7) * g * eta64); [|lra]. apply Rmult_le_compat_r; [lra|]. nra. }
    set (q := rsum i (fun t => Rabs (real (x t) * real (y t)))) in *.
    assert (Q : 0 <= q) by apply terms_pos.
    apply Rle_lt_trans with (2 * M).
    + apply Rle_trans with (17 / 16 * (M + M / 64)); [|lra]. apply Rmult_le_compat; try lra. apply Rplus_le_le_0_compat; [lra|]. apply Rmult_le_pos; lra.
    + unfold M. change 2 with (bpow radix2 1). rewrite <- bpow_plus. apply bpow_lt. lia.
Qed.

Record inv_s (k : nat) (l : nat -> nat -> NumF64) : Prop := {
  is_c : inv_c n a k l;
  is_f : forall i c, (c < k)%nat -> (c <= i < n)%nat -> finite (l i c);
  is_b : forall i c, (c < k)%nat -> (c <= i < n)%nat -> Rabs (real (a i c) - rsum (S c) (fun t => real (l i t) * real (l c t))) <= dlt }.

Section Column.
Variables (j : nat) (l : nat -> nat -> NumF64).
Hypothesis Hj : (j < n)%nat.
Hypothesis HI : inv_s j l.
Let lr i t := real (l i t).

Lemma l_double i c : (i < n)%nat -> (c < n)%nat -> double (l i c).
Proof. apply (ic_d _ _ _ _ (is_c _ _ HI)). Qed.
Lemma l_zero i c : (i < n)%nat -> (c < n)%nat -> (i < c \/ j <= c)%nat -> l i c = n0.
Proof. apply (ic_z _ _ _ _ (is_c _ _ HI)). Qed.
Lemma l_pos c : (c < j)%nat -> 0 < lr c c.
Proof.
  intros Hc. destruct (ic_p _ _ _ _ (is_c _ _ HI) c Hc) as [[_ P]|N]; [exact P|]. exfalso.
  pose proof (is_f _ _ HI c c Hc ltac:(lia)) as F. rewrite N in F. exact F.
Qed.
Lemma row_sum i : (j <= i < n)%nat -> rsum j (fun t => lr i t * lr i t) + dlt < real (a i i).
Proof.
  intros Hi. apply (key n (fun i j => real (a i j)) dlt dlt_pos Sym PD j i lr Hi).
  - intros c Hc. now apply l_pos.
  - intros p c Hc. unfold lr. rewrite l_zero by lia. reflexivity.
  - intros p c Hc Hcp Hp. apply (is_b _ _ HI); lia.
Qed.
Lemma row_sum_M i : (j <= i < n)%nat -> rsum j (fun t => lr i t * lr i t) <= M.
Proof. intros Hi. pose proof (row_sum i Hi). pose proof dlt_pos. destruct (a_bound i i) as (_ & B); try lia. apply Rabs_le_inv in B. lra. Qed.
Lemma cross_sum i : (j <= i < n)%nat -> rsum j (fun t => Rabs (lr i t * lr j t)) <= M.
Proof.
  intros Hi. pose proof (row_sum_M i Hi). pose proof (row_sum_M j ltac:(lia)).
  apply Rle_trans with (rsum j (fun t => / 2 * (lr i t * lr i t + lr j t * lr j t))).
  - apply rsum_le. intros t Ht. pose proof (Rle_0_sqr (lr i t - lr j t)) as P1. pose proof (Rle_0_sqr (lr i t + lr j t)) as P2. unfold Rsqr in *. apply Rabs_le. split; lra.
  - rewrite rsum_scal, rsum_plus. lra.
Qed.
Lemma sqr_sum : rsum j (fun t => Rabs (lr j t * lr j t)) = rsum j (fun t => lr j t * lr j t).
Proof. apply rsum_ext. intros t Ht. apply Rabs_pos_eq. nra. Qed.

Lemma pivot_good : nleb n0 (c_r a j l) = true /\ 0 < real (c_r a j l) <= M.
Proof.
  assert (Dl : forall t, (t < j)%nat -> double (l j t)) by (intros; apply l_double; lia).
  destruct (sqr_sum_nonneg j (l j) Dl) as (Np & Ds). fold (c_s j l) in Np, Ds.
  assert (Fs : finite (c_s j l)).
  { apply sum_fin; [lia| |apply cross_sum; lia]. intros t Ht. repeat split; try (apply l_double; lia); apply (is_f _ _ HI); lia. }
  destruct (err_dot j (l j) (l j)) as (_ & E); [auto|exact Fs|]. fold (c_s j l) in E.
  assert (E' : Rabs (real (c_s j l) - rsum j (fun t => lr j t * lr j t)) <= dot_bound j (rsum j (fun t => lr j t * lr j t))).
  { rewrite <- sqr_sum at 2. exact E. }
  clear E. rename E' into E.
  pose proof (row_sum j ltac:(lia)) as R1. pose proof (row_sum_M j ltac:(lia)) as R2.
  assert (R0 : 0 <= rsum j (fun t => lr j t * lr j t)) by (rewrite <- sqr_sum; apply terms_pos).
  destruct (dot_small j _ ltac:(lia) (conj R0 R2)) as (B1 & _).
  assert (B2 : dot_bound j (rsum j (fun t => lr j t * lr j t)) <= dlt).
  { apply Rle_trans with (1 := B1). rewrite dlt_eq. pose proof g_small. pose proof M_pos. pose proof eta64_pos.
    assert (0 <= (1 + 2 * M) * g * eta64) by (repeat apply Rmult_le_pos; lra). assert (0 <= (g - 1) * M) by (apply Rmult_le_pos; lra). lra. }
  apply Rabs_le_inv in E. assert (S0 : 0 <= real (c_s j l)).
  { destruct Np as [N|[N|[_ N]]]; [rewrite N in Fs; contradiction|rewrite N in Fs; contradiction|exact N]. }
  destruct (a_bound j j Hj Hj) as (Fj & Bj). apply Rabs_le_inv in Bj.
  assert (X : 0 < real (a j j) - real (c_s j l) <= M) by lra.
  assert (Fr : finite (c_r a j l)).
  { apply sub_finite; [apply Da; auto|exact Ds|exact Fj|exact Fs|]. eapply Rle_lt_trans; [apply (rnd_le_bpow _ e); [lia|]|apply bpow_lt; lia].
    rewrite Rabs_pos_eq by lra. apply X. }
  assert (Dr : double (c_r a j l)) by (apply sub_double; [apply Da; auto|exact Ds]).
  pose proof (sub_back _ _ (Da j j Hj Hj) Ds Fr) as Y. fold (c_r a j l) in Y. pose proof u_small as (U & _).
  assert (P : 0 < real (c_r a j l)).
  { apply Rnot_le_lt. intros N. rewrite (Rabs_left1 (real (c_r a j l))) in Y by exact N. apply Rabs_le_inv in Y. nra. }
  split; [|split; [exact P|]].
  - apply (leb_real n0 (c_r a j l)); [reflexivity|exact Dr|exact Logic.I|exact Fr|]. change (real n0) with 0. lra.
  - unfold c_r in *. rewrite (sub_real _ _ (Da j j Hj Hj) Ds Fr). eapply Rle_trans; [apply Rle_abs|]. apply rnd_le_bpow; [lia|]. rewrite Rabs_pos_eq by lra. apply X.
Qed.
Let v := real (c_d nz a j l).
Lemma diag_good : double (c_d nz a j l) /\ finite (c_d nz a j l) /\ 0 < v /\ v * v <= 5 / 4 * M /\ v <= 1 + 2 * M.
Proof.
  destruct pivot_good as (HP & P1 & P2). destruct (d_facts nz Zs n a Da Fa j l Hj (is_c _ _ HI) HP) as (D & F & B). fold v in F, B.
  destruct F as [(F & P)|N].
  2: { exfalso. assert (V0 : v = 0) by (unfold v; rewrite N; reflexivity). rewrite V0, Rmult_0_l, Rminus_0_r, Rmult_0_r, Rabs_pos_eq in B by lra. lra. }
  pose proof u_small as (U & _). assert (U6 : (1 + u64) ^ 6 <= 17 / 16).
  { apply pow_small. cbn [INR]. lra. }
  apply Rabs_le_inv in B. assert (V2 : v * v <= 5 / 4 * M) by nra.
  split; [exact D|]. split; [exact F|]. split; [exact P|]. split; [exact V2|]. pose proof M_pos. nra.
Qed.
Lemma bound_diag : Rabs (real (a j j) - (rsum j (fun t => lr j t * lr j t) + v * v)) <= dlt.
Proof.
  destruct pivot_good as (HP & P1 & P2). destruct diag_good as (_ & _ & V0 & V2 & V1).
  pose proof (ic_b _ _ _ _ (step_inv nz Zs n a Da Fa j l Hj (is_c _ _ HI) HP) j (Nat.lt_succ_diag_r j)) as X.
  unfold chol_entry, chol_terms in X. cbn [rsum] in X.
  assert (Vj : c_l2 nz a j l j j = c_d nz a j l) by (unfold c_l2, c_v; now rewrite Nat.eqb_refl, Nat.leb_refl).
  assert (Old : forall t, (t < j)%nat -> c_l2 nz a j l j t = l j t) by (intros t Ht; unfold c_l2; destruct (Nat.eqb_spec t j); [lia|reflexivity]).
  rewrite Vj in X. rewrite (rsum_ext j (fun t => real (c_l2 nz a j l j t) * real (c_l2 nz a j l j t)) (fun t => lr j t * lr j t)) in X by (intros t Ht; now rewrite Old).
  rewrite (rsum_ext j (fun t => Rabs (real (c_l2 nz a j l j t) * real (c_l2 nz a j l j t))) (fun t => Rabs (lr j t * lr j t))) in X by (intros t Ht; now rewrite Old). fold v in X.
  apply Rle_trans with (1 := X). apply row_small; [|rewrite Rabs_pos_eq; lra]. rewrite sqr_sum. rewrite Rabs_pos_eq by nra.
  pose proof (row_sum_M j ltac:(lia)). lra.
Qed.
Lemma off_good i : (j < i < n)%nat -> finite (c_v nz a j l i) /\ rsum j (fun t => Rabs (lr i t * lr j t)) + Rabs (real (c_v nz a j l i) * v) <= 4 * M.
Proof.
  intros Hi. destruct pivot_good as (HP & P1 & P2). destruct diag_good as (Dd & Fd & V0 & V2 & V1).
  set (y := fun t => if (t =? j)%nat then c_d nz a j l else l j t).
  assert (Hy : forall t, (t < i)%nat -> double (l i t) /\ finite (l i t) /\ double (y t) /\ finite (y t)).
  { intros t Ht. split; [apply l_double; lia|]. split.
    - destruct (Nat.lt_ge_cases t j); [apply (is_f _ _ HI); lia|rewrite l_zero by lia; exact Logic.I].
    - unfold y. destruct (Nat.eqb_spec t j); [auto|]. split; [apply l_double; lia|].
      destruct (Nat.lt_ge_cases t j); [apply (is_f _ _ HI); lia|rewrite l_zero by lia; exact Logic.I]. }
  assert (Cut : forall f : R -> R, f 0 = 0 -> rsum i (fun t => f (real (l i t) * real (y t))) = rsum j (fun t => f (lr i t * lr j t))).
  { intros f Hf. replace i with (j + (i - j))%nat at 1 by lia. rewrite rsum_cut.
    - apply rsum_ext. intros t Ht. unfold y. destruct (Nat.eqb_spec t j); [lia|reflexivity].
    - intros t Ht. rewrite (l_zero i (j + t)) by lia. change (real Num.n0) with 0. rewrite Rmult_0_l. exact Hf. }
  pose proof (cross_sum i ltac:(lia)) as Cs.
  assert (Fs : finite (c_si nz a j l i)).
  { apply sum_fin; [lia|exact Hy|]. eapply Rle_trans; [|exact Cs]. apply Req_le. exact (Cut Rabs Rabs_R0). }
  assert (Ds : double (c_si nz a j l i)).
  { unfold c_si. fold y. rewrite bigsum_acc. apply acc_double. intros t Ht. apply in_seq in Ht. apply mul_double; apply (Hy t); lia. }
  destruct (err_dot i (l i) y) as (_ & E); [intros t Ht; split; apply (Hy t Ht)|exact Fs|].
  change (bigsum i (fun t => l i t * y t)%num) with (c_si nz a j l i) in E.
  pose proof (Cut (fun x => x) eq_refl) as C1. cbn beta in C1. rewrite C1 in E. clear C1.
  pose proof (Cut Rabs Rabs_R0) as C2. rewrite C2 in E. clear C2.
  set (S0 := rsum j (fun t => lr i t * lr j t)) in *. set (Sa := rsum j (fun t => Rabs (lr i t * lr j t))) in *.
  assert (Sa0 : 0 <= Sa) by apply terms_pos.
  assert (SS : Rabs S0 <= Sa) by apply rsum_abs.
  destruct (dot_small i Sa ltac:(lia) (conj Sa0 Cs)) as (B1 & B2).
  destruct (a_bound i j) as (Fij & Bij); [lia|lia|].
  pose proof M_pos as Mp. pose proof u_small as (U & U1). pose proof eta64_pos as Ep. pose proof g_small as G.
  assert (Xb : Rabs (real (a i j) - real (c_si nz a j l i)) <= 9 / 4 * M).
  { apply Rabs_le_inv in E, SS, Bij. apply Rabs_le. split; lra. }
  assert (Fx : finite (a i j - c_si nz a j l i)%num).
  { apply sub_finite; [apply Da; lia|exact Ds|exact Fij|exact Fs|]. eapply Rle_lt_trans; [apply (rnd_le_bpow _ (e + 2)); [lia|]|apply bpow_lt; lia].
    rewrite bpow_plus. change (bpow radix2 2) with 4. fold M. lra. }
  assert (Dx : double (a i j - c_si nz a j l i)%num) by (apply sub_double; [apply Da; lia|exact Ds]).
  pose proof (sub_back _ _ (Da i j ltac:(lia) Hj) Ds Fx) as Y.
  set (d := (a i j - c_si nz a j l i)%num) in *.
  assert (Db : Rabs (real d) <= 23 / 10 * M).
  { assert (Rabs (real d) <= Rabs (real (a i j) - real (c_si nz a j l i)) + u64 * Rabs (real d)).
    { replace (real d) with ((real (a i j) - real (c_si nz a j l i)) - (real (a i j) - real (c_si nz a j l i) - real d)) at 1 by ring.
      eapply Rle_trans; [apply Rabs_triang|]. rewrite Rabs_Ropp. lra. }
    pose proof (Rabs_pos (real d)). nra. }
  set (w := real d / v).
  assert (Wv : w * v = real d) by (unfold w; field; lra).
  (* the exact quotient is bounded by the margin *)
  assert (W2 : w * w <= M).
  { set (rr := fun p t => if (t <? j)%nat then lr p t else if (p =? j)%nat then v else if (p =? i)%nat then w else 0).
    pose proof (key n (fun i j => real (a i j)) dlt dlt_pos Sym PD (S j) i rr ltac:(lia)) as K. cbn [rsum] in K.
    assert (Rij : rr i j = w).
    { unfold rr. rewrite Nat.ltb_irrefl. destruct (Nat.eqb_spec i j); [lia|]. now rewrite Nat.eqb_refl. }
    assert (Rjj : rr j j = v) by (unfold rr; now rewrite Nat.ltb_irrefl, Nat.eqb_refl).
    assert (Old : forall p t, (t < j)%nat -> rr p t = lr p t) by (intros p t Ht; unfold rr; destruct (Nat.ltb_spec t j); [reflexivity|lia]).
    rewrite Rij in K. rewrite (rsum_ext j (fun t => rr i t * rr i t) (fun t => lr i t * lr i t)) in K by (intros t Ht; now rewrite !Old).
    assert (R0 : 0 <= rsum j (fun t => lr i t * lr i t)) by (apply rsum_pos; intros; nra).
    destruct (a_bound i i) as (_ & Bii); [lia|lia|]. apply Rabs_le_inv in Bii. pose proof dlt_pos.
    apply Rlt_le. eapply Rle_lt_trans; [|eapply Rlt_le_trans; [apply K|apply Bii]]; [lra| | |].
    - intros c Hc. destruct (Nat.eq_dec c j) as [->|]; [rewrite Rjj; exact V0|]. rewrite Old by lia. apply l_pos. lia.
    - intros p c Hc. unfold rr. destruct (Nat.ltb_spec c j); [unfold lr; rewrite l_zero by lia; reflexivity|].
      destruct (Nat.eqb_spec p j); [lia|]. destruct (Nat.eqb_spec p i); [lia|reflexivity].
    - intros p c Hc Hcp Hp. destruct (Nat.eq_dec c j) as [->|Hne].
      + assert (p = j \/ p = i) as [-> | ->] by lia; rewrite ?Rij, ?Rjj.
        * rewrite (rsum_ext j (fun t => rr j t * rr j t) (fun t => lr j t * lr j t)) by (intros t Ht; now rewrite !Old). exact bound_diag.
        * rewrite (rsum_ext j (fun t => rr i t * rr j t) (fun t => lr i t * lr j t)) by (intros t Ht; now rewrite !Old). fold S0. rewrite Wv.
          replace (real (a i j) - (S0 + real d)) with ((real (c_si nz a j l i) - S0) + (real (a i j) - real (c_si nz a j l i) - real d)) by ring.
          eapply Rle_trans; [apply Rabs_triang|]. rewrite dlt_eq.
          assert (u64 * Rabs (real d) <= (g - 1) * (23 / 10 * M)) by (apply Rmult_le_compat; try lra; apply Rabs_pos).
          assert (0 <= (1 + 2 * M) * g * eta64) by (repeat apply Rmult_le_pos; lra). nra.
      + rewrite !Old by lia. rewrite (rsum_ext c (fun t => rr p t * rr c t) (fun t => lr p t * lr c t)) by (intros t Ht; rewrite !Old by lia; reflexivity).
        apply (is_b _ _ HI p c); lia. }
  assert (W1 : Rabs w <= bpow radix2 500).
  { apply Rnot_lt_le. intros X. pose proof (bpow_gt_0 radix2 500).
    assert (bpow radix2 500 * bpow radix2 500 < Rabs w * Rabs w) by (apply Rmult_le_0_lt_compat; lra).
    rewrite <- Rabs_mult, (Rabs_pos_eq (w * w)), <- bpow_plus in H0 by nra. assert (M <= bpow radix2 (500 + 500)) by (apply bpow_le; lia). lra. }
  assert (Fq : finite (d / c_d nz a j l)%num).
  { apply div_finite; [exact Dx|exact Dd|exact Fx|exact Fd|change (v <> 0); lra|]. eapply Rle_lt_trans; [apply (rnd_le_bpow _ 500); [lia|exact W1]|apply bpow_lt; lia]. }
  assert (Ev : c_v nz a j l i = nz (d / c_d nz a j l)%num) by (unfold c_v; destruct (Nat.eqb_spec i j); [lia|reflexivity]).
  rewrite Ev. split; [apply (z_finite nz Zs); exact Fq|]. rewrite (z_real nz Zs).
  pose proof (rnd_back w) as Rb. unfold w, v in Rb. rewrite <- (div_real _ _ Dx Dd Fd Fq) in Rb. fold v w in Rb.
  set (V := real (d / c_d nz a j l)%num) in *.
  assert (VV : Rabs (V * v) <= 5 / 2 * M).
  { assert (X : Rabs (w * v - V * v) <= u64 * Rabs (V * v) + eta64 * v).
    { replace (w * v - V * v) with ((w - V) * v) by ring. rewrite !Rabs_mult, (Rabs_pos_eq v) by lra.
      apply Rle_trans with ((u64 * Rabs V + eta64) * v); [apply Rmult_le_compat_r; lra|apply Req_le; ring]. }
    rewrite Wv in X. assert (Ev' : eta64 * v <= M / 16).
    { pose proof eta_small as Es. assert (bpow radix2 (-75) <= / 1024) by (change (/ 1024) with (bpow radix2 (-10)); apply bpow_le; lia).
      assert (Es' : eta64 <= / 1024 * M) by nra. assert (Es2 : eta64 <= / 1024).
      { rewrite eta64_bpow. change (/ 2) with (bpow radix2 (-1)). rewrite <- bpow_plus. change (/ 1024) with (bpow radix2 (-10)). apply bpow_le. lia. }
      apply Rle_trans with (eta64 * (1 + 2 * M)); [apply Rmult_le_compat_l; lra|]. nra. }
    assert (Rabs (V * v) <= Rabs (real d) + (u64 * Rabs (V * v) + eta64 * v)).
    { replace (V * v) with (real d - (real d - V * v)) at 1 by ring. eapply Rle_trans; [apply Rabs_triang|]. rewrite Rabs_Ropp. lra. }
    pose proof (Rabs_pos (V * v)). nra. }
  lra.
Qed.
Lemma step_safe : inv_s (S j) (c_l2 nz a j l).
Proof.
  destruct pivot_good as (HP & P1 & P2). destruct diag_good as (Dd & Fd & V0 & V2 & V1).
  pose proof (step_inv nz Zs n a Da Fa j l Hj (is_c _ _ HI) HP) as SI.
  assert (Old : forall i t, (t < j)%nat -> c_l2 nz a j l i t = l i t) by (intros i t Ht; unfold c_l2; destruct (Nat.eqb_spec t j); [lia|reflexivity]).
  assert (New : forall i, (j <= i)%nat -> c_l2 nz a j l i j = c_v nz a j l i) by (intros i Hi; unfold c_l2; rewrite Nat.eqb_refl; destruct (Nat.leb_spec j i); [reflexivity|lia]).
  assert (Vj : c_v nz a j l j = c_d nz a j l) by (unfold c_v; now rewrite Nat.eqb_refl).
  assert (Fn : forall i c, (c < S j)%nat -> (c <= i < n)%nat -> finite (c_l2 nz a j l i c)).
  { intros i c Hc Hi. destruct (Nat.eq_dec c j) as [->|]; [|rewrite Old by lia; apply (is_f _ _ HI); lia].
    rewrite New by lia. destruct (Nat.eq_dec i j) as [->|]; [rewrite Vj; exact Fd|apply off_good; lia]. }
  split; [exact SI|exact Fn|].
  intros i c Hc Hi. destruct (Nat.eq_dec c j) as [->|Hne].
  - cbn [rsum]. rewrite !New by lia. rewrite Vj. fold v. rewrite (rsum_ext j (fun t => real (c_l2 nz a j l i t) * real (c_l2 nz a j l j t)) (fun t => lr i t * lr j t)) by (intros t Ht; now rewrite !Old).
    destruct (Nat.eq_dec i j) as [->|Hij]; [rewrite Vj; exact bound_diag|].
    destruct (off_good i ltac:(lia)) as (Fo & Bo). destruct (ic_o _ _ _ _ SI i j ltac:(lia) ltac:(lia) (Fn i j ltac:(lia) ltac:(lia))) as (_ & X).
    unfold chol_entry, chol_terms in X. cbn [rsum] in X. rewrite !New in X by lia. rewrite Vj in X. fold v in X.
    rewrite (rsum_ext j (fun t => real (c_l2 nz a j l i t) * real (c_l2 nz a j l j t)) (fun t => lr i t * lr j t)) in X by (intros t Ht; now rewrite !Old).
    rewrite (rsum_ext j (fun t => Rabs (real (c_l2 nz a j l i t) * real (c_l2 nz a j l j t))) (fun t => Rabs (lr i t * lr j t))) in X by (intros t Ht; now rewrite !Old).
    apply Rle_trans with (1 := X). apply row_small; [exact Bo|rewrite Rabs_pos_eq; lra].
  - rewrite (rsum_ext (S c) (fun t => real (c_l2 nz a j l i t) * real (c_l2 nz a j l c t)) (fun t => real (l i t) * real (l c t))) by (intros t Ht; rewrite !Old by lia; reflexivity).
    apply (is_b _ _ HI); lia.
Qed.
End Column.

Theorem cholesky_safe (m L0 : I) : MatI.holds m n n a -> MatI.holds L0 n n (fun _ _ => n0) ->
  returns (cholesky m L0) (chol_success n dlt a).
Proof.
  intros Hm H0. unfold cholesky.
  rewrite (holds_rows _ _ _ _ Hm), (holds_cols _ _ _ _ Hm), (holds_rows _ _ _ _ H0), (holds_cols _ _ _ _ H0), !Nat.eqb_refl. cbn [negb orb].
  eapply returns_mono; [apply (for_returns (fun j L => exists l, MatI.holds L n n l /\ inv_s j l)); try lia|].
  - eexists. split; [exact H0|]. split; [split|intros; lia|intros; lia]; try (intros; lia); [intros i c _ _; reflexivity|reflexivity].
  - intros j L Hj (l & HLl & Hi). rewrite (sum_ok L n l j j j HLl) by lia. cbn [bind].
    rewrite (holds_at _ _ _ _ _ _ Hm) by lia. cbn [bind].
    fold (c_s j l). fold (c_r a j l). unfold sqrt_allowed. rewrite (proj1 (pivot_good j l ltac:(lia) Hi)). cbn [negb].
    destruct (HS L n n l j j (nsqrt (c_r a j l)) HLl) as (L1 & -> & HL1); [lia|lia|]. cbn [bind].
    destruct (inner_f nz HS n a j l ltac:(lia) m L1 Hm HL1) as (L2 & -> & HL2). 
    eexists. split; [reflexivity|]. exists (c_l2 nz a j l). split; [exact HL2|]. apply step_safe; [lia|exact Hi].
  - intros L (l & HL & Hi). exists l. split; [exact HL|].
    assert (Up : forall i j, (i < j < n)%nat -> l i j = n0) by (intros; apply (ic_z _ _ _ _ (is_c _ _ Hi)); lia).
    split.
    { intros i j Hin Hjn. split; [apply (ic_d _ _ _ _ (is_c _ _ Hi)); auto|]. destruct (Nat.le_gt_cases j i); [apply (is_f _ _ Hi); lia|rewrite Up by lia; exact Logic.I]. }
    split; [exact Up|]. split.
    { intros j Hj. destruct (ic_p _ _ _ _ (is_c _ _ Hi) j Hj) as [[_ P]|N]; [exact P|]. exfalso. pose proof (is_f _ _ Hi j j Hj ltac:(lia)) as F. rewrite N in F. exact F. }
    assert (B : forall i j, (j <= i)%nat -> (i < n)%nat -> Rabs (real (a i j) - rsum n (fun t => real (l i t) * real (l j t))) <= dlt).
    { intros i j Hij Hin. replace n with (S j + (n - S j))%nat at 1 by lia. rewrite rsum_cut; [apply (is_b _ _ Hi); lia|].
      intros t Ht. rewrite (Up j) by lia. change (real Num.n0) with 0. ring. }
    intros i j Hin Hjn. destruct (Nat.le_gt_cases j i); [now apply B|]. rewrite Sym by auto.
    rewrite (rsum_ext n _ (fun t => real (l j t) * real (l i t))) by (intros; ring). apply B; lia.
Qed.
End Safe.

Theorem chol_dense_safe (m L0 : DenseI NumF64) n a e : (Z.of_nat n <= 2 ^ 40)%Z -> (-1000 <= e <= 1000)%Z -> MatI.holds m n n a -> MatI.holds L0 n n (fun _ _ => n0) ->
  doubles2 n n a -> entries_bounded n e a -> (forall i j, (i < n)%nat -> (j < n)%nat -> real (a i j) = real (a j i)) -> safely_pd n (chol_error n e) a ->
  returns (cholesky m L0) (chol_success n (chol_error n e) a).
Proof. intros Hn He Hm H0 Da Ba Sy P. exact (cholesky_safe (fun x => x) dense_sets (fun x => or_introl eq_refl) n a e Hn He Da Ba Sy P m L0 Hm H0). Qed.
Theorem chol_sparse_safe (m L0 : SparseI NumF64) n a e : (Z.of_nat n <= 2 ^ 40)%Z -> (-1000 <= e <= 1000)%Z -> MatI.holds m n n a -> MatI.holds L0 n n (fun _ _ => n0) ->
  doubles2 n n a -> entries_bounded n e a -> (forall i j, (i < n)%nat -> (j < n)%nat -> real (a i j) = real (a j i)) -> safely_pd n (chol_error n e) a ->
  returns (cholesky m L0) (chol_success n (chol_error n e) a).
Proof. intros Hn He Hm H0 Da Ba Sy P. exact (cholesky_safe norm0 sparse_sets norm0_cases n a e Hn He Da Ba Sy P m L0 Hm H0). Qed.

(** ** Diagonal dominance with a margin *)
Lemma dominant_safe n d a : 0 <= d -> (forall i j, (i < n)%nat -> (j < n)%nat -> real (a i j) = real (a j i)) -> dominant_by n d a -> safely_pd n d a.
Proof.
  intros Hd Sym Dom E HE x (i0 & Hi0 & Hx0).
  set (b := fun i j => real (a i j) + E i j).
  assert (Sb : forall i j, (i < n)%nat -> (j < n)%nat -> b i j = b j i) by (intros i j Hi Hj; unfold b; rewrite (Sym i j), (proj1 (HE i j Hi Hj)) by auto; reflexivity).
  set (c := fun i j => if (j =? i)%nat then 0 else Rabs (b i j)).
  assert (Sc : forall i j, (i < n)%nat -> (j < n)%nat -> c i j = c j i) by (intros i j Hi Hj; unfold c; rewrite (Nat.eqb_sym i j), Sb by auto; reflexivity).
  set (p := fun i j => if (j =? i)%nat then b i i * (x i * x i) else 0).
  assert (H1 : rsum n (fun i => rsum n (fun j => p i j - / 2 * (c i j * (x i * x i)) - / 2 * (c i j * (x j * x j)))) <= rsum n (fun i => rsum n (fun j => x i * b i j * x j))).
  { apply rsum_le. intros i Hi. apply rsum_le. intros j Hj. unfold p, c. destruct (Nat.eqb_spec j i) as [->|Hne]; [lra|].
    pose proof (Rabs_pos (b i j)) as P. pose proof (Rle_abs (b i j)) as P1. pose proof (Rle_abs (- b i j)) as P2. rewrite Rabs_Ropp in P2.
    set (y := Rabs (b i j)) in *. pose proof (Rle_0_sqr (x i - x j)) as S1. pose proof (Rle_0_sqr (x i + x j)) as S2. unfold Rsqr in *.
    destruct (Rle_dec 0 (x i * x j)); nra. }
  assert (H2 : rsum n (fun i => rsum n (fun j => p i j - / 2 * (c i j * (x i * x i)) - / 2 * (c i j * (x j * x j)))) =
               rsum n (fun i => (b i i - rsum n (c i)) * (x i * x i))).
  { rewrite (rsum_ext n _ (fun i => (b i i * (x i * x i) - / 2 * (rsum n (c i) * (x i * x i))) + - / 2 * rsum n (fun j => c i j * (x j * x j)))).
    2: { intros i Hi. rewrite (rsum_ext n _ (fun j => p i j + (- / 2 * (c i j * (x i * x i)) + - / 2 * (c i j * (x j * x j))))) by (intros; ring).
         rewrite !rsum_plus, !rsum_scal, rsum_scal_r. rewrite (rsum_pick n 0 i); [|lia|intros q _ Hq; unfold p; destruct (Nat.eqb_spec q i); [lia|reflexivity]].
         cbn [rsum]. unfold p. rewrite Nat.eqb_refl. ring. }
    rewrite rsum_plus, rsum_scal, rsum_exch.
    rewrite (rsum_ext n (fun t => rsum n (fun j => c j t * (x t * x t))) (fun i => rsum n (c i) * (x i * x i))).
    2: { intros i Hi. rewrite rsum_scal_r. f_equal. apply rsum_ext. intros j Hj. apply Sc; auto. }
    rewrite <- rsum_scal, <- rsum_plus. apply rsum_ext. intros i Hi. change (rsum n (fun j => c i j)) with (rsum n (c i)). field. }
  assert (Row : forall i, (i < n)%nat -> 0 < b i i - rsum n (c i)).
  { intros i Hi. specialize (Dom i Hi).
    assert (X : rsum n (c i) <= rsum n (fun j => (if (j =? i)%nat then 0 else Rabs (real (a i j))) + (if (j =? i)%nat then 0 else d))).
    { apply rsum_le. intros j Hj. unfold c. destruct (j =? i)%nat; [lra|]. unfold b. eapply Rle_trans; [apply Rabs_triang|]. pose proof (proj2 (HE i j Hi Hj)). lra. }
    rewrite rsum_plus in X.
    assert (Y : rsum n (fun j => if (j =? i)%nat then 0 else d) + d = INR n * d).
    { assert (D1 : rsum n (fun j => if (j =? i)%nat then d else 0) = d).
      { rewrite (rsum_pick n 0 i); [|lia|intros q _ Hq; destruct (Nat.eqb_spec q i); [lia|reflexivity]]. cbn [rsum]. rewrite Nat.eqb_refl. lra. }
      apply eq_trans with (rsum n (fun j => if (j =? i)%nat then 0 else d) + rsum n (fun j => if (j =? i)%nat then d else 0)); [rewrite D1; reflexivity|].
      rewrite <- rsum_plus. rewrite (rsum_ext n _ (fun _ => d)) by (intros j Hj; destruct (j =? i)%nat; lra).
      clear. induction n as [|m IH]; [cbn; lra|]. cbn [rsum]. rewrite IH, S_INR. ring. }
    pose proof (proj2 (HE i i Hi Hi)) as Z. apply Rabs_le_inv in Z. unfold b. lra. }
  change (0 < rsum n (fun i => rsum n (fun j => x i * b i j * x j))). eapply Rlt_le_trans; [|exact H1]. rewrite H2.
  assert (T : forall i, (i < n)%nat -> 0 <= (b i i - rsum n (c i)) * (x i * x i)).
  { intros i Hi. apply Rmult_le_pos; [apply Rlt_le; auto|nra]. }
  eapply Rlt_le_trans; [|exact (rsum_term n _ T i0 Hi0)]. cbn beta. apply Rmult_lt_0_compat; [auto|]. assert (0 < x i0 \/ x i0 < 0) by (destruct (Rtotal_order (x i0) 0) as [|[|]]; auto; contradiction). nra.
Qed.
Lemma chol_error_pos n e : 0 <= chol_error n e.
Proof.
  unfold chol_error, row_bound. pose proof (pow_ge_1 (n + 7)). pose proof eta64_pos. pose proof (pos_INR (n + 7)).
  assert (0 < powerRZ 2 (e + 2)) by (apply powerRZ_lt; lra). apply Rplus_le_le_0_compat; [apply Rmult_le_pos; lra|].
  pose proof (Rabs_pos (1 + powerRZ 2 (e + 1))). repeat apply Rmult_le_pos; lra.
Qed.
Lemma chol_error_example : chol_error 2 3 <= 3.
Proof.
  unfold chol_error, row_bound. change (2 + 7)%nat with 9%nat. change (3 + 2)%Z with 5%Z. change (3 + 1)%Z with 4%Z.
  change (powerRZ 2 5) with (2 * (2 * (2 * (2 * (2 * 1))))). change (powerRZ 2 4) with (2 * (2 * (2 * (2 * 1)))).
  assert (G : (1 + u64) ^ 9 <= 17 / 16).
  { apply pow_small. rewrite u64_b. assert (bpow radix2 (-53) <= bpow radix2 (-10)) by (apply bpow_le; lia). change (bpow radix2 (-10)) with (/ 1024) in *. cbn [INR]. lra. }
  pose proof (pow_ge_1 9) as P. assert (E : eta64 <= / 1024).
  { rewrite eta64_bpow. change (/ 2) with (bpow radix2 (-1)). rewrite <- bpow_plus. change (/ 1024) with (bpow radix2 (-10)). apply bpow_le. lia. }
  pose proof eta64_pos. rewrite Rabs_pos_eq by lra. cbn [INR]. set (w := (1 + u64) ^ 9) in *. clearbody w. nra.
Qed.
