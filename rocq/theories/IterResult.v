(** Fixed points, stopping certificate, contraction and energy decrease of the stationary iterations. *)
From Coq Require Import List Arith Bool Lia Ring Field.
From Verif Require Import Base BaseProofs Num OrdField Spec SpecProofs VectorModel VectorSpec VectorProofs MatI MatIProofs MatOps
  DetSpec DetProofs DetMult LUModel LUProofs LUSolve CholProofs CGMath IterModel CGProofs CGResult IterProofs.
Import ListNotations.
Local Open Scope nat_scope.
Open Scope res_scope.

Section Facts.
Context {N : Num} (HO : OrdFieldLaws N).
Let HF : FieldLaws N := of_field N HO.
Add Field ifld : (fl_field N HF).
Notation le x y := (nleb x y = true).
Implicit Types (a : nat -> nat -> N) (b x y z e : nat -> N).
Open Scope num_scope.

Lemma oabs_add (u v : N) : le (nabs (u + v)) (nabs u + nabs v).
Proof.
  destruct (of_le_total N HO n0 (u + v)) as [H|H].
  - rewrite (of_abs_pos N HO) by auto. apply (ole_add HO); apply (oabs_le HO).
  - rewrite (of_abs_neg N HO) by auto. replace (- (u + v)) with (- u + - v) by ring.
    rewrite <- (oabs_opp HO u), <- (oabs_opp HO v). apply (ole_add HO); apply (oabs_le HO).
Qed.
Lemma bigsum_le n (f g : nat -> N) : (forall i, (i < n)%nat -> le (f i) (g i)) -> le (bigsum n f) (bigsum n g).
Proof. induction n as [|n IH]; intros H; cbn [bigsum]; [apply (ole_refl HO)|]. apply (ole_add HO); auto. Qed.
Lemma bigsum_abs n (f : nat -> N) : le (nabs (bigsum n f)) (bigsum n (fun i => nabs (f i))).
Proof.
  induction n as [|n IH]; cbn [bigsum].
  - rewrite (proj2 (oabs_0_iff HO n0) eq_refl). apply (ole_refl HO).
  - eapply (ole_trans HO); [apply oabs_add|]. apply (ole_add HO); auto. apply (ole_refl HO).
Qed.
Lemma oabs_0 : nabs (@n0 N) = n0.
Proof. now apply (oabs_0_iff HO). Qed.

Lemma offsum_split n i (f : nat -> N) : (i < n)%nat -> bigsum n f = f i + offsum n i f.
Proof.
  intros Hi. unfold offsum. transitivity (bigsum n (fun j => (if (j =? i)%nat then f j else n0) + (if (j =? i)%nat then n0 else f j))).
  - apply bigsum_ext. intros j Hj. bcase; ring.
  - rewrite (bigsum_plus HF), (bigsum_single HF n i (fun j => if (j =? i)%nat then f j else n0)); auto.
    + now rewrite Nat.eqb_refl.
    + intros j Hj Hne. bcase; auto; congruence.
Qed.
Lemma offsum_ext n i (f g : nat -> N) : (forall j, (j < n)%nat -> j <> i -> f j = g j) -> offsum n i f = offsum n i g.
Proof. intros H. apply bigsum_ext. intros j Hj. bcase; auto. Qed.
Lemma offsum_minus n i (f g : nat -> N) : offsum n i (fun j => f j - g j) = offsum n i f - offsum n i g.
Proof. unfold offsum. rewrite <- (bigsum_minus HF). apply bigsum_ext. intros j Hj. bcase; ring. Qed.

(** The diagonal is free of zeros. *)
Definition nz_diag n a : Prop := forall i, (i < n)%nat -> a i i <> n0.

(** jacobi and Gauss-Seidel sweeps: y = D^-1 (b - (A-D) z) where z is the old vector, possibly partly replaced by y. *)
Lemma jac_residual n a b x i : nz_diag n a -> (i < n)%nat -> b i - mulvec n a x i = a i i * (jac_next n a b x i - x i).
Proof.
  intros Hd Hi. unfold mulvec, jac_next. rewrite (offsum_split n i) by auto. field. auto.
Qed.
Lemma jac_fixed n a b x i : nz_diag n a -> (i < n)%nat -> (jac_next n a b x i = x i <-> mulvec n a x i = b i).
Proof.
  intros Hd Hi. pose proof (jac_residual n a b x i Hd Hi) as E. split; intros H.
  - rewrite H in E. replace (mulvec n a x i) with (b i - (b i - mulvec n a x i)) by ring. rewrite E. ring.
  - rewrite H in E. assert (E2 : a i i * (jac_next n a b x i - x i) = n0) by (rewrite <- E; ring).
    apply (mul_0 HO) in E2 as [E2|E2]; [now apply Hd in E2|].
    replace (jac_next n a b x i) with (jac_next n a b x i - x i + x i) by ring. rewrite E2. ring.
Qed.
Lemma sor_unique n a b w old x y y' : sor_eq n a b w old x y -> sor_eq n a b w old x y' -> forall i, (i < n)%nat -> y i = y' i.
Proof.
  intros H H' i. induction i as [i IH] using lt_wf_ind. intros Hi. rewrite H, H' by auto.
  rewrite (offsum_ext n i (fun j => a i j * (if (j <? i)%nat then y j else x j)) (fun j => a i j * (if (j <? i)%nat then y' j else x j))); auto.
  intros j Hj Hne. bcase; auto. now rewrite IH.
Qed.
(** A solution is a fixed point of a sweep that mixes with the previous iterate, for every weight. *)
Lemma sor_fixed n a b w x : nz_diag n a -> (forall i, (i < n)%nat -> mulvec n a x i = b i) -> sor_eq n a b w x x x.
Proof.
  intros Hd H i Hi. rewrite (offsum_ext n i _ (fun j => a i j * x j)) by (intros j _ _; now destruct (j <? i)%nat).
  rewrite <- H by auto. unfold mulvec. rewrite (offsum_split n i) by auto. field. auto.
Qed.
Lemma sor_fixed_conv n a b w x : nz_diag n a -> w <> n0 -> sor_eq n a b w x x x -> forall i, (i < n)%nat -> mulvec n a x i = b i.
Proof.
  intros Hd Hw H i Hi. specialize (H i Hi).
  rewrite (offsum_ext n i _ (fun j => a i j * x j)) in H by (intros j _ _; now destruct (j <? i)%nat).
  unfold mulvec. rewrite (offsum_split n i) by auto. set (s := offsum n i (fun j => a i j * x j)) in *.
  pose proof (Hd i Hi). transitivity (b i - a i i / w * (((n1 - w) * x i + w * ((b i - s) / a i i)) - x i)); [|rewrite <- H; ring].
  field. auto.
Qed.
Lemma gs_old n a b old old' x y : sor_eq n a b n1 old x y -> sor_eq n a b n1 old' x y.
Proof. intros H i Hi. etransitivity; [exact (H i Hi)|]. ring. Qed.

(** Strict diagonal dominance with factor q. *)
Definition dominant n a (q : N) : Prop := forall i, (i < n)%nat -> le (offsum n i (fun j => nabs (a i j))) (q * nabs (a i i)).
Lemma off_bound n a i (q d : N) (f g : nat -> N) : nz_diag n a -> dominant n a q -> (i < n)%nat -> le n0 d ->
  (forall j, (j < n)%nat -> j <> i -> le (nabs (f j - g j)) d) ->
  le (nabs (offsum n i (fun j => a i j * f j) - offsum n i (fun j => a i j * g j))) (q * nabs (a i i) * d).
Proof.
  intros Hd Hq Hi Hp H. rewrite <- offsum_minus. unfold offsum.
  eapply (ole_trans HO); [apply bigsum_abs|]. apply (ole_trans HO _ (bigsum n (fun j => d * (if (j =? i)%nat then n0 else nabs (a i j))))).
  - apply bigsum_le. intros j Hj. bcase.
    + rewrite oabs_0. replace (d * n0) with (@n0 N) by ring. apply (ole_refl HO).
    + replace (a i j * f j - a i j * g j) with (a i j * (f j - g j)) by ring. rewrite (oabs_mul HO).
      replace (d * nabs (a i j)) with (nabs (a i j) * d) by ring. apply (ole_mul_l HO); [apply (oabs_nonneg HO)|auto].
  - rewrite (bigsum_mul_l HF). replace (q * nabs (a i i) * d) with (d * (q * nabs (a i i))) by ring.
    apply (ole_mul_l HO); auto. exact (Hq i Hi).
Qed.
Lemma div_bound (u d q : N) (v : N) : v <> n0 -> le (nabs u) (q * nabs v * d) -> le (nabs (u / v)) (q * d).
Proof.
  intros Hv H. assert (Ha : nabs v <> n0) by (rewrite (oabs_0_iff HO); auto).
  replace (u / v) with ((n1 / v) * u) by (field; auto). rewrite (oabs_mul HO), (oabs_inv HO) by auto.
  replace (q * d) with ((n1 / nabs v) * (q * nabs v * d)) by (field; auto). apply (ole_mul_l HO); auto.
  apply (olt_le HO), (olt_0_inv HO), (olt_iff_ne HO). split; [apply (oabs_nonneg HO)|auto].
Qed.
Lemma jac_contract n a b x s (q d : N) : nz_diag n a -> dominant n a q -> le n0 d -> (forall i, (i < n)%nat -> mulvec n a s i = b i) ->
  (forall i, (i < n)%nat -> le (nabs (x i - s i)) d) -> forall i, (i < n)%nat -> le (nabs (jac_next n a b x i - s i)) (q * d).
Proof.
  intros Hd Hq Hp Hs H i Hi. rewrite <- (proj2 (jac_fixed n a b s i Hd Hi) (Hs i Hi)) at 1. unfold jac_next.
  replace ((b i - offsum n i (fun j => a i j * x j)) / a i i - (b i - offsum n i (fun j => a i j * s j)) / a i i)
    with ((offsum n i (fun j => a i j * s j) - offsum n i (fun j => a i j * x j)) / a i i) by (field; auto).
  apply div_bound; auto. apply off_bound; auto. intros j Hj Hne.
  rewrite <- (oabs_opp HO). replace (- (s j - x j)) with (x j - s j) by ring. auto.
Qed.
Lemma gs_contract n a b old x y s (q d : N) : nz_diag n a -> dominant n a q -> le q n1 -> le n0 d ->
  (forall i, (i < n)%nat -> mulvec n a s i = b i) ->
  (forall i, (i < n)%nat -> le (nabs (x i - s i)) d) -> sor_eq n a b n1 old x y -> forall i, (i < n)%nat -> le (nabs (y i - s i)) (q * d).
Proof.
  intros Hd Hq Hq1 Hp Hs H Hy i. induction i as [i IH] using lt_wf_ind. intros Hi.
  rewrite (Hy i Hi). pose proof (proj2 (jac_fixed n a b s i Hd Hi) (Hs i Hi)) as Es. rewrite <- Es at 1. unfold jac_next.
  set (h := fun j => if (j <? i)%nat then y j else x j).
  change (fun j => a i j * (if (j <? i)%nat then y j else x j)) with (fun j => a i j * h j).
  replace ((n1 - n1) * old i + n1 * ((b i - offsum n i (fun j => a i j * h j)) / a i i) - (b i - offsum n i (fun j => a i j * s j)) / a i i)
    with ((offsum n i (fun j => a i j * s j) - offsum n i (fun j => a i j * h j)) / a i i) by (field; auto).
  apply div_bound; auto. apply off_bound; auto. intros j Hj Hne.
  rewrite <- (oabs_opp HO). replace (- (s j - h j)) with (h j - s j) by ring. unfold h. bcase.
  - eapply (ole_trans HO); [apply IH; auto|]. replace d with (d * n1) at 2 by ring. replace (q * d) with (d * q) by ring.
    now apply (ole_mul_l HO).
  - auto.
Qed.

(** The energy (x - s)^T A (x - s) does not grow in a relaxation sweep with 0 <= w <= 2. *)
Definition energy n a s x : N := form n a (fun i => x i - s i).
Lemma form_bump n a x i d : (i < n)%nat -> symmetric2 n a ->
  form n a (fun j => x j + (if (j =? i)%nat then d else n0)) = form n a x + (n1 + n1) * d * mulvec n a x i + d * d * a i i.
Proof.
  intros Hi Ha. unfold form.
  rewrite (bigsum_ext n _ (fun k => (bigsum n (fun j => x k * a k j * x j) + d * (x k * a k i)) + (if (k =? i)%nat then d * mulvec n a x i + d * d * a i i else n0))).
  - rewrite !(bigsum_plus HF), (bigsum_mul_l HF).
    rewrite (bigsum_single HF n i (fun k => if (k =? i)%nat then d * mulvec n a x i + d * d * a i i else n0)); auto.
    + rewrite Nat.eqb_refl. replace (bigsum n (fun k => x k * a k i)) with (mulvec n a x i); [ring|].
      apply bigsum_ext. intros k Hk. rewrite (Ha k i) by auto. ring.
    + intros k Hk Hne. bcase; auto; congruence.
  - intros k Hk.
    rewrite (bigsum_ext n _ (fun j => (x k + (if (k =? i)%nat then d else n0)) * (a k j * x j) + (if (j =? i)%nat then (x k + (if (k =? i)%nat then d else n0)) * a k i * d else n0))).
    2:{ intros j Hj. destruct (Nat.eqb_spec j i) as [->|]; ring. }
    rewrite (bigsum_plus HF), (bigsum_mul_l HF).
    rewrite (bigsum_single HF n i (fun j => if (j =? i)%nat then _ else n0)); auto.
    + rewrite Nat.eqb_refl. rewrite (bigsum_ext n (fun j => x k * a k j * x j) (fun j => x k * (a k j * x j))) by (intros; ring).
      rewrite (bigsum_mul_l HF). destruct (Nat.eqb_spec k i) as [->|].
      * unfold mulvec. ring.
      * ring.
    + intros j Hj Hne. bcase; auto; congruence.
Qed.
Lemma form_ext n a x y : (forall i, (i < n)%nat -> x i = y i) -> form n a x = form n a y.
Proof. intros H. apply bigsum_ext. intros i Hi. apply bigsum_ext. intros j Hj. now rewrite !H. Qed.
Lemma sor_energy n a b w s x y : symmetric2 n a -> (forall i, (i < n)%nat -> nltb n0 (a i i) = true) ->
  (forall i, (i < n)%nat -> mulvec n a s i = b i) -> le n0 w -> le w (n1 + n1) -> sor_eq n a b w x x y ->
  le (energy n a s y) (energy n a s x).
Proof.
  intros Ha Hd Hs Hw0 Hw2 Hy.
  assert (Hnz : nz_diag n a) by (intros i Hi; apply not_eq_sym, (olt_ne HO); auto).
  set (z := fun k j => if (j <? k)%nat then y j else x j).
  assert (H : forall k, (k <= n)%nat -> le (energy n a s (z k)) (energy n a s x)).
  { induction k as [|k IH]; intros Hk; [apply (ole_refl HO)|]. eapply (ole_trans HO); [|apply IH; lia].
    set (r := b k - mulvec n a (z k) k). set (d := w * (r / a k k)).
    assert (Ez : forall j, (j < n)%nat -> z (S k) j - s j = (z k j - s j) + (if (j =? k)%nat then d else n0)).
    { intros j Hj. unfold z. bcase; try ring. subst j.
      assert (E : y k = x k + d); [|rewrite E; ring]. rewrite (Hy k) by lia. unfold d, r, mulvec.
      rewrite (offsum_split n k (fun j => a k j * z k j)) by lia. unfold z at 1. rewrite Nat.ltb_irrefl.
      rewrite (offsum_ext n k (fun j => a k j * (if (j <? k)%nat then y j else x j)) (fun j => a k j * z k j)) by reflexivity.
      field. apply Hnz. lia. }
    unfold energy. rewrite (form_ext n a _ _ Ez), form_bump by (auto; lia).
    assert (Em : mulvec n a (fun i => z k i - s i) k = - r).
    { unfold r. rewrite <- (Hs k) by lia. unfold mulvec.
      rewrite (bigsum_ext n _ (fun j => a k j * z k j - a k j * s j)) by (intros; ring). rewrite (bigsum_minus HF). ring. }
    rewrite Em. apply (ole_sub HO). pose proof (Hnz k ltac:(lia)) as Hk0.
    match goal with |- le n0 ?e => replace e with (w * ((n1 + n1) - w) * (r * r * (n1 / a k k))) by (unfold d; field; auto) end.
    apply (ole_0_mul HO).
    - apply (ole_0_mul HO); auto. now apply (ole_sub HO) in Hw2.
    - apply (ole_0_mul HO); [apply (ole_0_sqr HO)|]. apply (olt_le HO), (olt_0_inv HO). apply Hd. lia. }
  specialize (H n (le_n n)). unfold energy in *. rewrite (form_ext n a (fun i => y i - s i) (fun i => z n i - s i)); auto.
  intros i Hi. unfold z. bcase. reflexivity.
Qed.

Fixpoint qpow (q : N) (k : nat) : N := match k with O => n1 | S k' => q * qpow q k' end.
Lemma qpow_nonneg q k : le n0 q -> le n0 (qpow q k).
Proof. intros H. induction k; cbn; [apply (olt_le HO), (olt_0_1 HO)|now apply (ole_0_mul HO)]. Qed.
End Facts.

Section Final.
Context {N : Num} (HO : OrdFieldLaws N) {M : RowMat N} (HR : RowLaws M).
Let HF : FieldLaws N := of_field N HO.
Add Field finfld : (fl_field N HF).
Variables (A : M) (n : nat) (a : nat -> nat -> N) (b x0 : list N).
Hypotheses (HA : holds A n n a) (Hb : length b = n) (Hx : length x0 = n).

Lemma dist2_0 (x y : nat -> N) : (forall i, i < n -> y i = x i) -> dist2 n x y = n0.
Proof. intros H. apply (bigsum_0 HF). intros i Hi. rewrite H by auto. ring. Qed.
(** If X 1 = X 0 = x0 the run ends after one step with x0. *)
Lemma ends_at_once (X : nat -> nat -> N) maxIter eps it : 0 < maxIter -> (forall i, i < n -> X 0 i = nth i x0 n0) ->
  (forall i, i < n -> X 1 i = X 0 i) -> run_ends n X maxIter (eps * eps)%num it -> it = 1 /\ V n (X it) = x0.
Proof.
  intros Hm H0 H1 (E1 & E2 & E3 & E4). assert (it = 1).
  { specialize (E4 Hm). destruct (Nat.eq_dec it 1); auto. exfalso.
    assert (E := E2 0 Hm ltac:(lia)). rewrite dist2_0 in E by auto. rewrite (ole_0_sqr HO) in E. discriminate. }
  subst it. split; auto. rewrite (V_self x0 n n0 Hx). apply V_ext. intros i Hi. rewrite H1, H0 by auto. reflexivity.
Qed.
Theorem jacobi_fixed maxIter eps : 0 < maxIter -> nz_diag n a -> solves n a x0 b -> it_jacobi A b x0 maxIter eps = Ok (x0, 1).
Proof.
  intros Hm Hd Hs. destruct (jacobi_run HO HR A n a b x0 HA Hb Hx maxIter eps) as (X & it & E & H0 & H1 & He).
  destruct (ends_at_once X maxIter eps it Hm H0) as (-> & Ex); auto.
  - intros i Hi. rewrite H1 by auto. apply (jac_fixed HO); auto.
    rewrite (mulvec_ext n a (X 0) (fun j => nth j x0 n0)) by auto. now apply Hs.
  - now rewrite Ex in E.
Qed.
Theorem gs_fixed maxIter eps : 0 < maxIter -> nz_diag n a -> solves n a x0 b -> it_sor A b x0 n1 maxIter eps = Ok (x0, 1).
Proof.
  intros Hm Hd Hs. destruct (sor_run HO HR A n a b x0 HA Hb Hx n1 maxIter eps) as (X & it & E & H0 & H1 & _ & He).
  destruct (ends_at_once X maxIter eps it Hm H0) as (-> & Ex); auto.
  - apply (sor_unique n a (fun i => nth i b n0) n1 (fun _ => n0) (X 0)); auto. apply (gs_old HO _ _ _ (X 0)).
    apply (sor_fixed HO); auto. intros i Hi. rewrite (mulvec_ext n a (X 0) (fun j => nth j x0 n0)) by auto. now apply Hs.
  - now rewrite Ex in E.
Qed.
Theorem jacobi_cert maxIter eps : nz_diag n a -> exists y it, it_jacobi A b x0 maxIter eps = Ok (y, it) /\ length y = n /\ it <= maxIter /\
  (it < maxIter -> exists x : list N, length x = n /\
     nleb (dist2 n (fun i => nth i x n0) (fun i => nth i y n0)) (eps * eps)%num = true /\
     forall i, i < n -> (nth i b n0 - mulvec n a (fun j => nth j x n0) i = a i i * (nth i y n0 - nth i x n0))%num).
Proof.
  intros Hd. destruct (jacobi_run HO HR A n a b x0 HA Hb Hx maxIter eps) as (X & it & E & H0 & H1 & He).
  exists (V n (X it)), it. split; auto. split; [apply V_len|]. destruct He as (E1 & E2 & E3 & E4). split; auto.
  intros Hi. destruct (E3 Hi) as (k & -> & Ek). exists (V n (X k)). split; [apply V_len|]. split.
  - rewrite <- Ek. f_equal. apply bigsum_ext. intros i Hi'. now rewrite !V_nth.
  - intros i Hi'. rewrite !V_nth by auto. rewrite (mulvec_ext n a _ (X k)) by (intros; now rewrite V_nth).
    rewrite H1 by auto. apply (jac_residual HO n a (fun i => nth i b n0)); auto.
Qed.
Theorem jacobi_contraction q s d maxIter eps : nz_diag n a -> dominant n a q -> nleb n0 q = true -> solves n a s b ->
  (forall i, i < n -> nleb (nabs (nth i x0 n0 - nth i s n0)%num) d = true) ->
  exists y it, it_jacobi A b x0 maxIter eps = Ok (y, it) /\ it <= maxIter /\
    forall i, i < n -> nleb (nabs (nth i y n0 - nth i s n0)%num) (qpow q it * d)%num = true.
Proof.
  intros Hd Hq Hq0 Hs H. destruct (jacobi_run HO HR A n a b x0 HA Hb Hx maxIter eps) as (X & it & E & H0 & H1 & He).
  exists (V n (X it)), it. split; auto. split; [apply He|]. destruct (Nat.eq_dec n 0) as [Hn|Hn]; [lia|].
  assert (Hp : nleb n0 d = true) by (eapply (ole_trans HO); [apply (oabs_nonneg HO)|apply (H 0); lia]).
  assert (Hk : forall k i, i < n -> nleb (nabs (X k i - nth i s n0)%num) (qpow q k * d)%num = true).
  { induction k as [|k IH]; intros i Hi; cbn [qpow].
    - rewrite H0 by auto. replace (n1 * d)%num with d by ring. auto.
    - rewrite H1 by auto. replace (q * qpow q k * d)%num with (q * (qpow q k * d))%num by ring.
      apply (jac_contract HO n a (fun i => nth i b n0) (X k) (fun j => nth j s n0)); auto.
      apply (ole_0_mul HO); auto. now apply (qpow_nonneg HO). }
  intros i Hi. rewrite V_nth by auto. auto.
Qed.
Theorem gs_contraction q s d maxIter eps : nz_diag n a -> dominant n a q -> nleb n0 q = true -> nleb q n1 = true -> solves n a s b ->
  (forall i, i < n -> nleb (nabs (nth i x0 n0 - nth i s n0)%num) d = true) ->
  exists y it, it_sor A b x0 n1 maxIter eps = Ok (y, it) /\ it <= maxIter /\
    forall i, i < n -> nleb (nabs (nth i y n0 - nth i s n0)%num) (qpow q it * d)%num = true.
Proof.
  intros Hd Hq Hq0 Hq1 Hs H. destruct (sor_run HO HR A n a b x0 HA Hb Hx n1 maxIter eps) as (X & it & E & H0 & H1 & H2 & He).
  exists (V n (X it)), it. split; auto. split; [apply He|]. destruct (Nat.eq_dec n 0) as [Hn|Hn]; [lia|].
  assert (Hp : nleb n0 d = true) by (eapply (ole_trans HO); [apply (oabs_nonneg HO)|apply (H 0); lia]).
  assert (Hk : forall k i, i < n -> nleb (nabs (X k i - nth i s n0)%num) (qpow q k * d)%num = true).
  { induction k as [|k IH]; intros i Hi; cbn [qpow].
    - rewrite H0 by auto. replace (n1 * d)%num with d by ring. auto.
    - replace (q * qpow q k * d)%num with (q * (qpow q k * d))%num by ring.
      assert (Ho : exists old, sor_eq n a (fun i => nth i b n0) n1 old (X k) (X (S k))).
      { destruct k; [exists (fun _ => n0); auto|exists (X (S k)); apply H2; lia]. }
      destruct Ho as (old & Ho).
      apply (gs_contract HO n a (fun i => nth i b n0) old (X k) (X (S k)) (fun j => nth j s n0)); auto.
      apply (ole_0_mul HO); auto. now apply (qpow_nonneg HO). }
  intros i Hi. rewrite V_nth by auto. auto.
Qed.
(** sor from x0 = 0 *)
Theorem sor_zero_start w maxIter eps : (forall i, i < n -> nth i x0 n0 = n0) -> exists (X : nat -> nat -> N) it,
  it_sor A b x0 w maxIter eps = Ok (V n (X it), it) /\ (forall i, i < n -> X 0 i = n0) /\
  (forall k, sor_eq n a (fun i => nth i b n0) w (X k) (X k) (X (S k))) /\ run_ends n X maxIter (eps * eps)%num it.
Proof.
  intros Hz. destruct (sor_run HO HR A n a b x0 HA Hb Hx w maxIter eps) as (X & it & E & H0 & H1 & H2 & He).
  exists X, it. split; auto. split; [intros; rewrite H0 by auto; auto|]. split; auto.
  intros [|k]; [|apply H2; lia]. intros i Hi. rewrite (H1 i Hi) at 1. rewrite (H0 i Hi), (Hz i Hi). reflexivity.
Qed.
Theorem sor_energy_run w s maxIter eps : symmetric2 n a -> (forall i, i < n -> nltb n0 (a i i) = true) -> solves n a s b ->
  nleb n0 w = true -> nleb w (n1 + n1)%num = true -> (forall i, i < n -> nth i x0 n0 = n0) ->
  exists y it, it_sor A b x0 w maxIter eps = Ok (y, it) /\ it <= maxIter /\
    nleb (energy n a (fun i => nth i s n0) (fun i => nth i y n0)) (energy n a (fun i => nth i s n0) (fun i => nth i x0 n0)) = true.
Proof.
  intros Ha Hd Hs Hw0 Hw2 Hz. destruct (sor_zero_start w maxIter eps Hz) as (X & it & E & H0 & H2 & He).
  exists (V n (X it)), it. split; auto. split; [apply He|].
  assert (Hk : forall k, nleb (energy n a (fun i => nth i s n0) (X k)) (energy n a (fun i => nth i s n0) (fun i => nth i x0 n0)) = true).
  { induction k as [|k IH].
    - unfold energy. rewrite (form_ext n a _ (fun i => nth i x0 n0 - nth i s n0)%num); [apply (ole_refl HO)|].
      intros i Hi. now rewrite H0, Hz.
    - eapply (ole_trans HO); [|exact IH]. apply (sor_energy HO n a (fun i => nth i b n0) w); auto. }
  unfold energy in *. rewrite (form_ext n a _ (fun i => X it i - nth i s n0)%num); auto. intros i Hi. now rewrite V_nth.
Qed.
End Final.

(** Shape checks and absence of aborts, for any number type (also IEEE double). *)
Section Safe.
Context {N : Num} {M : RowMat N}.
Definition rows_in (A : M) (n : nat) : Prop := forall i, i < n -> exists row, rm_row A i = Ok row /\ Forall (fun e => fst e < n) row.
Lemma it_bad (A : M) (b x0 : list N) w maxIter eps :
  (mi_rows A <> mi_cols A -> it_jacobi A b x0 maxIter eps = Throw NotSquare /\ it_sor A b x0 w maxIter eps = Throw NotSquare) /\
  (mi_rows A = mi_cols A -> mi_rows A <> length b \/ mi_rows A <> length x0 ->
     it_jacobi A b x0 maxIter eps = Throw MatrixVectorMismatch /\ it_sor A b x0 w maxIter eps = Throw MatrixVectorMismatch).
Proof.
  unfold it_jacobi, it_sor, v_size. split.
  - intros H. rewrite (proj2 (Nat.eqb_neq _ _) H). auto.
  - intros H H2. rewrite (proj2 (Nat.eqb_eq _ _) H). cbn [negb].
    replace (negb (mi_rows A =? length b) || negb (mi_rows A =? length x0)) with true; auto.
    symmetry. apply orb_true_iff. rewrite !negb_true_iff, !Nat.eqb_neq. exact H2.
Qed.
Lemma len_post (r : res (list N)) n : returns r (fun y => length y = n) -> exists y, r = Ok y /\ length y = n.
Proof. auto. Qed.
Lemma sweeps_safe sweep n maxIter (eps2 : N) : (forall x xm, length x = n -> length xm = n -> returns (sweep x xm) (fun y => length y = n)) ->
  forall fuel it x xm, it + fuel = maxIter -> length x = n -> length xm = n ->
  post (sweeps sweep fuel it maxIter eps2 x xm) (fun r => length (fst r) = n /\ snd r <= maxIter) (fun e => e = MatrixHasZeroInDiag).
Proof.
  intros Hs. induction fuel as [|f IH]; intros it x xm Hf Hx Hm; cbn [sweeps].
  - cbn. auto.
  - destruct (Hs x xm Hx Hm) as (y & -> & Hy). cbn [bind]. unfold conv_test, v_sub, v_sub_eq.
    rewrite inplace_ok by lia. cbn [bind]. unfold v_magSqr. rewrite dot_ok by auto. cbn [bind].
    destruct (nisnan _); [reflexivity|]. cbn [bind]. destruct (nisinf _ || nleb _ _).
    + cbn. split; auto. lia.
    + apply IH; auto. lia.
Qed.
Lemma jac_sweep_safe (A : M) n b x xm : mi_rows A = n -> rows_in A n -> length b = n -> length x = n -> length xm = n ->
  returns (jac_sweep A b x xm) (fun y => length y = n).
Proof.
  intros HA Hr Hb Hx Hm. unfold jac_sweep. rewrite HA.
  apply (for_returns (fun _ y => length y = n)); auto; try lia.
  intros i u Hi Hu. destruct (Hr i ltac:(lia)) as (row & -> & Hrow). cbn [bind].
  assert (Hj : exists mt, jac_row i x row = Ok mt).
  { unfold jac_row. generalize (@n0 N, @n0 N) as st. induction Hrow as [|e row He _ IH]; intros st; [eexists; reflexivity|].
    cbn [foreach]. destruct (negb (fst e =? i)); [rewrite v_at_ok by lia|]; cbn [bind]; apply IH. }
  destruct Hj as (mt & ->). cbn [bind]. rewrite v_at_ok by lia. cbn [bind]. rewrite v_set_ok by lia.
  eexists. split; [reflexivity|]. now rewrite upd_length.
Qed.
Lemma sor_sweep_safe (A : M) n b w x xm : mi_rows A = n -> rows_in A n -> length b = n -> length x = n -> length xm = n ->
  returns (sor_sweep A b w x xm) (fun y => length y = n).
Proof.
  intros HA Hr Hb Hx Hm. unfold sor_sweep. rewrite HA.
  apply (for_returns (fun _ y => length y = n)); auto; try lia.
  intros i u Hi Hu. destruct (Hr i ltac:(lia)) as (row & -> & Hrow). cbn [bind].
  assert (Hj : exists mt, sor_row i x u row = Ok mt).
  { unfold sor_row. generalize (@n0 N, @n0 N) as st. induction Hrow as [|e row He _ IH]; intros st; [eexists; reflexivity|].
    cbn [foreach]. destruct (fst e <? i); [rewrite v_at_ok by lia; cbn [bind]; apply IH|].
    destruct (i <? fst e); [rewrite v_at_ok by lia|]; cbn [bind]; apply IH. }
  destruct Hj as (mt & ->). cbn [bind]. rewrite v_at_ok by lia. cbn [bind]. rewrite v_at_ok by lia. cbn [bind].
  rewrite v_set_ok by lia. eexists. split; [reflexivity|]. now rewrite upd_length.
Qed.
Theorem jacobi_safe (A : M) n b x0 maxIter eps : mi_rows A = n -> mi_cols A = n -> rows_in A n -> length b = n -> length x0 = n ->
  post (it_jacobi A b x0 maxIter eps) (fun r => length (fst r) = n /\ snd r <= maxIter) (fun e => e = MatrixHasZeroInDiag).
Proof.
  intros HA HC Hr Hb Hx. unfold it_jacobi, v_size. rewrite HA, HC, Hb, Hx, Nat.eqb_refl. cbn [negb orb].
  rewrite fill_ok. cbn [bind]. eapply (sweeps_safe (jac_sweep A b)); auto.
  - intros. now apply jac_sweep_safe.
  - now rewrite repeat_length.
Qed.
Theorem sor_safe (A : M) n b x0 w maxIter eps : mi_rows A = n -> mi_cols A = n -> rows_in A n -> length b = n -> length x0 = n ->
  post (it_sor A b x0 w maxIter eps) (fun r => length (fst r) = n /\ snd r <= maxIter) (fun e => e = MatrixHasZeroInDiag).
Proof.
  intros HA HC Hr Hb Hx. unfold it_sor, v_size. rewrite HA, HC, Hb, Hx, Nat.eqb_refl. cbn [negb orb].
  rewrite fill_ok. cbn [bind]. eapply (sweeps_safe (sor_sweep A b w)); auto.
  - intros. now apply sor_sweep_safe.
  - now rewrite repeat_length.
Qed.
End Safe.
