(** The relaxation method converges for every symmetric positive definite matrix and every weight strictly between 0 and 2
    (Ostrowski, Reich): a sweep multiplies the energy of the error by at most a constant q < 1. *)
From Coq Require Import List Arith Bool Lia Ring Field.
From Verif Require Import Base BaseProofs Num OrdField UtilsSpec Spec SpecProofs VectorModel VectorSpec VectorProofs MatI MatIProofs MatOps
  DetSpec DetProofs DetMult LUModel LUProofs LUSolve CholProofs CGMath IterModel CGProofs CGResult IterProofs IterResult LinAlg.
Import ListNotations.
Local Open Scope nat_scope.
Open Scope res_scope.

Section Sor.
Context {N : Num} (HO : OrdFieldLaws N).
Let HF : FieldLaws N := of_field N HO.
Add Field scfld : (fl_field N HF).
Notation le x y := (nleb x y = true).
Notation lt x y := (nltb x y = true).
Implicit Types (a : nat -> nat -> N) (b x y z e : nat -> N).
Open Scope num_scope.

Lemma pd_injective n a : pos_def n a -> forall x, (forall i, (i < n)%nat -> mulvec n a x i = n0) -> forall j, (j < n)%nat -> x j = n0.
Proof.
  intros Hp x Hx j Hj. destruct (neq_dec HO (x j) n0) as [E|Nz]; [exact E|exfalso].
  pose proof (Hp x (ex_intro _ j (conj Hj Nz))) as P. rewrite (bigsum_ext n _ (fun _ => n0)) in P.
  - rewrite (bigsum_0 HF) in P by auto. exact (olt_irrefl HO _ P).
  - intros i Hi. cbv beta. rewrite (bigsum_ext n _ (fun t => x i * (a i t * x t))) by (intros; ring). rewrite (bigsum_mul_l HF).
    fold (mulvec n a x i). rewrite Hx by auto. ring.
Qed.
Lemma pd_inverse n a : pos_def n a -> exists g : nat -> nat -> N, forall i j, (i < n)%nat -> (j < n)%nat -> mulvec n a (g j) i = (if (i =? j)%nat then n1 else n0).
Proof.
  intros Hp. assert (H : forall m, exists g : nat -> nat -> N, forall i j, (i < n)%nat -> (j < m)%nat -> mulvec n a (g j) i = (if (i =? j)%nat then n1 else n0)).
  { induction m as [|m (g & Hg)]; [exists (fun _ _ => n0); lia|].
    destruct (injective_solvable HF n a (pd_injective n a Hp) (fun i => if (i =? m)%nat then n1 else n0)) as (v & Hv).
    exists (fun j => if (j =? m)%nat then v else g j). intros i j Hi Hj. destruct (Nat.eqb_spec j m) as [->|]; [now rewrite Hv|apply Hg; lia]. }
  exact (H n).
Qed.
Lemma mulvec_minus n a x y i : mulvec n a (fun j => x j - y j) i = mulvec n a x i - mulvec n a y i.
Proof. unfold mulvec. rewrite <- (bigsum_minus HF). apply bigsum_ext. intros. ring. Qed.
Lemma mulvec_lin n a (g : nat -> nat -> N) r i m : mulvec n a (fun t => bigsum m (fun j => g j t * r j)) i = bigsum m (fun j => mulvec n a (g j) i * r j).
Proof.
  unfold mulvec. rewrite (bigsum_ext n _ (fun t => bigsum m (fun j => a i t * (g j t * r j)))) by (intros; now rewrite (bigsum_mul_l HF)).
  rewrite (bigsum_swap HF). apply bigsum_ext. intros j Hj. rewrite <- (bigsum_mul_r HF). apply bigsum_ext. intros. ring.
Qed.
Lemma form_dot n a x : form n a x = bigsum n (fun i => x i * mulvec n a x i).
Proof. unfold form, mulvec. apply bigsum_ext. intros i Hi. rewrite <- (bigsum_mul_l HF). apply bigsum_ext. intros. ring. Qed.
Lemma classic_zero n (z : nat -> N) : (forall i, (i < n)%nat -> z i = n0) \/ exists i, (i < n)%nat /\ z i <> n0.
Proof.
  induction n as [|n [H|(i & Hi & H)]]; [left; lia| |right; exists i; split; auto].
  destruct (neq_dec HO (z n) n0) as [E|E]; [left|right; exists n; split; auto].
  intros i Hi. destruct (Nat.eq_dec i n) as [->|]; auto. apply H. lia.
Qed.

(** Products of components are bounded by the sum of the squares. *)
Lemma two_neq_0 : (n1 + n1 : N) <> n0.
Proof. apply not_eq_sym, (olt_ne HO), (olt_0_add HO); [apply (olt_0_1 HO)|apply (olt_le HO), (olt_0_1 HO)]. Qed.
Lemma two_pos : lt (n0 : N) (n1 + n1).
Proof. apply (olt_0_add HO); [apply (olt_0_1 HO)|apply (olt_le HO), (olt_0_1 HO)]. Qed.
Lemma term_le_sum n (f : nat -> N) k : (k < n)%nat -> (forall i, (i < n)%nat -> le n0 (f i)) -> le (f k) (bigsum n f).
Proof.
  intros Hk H. rewrite (offsum_split HO n k f) by auto. apply (ole_sub HO). replace (f k + offsum n k f - f k) with (offsum n k f) by ring.
  apply (bigsum_nonneg HO). intros i Hi. bcase; auto. apply (ole_refl HO).
Qed.
Lemma prod_bound n (t : nat -> N) p q : (p < n)%nat -> (q < n)%nat -> le (nabs (t p * t q)) (bigsum n (fun k => t k * t k)).
Proof.
  intros Hp Hq. set (s := bigsum n (fun k => t k * t k)).
  assert (H : forall k, (k < n)%nat -> le (t k * t k) s) by (intros k Hk; apply (term_le_sum n (fun k => t k * t k) k Hk); intros; apply (ole_0_sqr HO)).
  assert (G : le (nabs (t p) * nabs (t q) + nabs (t p) * nabs (t q)) (s + s)).
  { apply (ole_trans HO _ (t p * t p + t q * t q)); [|apply (ole_add HO); auto].
    apply (ole_sub HO). replace (t p * t p) with (nabs (t p) * nabs (t p)).
    2:{ rewrite <- (oabs_mul HO), (of_abs_pos N HO); auto. apply (ole_0_sqr HO). }
    replace (t q * t q) with (nabs (t q) * nabs (t q)).
    2:{ rewrite <- (oabs_mul HO), (of_abs_pos N HO); auto. apply (ole_0_sqr HO). }
    match goal with |- le n0 ?e => replace e with ((nabs (t p) - nabs (t q)) * (nabs (t p) - nabs (t q))) by ring end. apply (ole_0_sqr HO). }
  rewrite (oabs_mul HO). set (u := nabs (t p) * nabs (t q)) in *.
  replace u with ((n1 / (n1 + n1)) * (u + u)) by (field; apply two_neq_0).
  replace s with ((n1 / (n1 + n1)) * (s + s)) by (field; apply two_neq_0).
  apply (ole_mul_l HO); auto. apply (olt_le HO), (olt_0_inv HO), two_pos.
Qed.
Definition rowabs n (l : nat -> nat -> N) i : N := bigsum n (fun p => nabs (l i p)).
Lemma bigsum_sq n (f g : nat -> N) : bigsum n f * bigsum n g = bigsum n (fun p => bigsum n (fun q => f p * g q)).
Proof. rewrite <- (bigsum_mul_r HF). apply bigsum_ext. intros. now rewrite <- (bigsum_mul_l HF). Qed.
Lemma lin_prod_bound n (l : nat -> nat -> N) (t : nat -> N) i j :
  le (nabs (bigsum n (fun p => l i p * t p) * bigsum n (fun p => l j p * t p))) (rowabs n l i * rowabs n l j * bigsum n (fun k => t k * t k)).
Proof.
  rewrite bigsum_sq. unfold rowabs. rewrite bigsum_sq. rewrite <- (bigsum_mul_r HF).
  eapply (ole_trans HO); [apply (bigsum_abs HO)|]. apply (bigsum_le HO). intros p Hp. rewrite <- (bigsum_mul_r HF).
  eapply (ole_trans HO); [apply (bigsum_abs HO)|]. apply (bigsum_le HO). intros q Hq.
  replace (l i p * t p * (l j q * t q)) with (l i p * l j q * (t p * t q)) by ring. rewrite !(oabs_mul HO (_ * _)), (oabs_mul HO (l i p)).
  apply (ole_mul_l HO); [apply (ole_0_mul HO); apply (oabs_nonneg HO)|now apply prod_bound].
Qed.
Lemma rowabs_nonneg n l i : le n0 (rowabs n l i).
Proof. apply (bigsum_nonneg HO). intros. apply (oabs_nonneg HO). Qed.

(** One sweep: how much the energy drops, and the residual in terms of the update. *)
Definition drop_of n a x y : N := bigsum n (fun k => a k k * ((y k - x k) * (y k - x k))).
Definition mid x y (k : nat) : nat -> N := fun j => if (j <? k)%nat then y j else x j.
Lemma mid_step n a b w x y k : (k < n)%nat -> a k k <> n0 -> sor_eq n a b w x x y ->
  y k - x k = w * ((b k - mulvec n a (mid x y k) k) / a k k).
Proof.
  intros Hk Hn Hy. rewrite (Hy k) by lia. unfold mulvec. rewrite (offsum_split HO n k (fun j => a k j * mid x y k j)) by lia.
  unfold mid at 1. rewrite Nat.ltb_irrefl.
  rewrite (offsum_ext n k (fun j => a k j * (if (j <? k)%nat then y j else x j)) (fun j => a k j * mid x y k j)) by reflexivity.
  field. auto.
Qed.
Lemma sweep_drop n a b w s x y : symmetric2 n a -> (forall i, (i < n)%nat -> a i i <> n0) ->
  (forall i, (i < n)%nat -> mulvec n a s i = b i) -> w <> n0 -> sor_eq n a b w x x y ->
  energy n a s x - energy n a s y = ((n1 + n1) / w - n1) * drop_of n a x y.
Proof.
  intros Ha Hd Hs Hw Hy.
  assert (H : forall k, (k <= n)%nat -> energy n a s x - energy n a s (mid x y k) = ((n1 + n1) / w - n1) * bigsum k (fun k => a k k * ((y k - x k) * (y k - x k)))).
  { induction k as [|k IH]; intros Hk.
    - cbn [bigsum]. replace (energy n a s (mid x y 0)) with (energy n a s x) by (apply form_ext; intros; reflexivity). ring.
    - cbn [bigsum]. specialize (IH ltac:(lia)).
      replace (energy n a s x - energy n a s (mid x y (S k))) with ((energy n a s x - energy n a s (mid x y k)) + (energy n a s (mid x y k) - energy n a s (mid x y (S k)))) by ring.
      rewrite IH. clear IH. set (d := y k - x k).
      assert (Ez : forall j, (j < n)%nat -> mid x y (S k) j - s j = (mid x y k j - s j) + (if (j =? k)%nat then d else n0)).
      { intros j Hj. unfold mid, d. bcase; try (subst; ring). }
      unfold energy at 2. rewrite (form_ext n a _ _ Ez), (form_bump HO) by (auto; lia). unfold energy.
      rewrite mulvec_minus, (Hs k) by lia. pose proof (mid_step n a b w x y k ltac:(lia) (Hd k ltac:(lia)) Hy) as E. fold d in E.
      assert (Er : mulvec n a (mid x y k) k - b k = - (a k k * d / w)) by (rewrite E; field; auto).
      rewrite Er. field. auto. }
  specialize (H n (le_n n)). unfold drop_of. rewrite <- H. f_equal. unfold energy. apply form_ext. intros i Hi. unfold mid. bcase. reflexivity.
Qed.
Definition lowmat a w i p : N := if (p <? i)%nat then a i p else if (p =? i)%nat then a i i / w else n0.
Lemma sweep_residual n a b w x y i : (forall i, (i < n)%nat -> a i i <> n0) -> w <> n0 -> sor_eq n a b w x x y -> (i < n)%nat ->
  b i - mulvec n a x i = bigsum n (fun p => lowmat a w i p * (y p - x p)).
Proof.
  intros Hd Hw Hy Hi. pose proof (mid_step n a b w x y i Hi (Hd i Hi) Hy) as E.
  assert (E1 : b i - mulvec n a (mid x y i) i = a i i * (y i - x i) / w) by (rewrite E; field; auto).
  assert (E2 : mulvec n a (mid x y i) i - mulvec n a x i = bigsum n (fun p => if (p <? i)%nat then a i p * (y p - x p) else n0)).
  { rewrite <- mulvec_minus. unfold mulvec. apply bigsum_ext. intros p Hp. unfold mid. bcase; ring. }
  replace (b i - mulvec n a x i) with (b i - mulvec n a (mid x y i) i + (mulvec n a (mid x y i) i - mulvec n a x i)) by ring.
  assert (E3 : a i i * (y i - x i) / w = bigsum n (fun p => if (p =? i)%nat then a i i * (y i - x i) / w else n0)).
  { rewrite (bigsum_single HF n i (fun p => if (p =? i)%nat then a i i * (y i - x i) / w else n0)); auto; [now rewrite Nat.eqb_refl|].
    intros p Hp Hne. now bcase. }
  rewrite E1, E2, E3.
  rewrite <- (bigsum_plus HF). apply bigsum_ext. intros p Hp. unfold lowmat. bcase; try lia; try ring. subst. field. auto.
Qed.
(** The energy before the sweep is bounded by the size of the update. *)
Definition energy_const n a (g : nat -> nat -> N) w : N :=
  bigsum n (fun i => bigsum n (fun j => nabs (g j i) * (rowabs n (lowmat a w) i * rowabs n (lowmat a w) j))).
Lemma energy_update n a g b w s x y : (forall i j, (i < n)%nat -> (j < n)%nat -> mulvec n a (g j) i = (if (i =? j)%nat then n1 else n0)) -> pos_def n a ->
  (forall i, (i < n)%nat -> mulvec n a s i = b i) -> w <> n0 -> sor_eq n a b w x x y ->
  le (energy n a s x) (energy_const n a g w * dist2 n x y).
Proof.
  intros Hg Hp Hs Hw Hy. assert (Hd : forall i, (i < n)%nat -> a i i <> n0) by (intros i Hi; apply not_eq_sym, (olt_ne HO), (pos_def_diag HO n a i); auto).
  set (r := fun i => b i - mulvec n a x i). set (v := fun t => bigsum n (fun j => g j t * r j)).
  assert (Ev : forall t, (t < n)%nat -> s t - x t = v t).
  { intros t Ht. assert (H := pd_injective n a Hp (fun t => (s t - x t) - v t)).
    enough (s t - x t - v t = n0) as E by (replace (s t - x t) with (s t - x t - v t + v t) by ring; rewrite E; ring).
    apply H; auto. intros i Hi. rewrite (mulvec_minus n a (fun t => s t - x t) v), mulvec_minus, Hs by auto.
    unfold v. rewrite mulvec_lin. rewrite (bigsum_single HF n i) by (auto; intros j Hj Hne; rewrite Hg by auto; bcase; try congruence; ring).
    rewrite Hg by auto. rewrite Nat.eqb_refl. unfold r. ring. }
  assert (Ee : energy n a s x = bigsum n (fun i => bigsum n (fun j => g j i * (r i * r j)))).
  { unfold energy. rewrite (form_ext n a _ (fun t => n0 - v t)) by (intros t Ht; rewrite <- Ev by auto; ring).
    rewrite form_dot. apply bigsum_ext. intros i Hi.
    assert (Em : mulvec n a (fun t => n0 - v t) i = - r i).
    { unfold mulvec. rewrite (bigsum_ext n _ (fun j => a i j * x j - a i j * s j)) by (intros j Hj; rewrite <- Ev by auto; ring).
      rewrite (bigsum_minus HF). fold (mulvec n a x i) (mulvec n a s i). rewrite Hs by auto. unfold r. ring. }
    rewrite Em. unfold v. replace ((n0 - bigsum n (fun j => g j i * r j)) * - r i) with (bigsum n (fun j => g j i * r j) * r i) by ring.
    rewrite <- (bigsum_mul_r HF). apply bigsum_ext. intros. ring. }
  rewrite Ee. eapply (ole_trans HO); [apply (oabs_le HO)|]. eapply (ole_trans HO); [apply (bigsum_abs HO)|].
  unfold energy_const. rewrite <- (bigsum_mul_r HF). apply (bigsum_le HO). intros i Hi. eapply (ole_trans HO); [apply (bigsum_abs HO)|].
  rewrite <- (bigsum_mul_r HF). apply (bigsum_le HO). intros j Hj. rewrite (oabs_mul HO).
  replace (nabs (g j i) * (rowabs n (lowmat a w) i * rowabs n (lowmat a w) j) * dist2 n x y)
    with (nabs (g j i) * (rowabs n (lowmat a w) i * rowabs n (lowmat a w) j * dist2 n x y)) by ring.
  apply (ole_mul_l HO); [apply (oabs_nonneg HO)|]. unfold r. rewrite !(sweep_residual n a b w x y) by auto.
  exact (lin_prod_bound n (lowmat a w) (fun p => y p - x p) i j).
Qed.
Lemma energy_const_nonneg n a g w : le n0 (energy_const n a g w).
Proof.
  unfold energy_const. apply (bigsum_nonneg HO). intros. apply (bigsum_nonneg HO). intros. apply (ole_0_mul HO); [apply (oabs_nonneg HO)|].
  apply (ole_0_mul HO); apply rowabs_nonneg.
Qed.
Definition diag_const n a : N := bigsum n (fun k => n1 / a k k).
Lemma dist_drop n a x y : (forall i, (i < n)%nat -> lt n0 (a i i)) -> le (dist2 n x y) (diag_const n a * drop_of n a x y).
Proof.
  intros Hd. unfold dist2, drop_of. rewrite <- (bigsum_mul_l HF). apply (bigsum_le HO). intros k Hk.
  set (t := (y k - x k) * (y k - x k)). assert (Hn : a k k <> n0) by (apply not_eq_sym, (olt_ne HO); auto).
  replace t with ((n1 / a k k) * (a k k * t)) at 1 by (field; auto).
  assert (P : le n0 (a k k * t)) by (apply (ole_0_mul HO); [apply (olt_le HO); auto|apply (ole_0_sqr HO)]).
  replace (n1 / a k k * (a k k * t)) with (a k k * t * (n1 / a k k)) by ring. replace (diag_const n a * (a k k * t)) with (a k k * t * diag_const n a) by ring.
  apply (ole_mul_l HO); auto. apply (term_le_sum n (fun k => n1 / a k k) k Hk). intros i Hi. apply (olt_le HO), (olt_0_inv HO). auto.
Qed.
Lemma diag_const_nonneg n a : (forall i, (i < n)%nat -> lt n0 (a i i)) -> le n0 (diag_const n a).
Proof. intros H. apply (bigsum_nonneg HO). intros i Hi. apply (olt_le HO), (olt_0_inv HO); auto. Qed.

Lemma sqr_contract (K e e' : N) : le n0 K -> le n0 e' -> le e (K * (e - e')) -> le e' e -> le e' (K / (K + n1) * e).
Proof.
  intros HK He H Hle. assert (P : lt n0 (K + n1)) by (replace (K + n1) with (n1 + K) by ring; apply (olt_0_add HO); [apply (olt_0_1 HO)|auto]).
  assert (Nz : K + n1 <> n0) by (apply not_eq_sym, (olt_ne HO); auto).
  replace e' with ((n1 / (K + n1)) * ((K + n1) * e')) by (field; auto). replace (K / (K + n1) * e) with ((n1 / (K + n1)) * (K * e)) by (field; auto).
  apply (ole_mul_l HO); [apply (olt_le HO), (olt_0_inv HO); auto|].
  apply (ole_sub HO) in H. apply (ole_sub HO) in Hle. apply (ole_sub HO).
  match goal with |- le n0 ?g => replace g with ((K * (e - e') - e) + (e - e')) by ring end.
  now apply (ole_0_add HO).
Qed.
(** The constants: factor q, tolerance constant C and step constant D, which only depend on the matrix and the weight. *)
Theorem sor_constants n a w : symmetric2 n a -> pos_def n a -> lt n0 w -> lt w (n1 + n1) ->
  exists q C D : N, le n0 q /\ lt q n1 /\ le n0 C /\ le n0 D /\ forall b s x y, (forall i, (i < n)%nat -> mulvec n a s i = b i) -> sor_eq n a b w x x y ->
    le (energy n a s y) (q * energy n a s x) /\ le (energy n a s y) (C * dist2 n x y) /\ le (dist2 n x y) (D * energy n a s x).
Proof.
  intros Ha Hp Hw0 Hw2. destruct (pd_inverse n a Hp) as (g & Hg).
  assert (Hpos : forall i, (i < n)%nat -> lt n0 (a i i)) by (intros i Hi; now apply (pos_def_diag HO n a i)).
  assert (Hd : forall i, (i < n)%nat -> a i i <> n0) by (intros i Hi; apply not_eq_sym, (olt_ne HO); auto).
  assert (Hw : w <> n0) by (apply not_eq_sym, (olt_ne HO); auto).
  set (c := (n1 + n1) / w - n1).
  assert (Hc : lt n0 c).
  { replace c with ((n1 / w) * ((n1 + n1) - w)) by (unfold c; field; auto). apply (olt_0_mul HO); [now apply (olt_0_inv HO)|]. now apply (olt_sub HO) in Hw2. }
  assert (Hcn : c <> n0) by (apply not_eq_sym, (olt_ne HO); auto).
  set (C := energy_const n a g w). set (D := diag_const n a * (n1 / c)). set (K := C * D).
  assert (HC : le n0 C) by apply energy_const_nonneg.
  assert (HD : le n0 D) by (apply (ole_0_mul HO); [now apply diag_const_nonneg|apply (olt_le HO), (olt_0_inv HO); auto]).
  assert (HK : le n0 K) by now apply (ole_0_mul HO).
  assert (P : lt n0 (K + n1)) by (replace (K + n1) with (n1 + K) by ring; apply (olt_0_add HO); [apply (olt_0_1 HO)|auto]).
  assert (Nz : K + n1 <> n0) by (apply not_eq_sym, (olt_ne HO); auto).
  exists (K / (K + n1)), C, D.
  split; [|split; [|split; [auto|split; [auto|]]]].
  - replace (K / (K + n1)) with (K * (n1 / (K + n1))) by (field; auto). apply (ole_0_mul HO); auto. apply (olt_le HO), (olt_0_inv HO); auto.
  - apply (olt_sub HO). replace (n1 - K / (K + n1)) with (n1 / (K + n1)) by (field; auto). now apply (olt_0_inv HO).
  - intros b s x y Hs Hy. pose proof (sweep_drop n a b w s x y Ha Hd Hs Hw Hy) as E. fold c in E.
    pose proof (energy_update n a g b w s x y Hg Hp Hs Hw Hy) as U. fold C in U.
    pose proof (dist_drop n a x y Hpos) as W.
    assert (Hdr : le n0 (drop_of n a x y)).
    { apply (bigsum_nonneg HO). intros k Hk. apply (ole_0_mul HO); [apply (olt_le HO); auto|apply (ole_0_sqr HO)]. }
    assert (Hle : le (energy n a s y) (energy n a s x)) by (apply (ole_sub HO); rewrite E; apply (ole_0_mul HO); auto; apply (olt_le HO); auto).
    assert (Hen : forall z, le n0 (energy n a s z)).
    { intros z. unfold energy. destruct (classic_zero n (fun i => z i - s i)) as [H|H].
      - unfold form. rewrite (bigsum_ext n _ (fun _ => n0)).
        + rewrite (bigsum_0 HF) by auto. apply (ole_refl HO).
        + intros i Hi. rewrite (bigsum_ext n _ (fun _ => n0)) by (intros j Hj; rewrite H by auto; ring). now rewrite (bigsum_0 HF).
      - apply (olt_le HO). now apply Hp. }
    assert (Ws : le (dist2 n x y) (D * (energy n a s x - energy n a s y))).
    { rewrite E. unfold D. replace (diag_const n a * (n1 / c) * (c * drop_of n a x y)) with (diag_const n a * drop_of n a x y) by (field; auto). exact W. }
    split; [|split].
    + apply sqr_contract; auto. eapply (ole_trans HO); [exact U|]. unfold K. replace (C * D * (energy n a s x - energy n a s y)) with (C * (D * (energy n a s x - energy n a s y))) by ring.
      now apply (ole_mul_l HO).
    + eapply (ole_trans HO); [exact Hle|exact U].
    + eapply (ole_trans HO); [exact Ws|]. apply (ole_mul_l HO); auto. apply (ole_sub HO).
      replace (energy n a s x - (energy n a s x - energy n a s y)) with (energy n a s y) by ring. apply Hen.
Qed.
End Sor.

(** Every element is below some natural number. *)
Definition archimedean (N : Num) : Prop := forall x : N, exists k, nleb x (nofnat k) = true.

Section Powers.
Context {N : Num} (HO : OrdFieldLaws N) (HN : NatLaws N).
Let HF : FieldLaws N := of_field N HO.
Add Field powfld : (fl_field N HF).
Notation le x y := (nleb x y = true).
Notation lt x y := (nltb x y = true).
Open Scope num_scope.
Lemma nofnat_nonneg k : le (n0 : N) (nofnat k).
Proof. induction k as [|k IH]; [rewrite (nl_0 N HN); apply (ole_refl HO)|]. rewrite (nl_S N HN). apply (ole_0_add HO); auto. apply (olt_le HO), (olt_0_1 HO). Qed.
Lemma qpow_bernoulli (q : N) k : le n0 q -> le q n1 -> le (qpow q k * (n1 + nofnat k * (n1 - q))) n1.
Proof.
  intros H0 H1. induction k as [|k IH]; cbn [qpow].
  - rewrite (nl_0 N HN). replace (n1 * (n1 + n0 * (n1 - q))) with (n1 : N) by ring. apply (ole_refl HO).
  - eapply (ole_trans HO); [|exact IH]. rewrite (nl_S N HN). apply (ole_sub HO).
    match goal with |- le n0 ?e => replace e with (qpow q k * ((nofnat k + n1) * ((n1 - q) * (n1 - q)))) by ring end.
    apply (ole_0_mul HO); [now apply (qpow_nonneg HO)|]. apply (ole_0_mul HO); [|apply (ole_0_sqr HO)].
    apply (ole_0_add HO); [apply nofnat_nonneg|apply (olt_le HO), (olt_0_1 HO)].
Qed.
Lemma qpow_small (q e : N) : archimedean N -> le n0 q -> lt q n1 -> lt n0 e -> exists k, le (qpow q k) e.
Proof.
  intros HA H0 H1 He. set (d := n1 - q). assert (Hd : lt n0 d) by now apply (olt_sub HO) in H1.
  assert (Hdn : d <> n0) by (apply not_eq_sym, (olt_ne HO); auto). assert (Hen : e <> n0) by (apply not_eq_sym, (olt_ne HO); auto).
  destruct (HA (n1 / (d * e))) as (k & Hk). exists k.
  set (p := n1 + nofnat k * d). assert (Hp : le (n1 / e) p).
  { unfold p. replace (n1 / e) with (n0 + d * (n1 / (d * e))) by (field; auto). apply (ole_add HO); [apply (olt_le HO), (olt_0_1 HO)|].
    replace (nofnat k * d) with (d * nofnat k) by ring. apply (ole_mul_l HO); auto. apply (olt_le HO); auto. }
  pose proof (qpow_bernoulli q k H0 (olt_le HO _ _ H1)) as B. fold d in B. fold p in B.
  replace (qpow q k) with (e * (qpow q k * (n1 / e))) by (field; auto). replace e with (e * n1) at 3 by ring.
  apply (ole_mul_l HO); [apply (olt_le HO); auto|]. eapply (ole_trans HO); [|exact B]. apply (ole_mul_l HO); auto. now apply (qpow_nonneg HO).
Qed.
Lemma qpow_mono (q : N) j k : le n0 q -> le q n1 -> (j <= k)%nat -> le (qpow q k) (qpow q j).
Proof.
  intros H0 H1 H. induction H as [|k H IH]; [apply (ole_refl HO)|]. eapply (ole_trans HO); [|exact IH]. cbn [qpow].
  replace (qpow q k) with (qpow q k * n1) at 2 by ring. replace (q * qpow q k) with (qpow q k * q) by ring. apply (ole_mul_l HO); auto. now apply (qpow_nonneg HO).
Qed.
End Powers.

Section Run.
Context {N : Num} (HO : OrdFieldLaws N).
Let HF : FieldLaws N := of_field N HO.
Add Field srfld : (fl_field N HF).
Notation le x y := (nleb x y = true).
Notation lt x y := (nltb x y = true).
Notation vec l := (fun i => nth i l n0).

Lemma sor_eq_ext n a (b : nat -> N) w old old' x x' y : (forall i, i < n -> old i = old' i) -> (forall i, i < n -> x i = x' i) ->
  sor_eq n a b w old x y -> sor_eq n a b w old' x' y.
Proof.
  intros Ho Hx H i Hi. etransitivity; [exact (H i Hi)|]. rewrite (Ho i Hi). do 4 f_equal.
  apply offsum_ext. intros j Hj Hne. destruct (j <? i); auto. now rewrite Hx.
Qed.
Lemma energy_ext n a (s x y : nat -> N) : (forall i, i < n -> x i = y i) -> energy n a s x = energy n a s y.
Proof. intros H. apply form_ext. intros i Hi. now rewrite H. Qed.

Theorem sor_converges n a (w : N) : symmetric2 n a -> pos_def n a -> lt n0 w -> lt w (n1 + n1)%num ->
  exists q C D : N, le n0 q /\ lt q n1 /\ le n0 C /\ le n0 D /\
  forall b x0 s, length b = n -> length x0 = n -> solves n a s b -> exists x1, length x1 = n /\
    ((forall i, i < n -> nth i x0 n0 = n0) -> le (energy n a (vec s) (vec x1)) (q * energy n a (vec s) (vec x0))%num) /\
  forall (M : RowMat N) (HR : RowLaws M) (A : M) maxIter eps, holds A n n a ->
    it_sor A b x0 w 1 eps = Ok (x1, 1) /\
    (0 < maxIter -> exists y it, it_sor A b x0 w maxIter eps = Ok (y, it) /\ 1 <= it <= maxIter /\ length y = n /\
     le (energy n a (vec s) (vec y)) (qpow q (it - 1) * energy n a (vec s) (vec x1))%num /\
     (it < maxIter -> 1 < it \/ (forall i, i < n -> nth i x0 n0 = n0) -> le (energy n a (vec s) (vec y)) (C * (eps * eps))%num) /\
     (forall k, 1 < k -> k < it -> le (eps * eps)%num (D * (qpow q (k - 2) * energy n a (vec s) (vec x1)))%num)).
Proof.
  intros Ha Hp H0 H2. destruct (sor_constants HO n a w Ha Hp H0 H2) as (q & C & D & Hq0 & Hq1 & HC & HD & HS).
  exists q, C, D. do 4 (split; [auto|]). intros b x0 s Hb Hx Hs.
  destruct (sor_exists n a (vec b) w (fun _ => n0) (vec x0)) as (y1 & Hy1).
  assert (Hzero : (forall i, i < n -> nth i x0 n0 = n0) -> sor_eq n a (vec b) w (vec x0) (vec x0) y1).
  { intros Hz. eapply sor_eq_ext; [| |exact Hy1]; auto. intros i Hi. now rewrite Hz. }
  exists (V n y1). split; [apply V_len|]. split.
  { intros Hz. rewrite (energy_ext n a (vec s) (vec (V n y1)) y1) by (intros i Hi; now rewrite V_nth). apply (HS (vec b)); auto. }
  intros M HR A maxIter eps HA.
  assert (Hfirst : forall X : nat -> nat -> N, (forall i, i < n -> X 0 i = nth i x0 n0) -> sor_eq n a (vec b) w (fun _ => n0) (X 0) (X 1) -> forall i, i < n -> X 1 i = y1 i).
  { intros X E0 E1 i Hi. apply (sor_unique n a (vec b) w (fun _ => n0) (vec x0)); auto. eapply sor_eq_ext; [| |exact E1]; auto. }
  split.
  - destruct (sor_run HO HR A n a b x0 HA Hb Hx w 1 eps) as (X & it & E & E0 & E1 & _ & He1 & _ & _ & He4).
    assert (it = 1) by lia. subst it. rewrite E. do 2 f_equal. unfold V. apply map_ext_in. intros i Hi. apply in_seq in Hi. apply (Hfirst X); auto. lia.
  - intros Hm. destruct (sor_run HO HR A n a b x0 HA Hb Hx w maxIter eps) as (X & it & E & E0 & E1 & E2 & He1 & He2 & He3 & He4).
    exists (V n (X it)), it. split; [auto|]. split; [lia|]. split; [apply V_len|].
    assert (Ex : forall z, energy n a (vec s) (vec (V n z)) = energy n a (vec s) z) by (intros z; apply energy_ext; intros i Hi; now rewrite V_nth).
    rewrite !Ex.
    assert (Hk : forall k, le (energy n a (vec s) (X (S k))) (qpow q k * energy n a (vec s) y1)%num).
    { induction k as [|k IH].
      - cbn [qpow]. rewrite (energy_ext n a (vec s) (X 1) y1) by (now apply Hfirst). replace (n1 * energy n a (vec s) y1)%num with (energy n a (vec s) y1) by ring. apply (ole_refl HO).
      - destruct (HS (vec b) (vec s) (X (S k)) (X (S (S k))) Hs (E2 (S k) ltac:(lia))) as (G & _).
        eapply (ole_trans HO); [exact G|]. cbn [qpow]. replace (q * qpow q k * energy n a (vec s) y1)%num with (q * (qpow q k * energy n a (vec s) y1))%num by ring.
        now apply (ole_mul_l HO). }
    split; [replace it with (S (it - 1)) at 1 by lia; apply Hk|]. split.
    + intros Hlt Hor. destruct (He3 Hlt) as (k & -> & Hd).
      assert (Hsw : sor_eq n a (vec b) w (X k) (X k) (X (S k))).
      { destruct k; [|apply E2; lia]. destruct Hor as [Hor|Hz]; [lia|]. eapply sor_eq_ext; [| |exact E1]; auto. intros i Hi. now rewrite E0, Hz. }
      destruct (HS (vec b) (vec s) _ _ Hs Hsw) as (_ & G & _). eapply (ole_trans HO); [exact G|]. now apply (ole_mul_l HO).
    + intros k Hk1 Hk2. destruct k as [|[|k]]; try lia. replace (S (S k) - 2) with k by lia.
      pose proof (He2 (S k) ltac:(lia) ltac:(lia)) as F. apply (onle_lt HO) in F. apply (olt_le HO) in F.
      eapply (ole_trans HO); [exact F|]. destruct (HS (vec b) (vec s) _ _ Hs (E2 (S k) ltac:(lia))) as (_ & _ & G).
      eapply (ole_trans HO); [exact G|]. now apply (ole_mul_l HO).
Qed.
Theorem sor_terminates (HN : NatLaws N) (HA : archimedean N) n a (w : N) : symmetric2 n a -> pos_def n a -> lt n0 w -> lt w (n1 + n1)%num ->
  forall b x0 eps, length b = n -> length x0 = n -> eps <> n0 -> exists K, forall (M : RowMat N) (HR : RowLaws M) (A : M) maxIter, holds A n n a ->
    exists y it, it_sor A b x0 w maxIter eps = Ok (y, it) /\ it <= K.
Proof.
  intros Ha Hp H0 H2 b x0 eps Hb Hx He. destruct (sor_converges n a w Ha Hp H0 H2) as (q & C & D & Hq0 & Hq1 & HC & HD & HS).
  destruct (injective_solvable HF n a (pd_injective HO n a Hp) (vec b)) as (sv & Hsv).
  assert (Hs : solves n a (V n sv) b).
  { intros i Hi. rewrite <- (Hsv i Hi). apply bigsum_ext. intros j Hj. now rewrite V_nth. }
  destruct (HS b x0 (V n sv) Hb Hx Hs) as (x1 & L1 & _ & HR1).
  set (E1 := (D * energy n a (vec (V n sv)) (vec x1))%num).
  assert (Pe : lt n0 (eps * eps)%num) by now apply (olt_0_sqr HO).
  assert (P1 : lt n0 (nabs E1 + n1)%num) by (replace (nabs E1 + n1)%num with (n1 + nabs E1)%num by ring; apply (olt_0_add HO); [apply (olt_0_1 HO)|apply (oabs_nonneg HO)]).
  assert (Z1 : (nabs E1 + n1)%num <> n0) by (apply not_eq_sym, (olt_ne HO); auto). pose proof (two_neq_0 HO) as Z2.
  assert (Q : exists k, lt (qpow q k * E1)%num (eps * eps)%num).
  { destruct (qpow_small HO HN q ((eps * eps) / ((nabs E1 + n1) * (n1 + n1)))%num HA Hq0 Hq1) as (k & Hk).
    - replace ((eps * eps) / ((nabs E1 + n1) * (n1 + n1)))%num with ((eps * eps) * (n1 / ((nabs E1 + n1) * (n1 + n1))))%num.
      + apply (olt_0_mul HO); auto. apply (olt_0_inv HO), (olt_0_mul HO); [auto|apply (two_pos HO)].
      + field. auto.
    - exists k.
      set (h := ((eps * eps) / (n1 + n1))%num). assert (Ph : lt n0 h).
      { replace h with ((eps * eps) * (n1 / (n1 + n1)))%num by (unfold h; field; auto). apply (olt_0_mul HO); auto. apply (olt_0_inv HO), (two_pos HO). }
      apply (ole_lt_trans HO _ h).
      + apply (ole_trans HO _ (qpow q k * (nabs E1 + n1))%num).
        * apply (ole_mul_l HO); [now apply (qpow_nonneg HO)|]. replace E1 with (E1 + n0)%num at 1 by ring. apply (ole_add HO); [apply (oabs_le HO)|apply (olt_le HO), (olt_0_1 HO)].
        * replace h with ((nabs E1 + n1) * (eps * eps / ((nabs E1 + n1) * (n1 + n1))))%num by (unfold h; field; auto).
          replace (qpow q k * (nabs E1 + n1))%num with ((nabs E1 + n1) * qpow q k)%num by ring. apply (ole_mul_l HO); auto. apply (olt_le HO); auto.
      + apply (olt_sub HO). replace (eps * eps - h)%num with h by (unfold h; field; auto). auto. }
  destruct Q as (k & Hk). exists (k + 2). intros M HR A maxIter Hh.
  destruct (Nat.eq_dec maxIter 0) as [->|Hm].
  - destruct (sor_run HO HR A n a b x0 Hh Hb Hx w 0 eps) as (X & it & E & _ & _ & _ & He1 & _). exists (V n (X it)), it. split; auto. lia.
  - destruct (HR1 M HR A maxIter eps Hh) as (_ & G). destruct (G ltac:(lia)) as (y & it & E & _ & _ & _ & _ & B). exists y, it. split; auto.
    destruct (le_lt_dec it (k + 2)) as [|L]; auto. exfalso. specialize (B (k + 2) ltac:(lia) L). replace (k + 2 - 2) with k in B by lia.
    replace (D * (qpow q k * energy n a (vec (V n sv)) (vec x1)))%num with (qpow q k * E1)%num in B by (unfold E1; ring).
    exact (olt_irrefl HO _ (ole_lt_trans HO _ _ _ B Hk)).
Qed.
End Run.
