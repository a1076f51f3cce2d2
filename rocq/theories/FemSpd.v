(** The element matrices are positive semidefinite and vanish exactly on constants; the system matrix is positive definite. *)
From Coq Require Import List Arith Bool ZArith Lia Ring Field.
From Verif Require Import Base Num OrdField Spec SpecProofs UtilsSpec SimplexModel SimplexSpec MeshModel MeshSpec MeshDofSpec QuadModel DetSpec CholProofs
  NormProofs IterResult ShapeProofs FemSpec FemProofs FemMath.
Import ListNotations.
Local Open Scope nat_scope.
Open Scope num_scope.

Section FemSpd.
Context {N : Num} (HO : OrdFieldLaws N).
Let HF : FieldLaws N := of_field N HO.
Add Field fsfld : (fl_field N HF).
Notation le x y := (nleb x y = true).
Notation lt x y := (nltb x y = true).
Local Notation two := (n1 + n1).
Let two_nz := two_nz' HO.
Lemma two_pos : lt (@n0 N) two.
Proof. apply (olt_0_add HO); [apply (olt_0_1 HO)|apply (olt_le HO), (olt_0_1 HO)]. Qed.
Lemma rule1_is (h : N -> N -> N) : rule 1 h = dec 333333333333333 15 / two * (h n0 (dec 5 1) + h (dec 5 1) n0 + h (dec 5 1) (dec 5 1)).
Proof.
  unfold rule, qw, qp. cbn [Nat.add gl_points gl_table fst snd length bigsum nth]. generalize (@dec N 333333333333333 15) (@dec N 5 1). intros w t. ring.
Qed.
Lemma rule2_is (h : N -> N -> N) : rule 2 h =
  dec 520833333333333 15 / two * (h (dec 2 1) (dec 2 1) + h (dec 2 1) (dec 6 1) + h (dec 6 1) (dec 2 1)) -
  dec 562500000000000 15 / two * h (dec 333333333333333 15) (dec 333333333333333 15).
Proof.
  unfold rule, qw, qp. cbn [Nat.add gl_points gl_table fst snd length bigsum nth].
  change (@dec N (-562500000000000) 15) with (- @dec N 562500000000000 15).
  generalize (@dec N 333333333333333 15) (@dec N 520833333333333 15) (@dec N 562500000000000 15) (@dec N 2 1) (@dec N 6 1). intros c w v a b. field. exact two_nz.
Qed.
Lemma dec_add p q k : @dec N (Zpos p) k + dec (Zpos q) k = dec (Zpos (p + q)) k.
Proof. unfold dec. rewrite (nofpos_add HO), (ten_is HO). pose proof (nofpos_pos HO (p10 k)) as H. field. now apply (pos_nz HO). Qed.
(** convexity *)
Lemma jensen (p : nat -> nat -> N) (a b d v : nat -> N) (al be : N) : area2 p <> n0 -> le n0 al -> le n0 be -> le al (n1 / two) -> le be (n1 / two) -> al + be + be = n1 ->
  (forall c, v c = al * a c + be * b c + be * d c) ->
  le (len2 p v) ((len2 p a + len2 p b + len2 p d) / two).
Proof.
  intros Ha P1 P2 P3 P4 E Ev. unfold len2.
  assert (X : forall c, pull p v c = al * pull p a c + be * pull p b c + be * pull p d c) by (intros c; unfold pull; rewrite !Ev; destruct c; field; auto).
  rewrite !X.
  assert (Y : forall s t r : N, le ((al * s + be * t + be * r) * (al * s + be * t + be * r)) ((s * s + t * t + r * r) / two)).
  { intros s t r. apply (ole_sub HO).
    replace ((s * s + t * t + r * r) / two - (al * s + be * t + be * r) * (al * s + be * t + be * r)) with
      ((n1 / two - al) * (s * s) + (n1 / two - be) * (t * t) + (n1 / two - be) * (r * r) + (al * be * ((s - t) * (s - t)) + al * be * ((s - r) * (s - r)) + be * be * ((t - r) * (t - r)))).
    2: { replace al with (n1 - be - be) by (rewrite <- E; ring). field. exact two_nz. }
    apply (ole_sub HO) in P3, P4.
    repeat first [assumption | apply (ole_0_sqr HO) | apply (ole_0_add HO) | apply (ole_0_mul HO)]. }
  set (f := fun c => (pull p a c * pull p a c + pull p b c * pull p b c + pull p d c * pull p d c) / two).
  eapply (ole_trans HO); [apply (ole_add HO); [apply (Y (pull p a 0) (pull p b 0) (pull p d 0))|apply (Y (pull p a 1) (pull p b 1) (pull p d 1))]|].
  match goal with |- le ?l ?r => replace l with r; [apply (ole_refl HO)|field; exact two_nz] end.
Qed.
Lemma half_pos (w : N) : lt n0 w -> lt n0 (w / two).
Proof. intros H. apply (div_pos HO); auto. apply two_pos. Qed.
Lemma slope_affine (u : nat -> N) c : exists s0 s1 s2, forall x y, slope 2 u x y c = s0 + s1 * x + s2 * y.
Proof.
  destruct c as [|c].
  - exists (- (two + n1) * u 0%nat - u 1%nat + two * two * u 3%nat), (two * two * (u 0%nat + u 1%nat - two * u 3%nat)), (two * two * (u 0%nat - u 3%nat + u 4%nat - u 5%nat)).
    intros x y. unfold slope. cbn [Nat.mul Nat.add bigsum dshape Nat.ltb Nat.leb edge_of fst snd dbary bary]. ring.
  - exists (- (two + n1) * u 0%nat - u 2%nat + two * two * u 5%nat), (two * two * (u 0%nat - u 3%nat + u 4%nat - u 5%nat)), (two * two * (u 0%nat + u 2%nat - two * u 5%nat)).
    intros x y. unfold slope. cbn [Nat.mul Nat.add bigsum dshape Nat.ltb Nat.leb edge_of fst snd dbary bary]. ring.
Qed.
Lemma rule2_lower (p : nat -> nat -> N) (u : nat -> N) : area2 p <> n0 -> exists k, lt n0 k /\
  le (k * (len2 p (slope 2 u (dec 2 1) (dec 2 1)) + len2 p (slope 2 u (dec 2 1) (dec 6 1)) + len2 p (slope 2 u (dec 6 1) (dec 2 1)))) (rule 2 (fun x y => len2 p (slope 2 u x y))).
Proof.
  intros Ha. rewrite rule2_is.
  assert (H4 : @dec N 6 1 = dec 2 1 + dec 2 1 + dec 2 1) by (rewrite !dec_add; reflexivity).
  assert (H2 : lt (@dec N 333333333333333 15) (dec 2 1 + dec 2 1)) by (rewrite dec_add; apply (dec_lt HO); reflexivity).
  assert (H3 : lt (@dec N 6 1) (dec 333333333333333 15 + dec 333333333333333 15)) by (rewrite dec_add; apply (dec_lt HO); reflexivity).
  assert (Hv : lt (@dec N 562500000000000 15) (dec 520833333333333 15 + dec 520833333333333 15)) by (rewrite dec_add; apply (dec_lt HO); reflexivity).
  pose proof (dec_pos HO 2 1) as Ht. pose proof (dec_pos HO 562500000000000 15) as Hvp. rewrite H4 in *.
  revert H2 H3 Hv Ht Hvp. generalize (@dec N 333333333333333 15) (@dec N 520833333333333 15) (@dec N 562500000000000 15) (@dec N 2 1). intros c w v t H2 H3 Hv Ht Hvp.
  assert (Tn : t <> n0) by now apply (pos_nz HO).
  set (be := (c - t) / (t + t)). assert (T2 : lt n0 (t + t)) by (apply (olt_0_add HO); auto; now apply (olt_le HO)). assert (T2n := pos_nz HO _ T2).
  set (q1 := len2 p (slope 2 u t t)). set (q2 := len2 p (slope 2 u t (t + t + t))). set (q3 := len2 p (slope 2 u (t + t + t) t)).
  assert (J : le (len2 p (slope 2 u c c)) ((q1 + q2 + q3) / two)).
  { apply (jensen p (slope 2 u t t) (slope 2 u t (t + t + t)) (slope 2 u (t + t + t) t) _ (n1 - be - be) be); auto.
    - replace (n1 - be - be) with ((t + t - c + (t + t - c)) / (t + t)) by (unfold be; field; auto). apply (olt_le HO), (div_pos HO); auto. apply (olt_sub HO) in H2.
      apply (olt_0_add HO); auto. now apply (olt_le HO).
    - apply (olt_le HO). unfold be. apply (div_pos HO); auto. apply (olt_sub HO) in H3.
      assert (X : lt n0 ((c - t) + (c - t))). { replace ((c - t) + (c - t)) with (c + c - (t + t + t) + t) by ring. apply (olt_0_add HO); auto. now apply (olt_le HO). }
      replace (c - t) with (((c - t) + (c - t)) / two) by (field; exact two_nz). now apply half_pos.
    - apply (ole_sub HO). replace (n1 / two - (n1 - be - be)) with ((c + c - (t + t + t)) / (t + t)) by (unfold be; field; auto). apply (olt_le HO), (div_pos HO); auto. now apply (olt_sub HO) in H3.
    - apply (ole_sub HO). replace (n1 / two - be) with ((t + t - c) / (t + t)) by (unfold be; field; auto). apply (olt_le HO), (div_pos HO); auto. now apply (olt_sub HO) in H2.
    - ring.
    - intros d. destruct (slope_affine u d) as (s0 & s1 & s2 & E). rewrite !E. unfold be. field. auto. }
  exists (w / two - v / two / two). split.
  - replace (w / two - v / two / two) with ((w + w - v) / two / two) by (field; exact two_nz). apply half_pos, half_pos. now apply (olt_sub HO) in Hv.
  - apply (ole_sub HO). fold q1 q2 q3.
    replace (w / two * (q1 + q2 + q3) - v / two * len2 p (slope 2 u c c) - (w / two - v / two / two) * (q1 + q2 + q3)) with (v / two * ((q1 + q2 + q3) / two - len2 p (slope 2 u c c))) by (field; exact two_nz).
    apply (ole_0_mul HO); [apply (olt_le HO); now apply half_pos|]. now apply (ole_sub HO) in J.
Qed.
Lemma sum3_zero (a b c : N) : le n0 a -> le n0 b -> le n0 c -> a + b + c = n0 -> a = n0 /\ b = n0 /\ c = n0.
Proof.
  intros Ha Hb Hc E. assert (X : forall x y : N, le n0 x -> le n0 y -> x + y = n0 -> x = n0).
  { intros x y Hx Hy F. apply (of_le_antisym N HO); auto. apply (ole_sub HO). replace (n0 - x) with y; auto. rewrite <- F. ring. }
  assert (a + b = n0) by (apply (X _ c); auto; now apply (ole_0_add HO)).
  assert (a = n0) by (apply (X _ b); auto). assert (b = n0) by (apply (X _ a); auto; rewrite <- H; ring). assert (c = n0) by (rewrite <- E, H0, H1; ring). auto.
Qed.
Lemma scale_zero (k x r : N) : lt n0 k -> le n0 x -> le (k * x) r -> le n0 r /\ (r = n0 -> x = n0).
Proof.
  intros Hk Hx H. assert (P : le n0 (k * x)) by (apply (ole_0_mul HO); auto; now apply (olt_le HO)). split; [eapply (ole_trans HO); eauto|].
  intros ->. assert (E : k * x = n0) by now apply (of_le_antisym N HO). apply (mul_0 HO) in E as [E|E]; auto. exfalso. now apply (pos_nz HO k).
Qed.
Lemma mul_cancel (k x : N) : k <> n0 -> k * x = n0 -> x = n0.
Proof. intros Hk E. apply (mul_0 HO) in E as [E|E]; congruence. Qed.
(** the energy of one element *)
Theorem local_zero o (p : nat -> nat -> N) (u : nat -> N) : low o -> area2 p <> n0 ->
  let en := bigsum (3 * o) (fun k => bigsum (3 * o) (fun l => u k * stiff o p k l * u l)) in
  le n0 en /\ (en = n0 -> forall k, k < (3 * o)%nat -> u k = u 0%nat).
Proof.
  intros Ho Ha en. unfold en. rewrite (local_energy HO) by auto. clear en.
  assert (Habs : lt n0 (nabs (area2 p))) by (apply (olt_iff_ne HO); split; [apply (oabs_nonneg HO)|intros E; apply Ha; now apply (oabs_0_iff HO)]).
  assert (K : le n0 (rule o (fun x y => len2 p (slope o u x y))) /\ (rule o (fun x y => len2 p (slope o u x y)) = n0 -> forall k, k < (3 * o)%nat -> u k = u 0%nat)).
  2: { destruct K as (K1 & K2). split; [apply (ole_0_mul HO); auto; now apply (olt_le HO)|]. intros E. apply K2. apply (mul_cancel (nabs (area2 p))); auto. now apply (pos_nz HO). }
  destruct Ho as [-> | ->].
  - rewrite rule1_is. set (s := slope 1 u).
    assert (Es : forall x y c, s x y c = match c with 0%nat => u 1%nat - u 0%nat | _ => u 2%nat - u 0%nat end).
    { intros x y c. unfold s, slope. cbn [Nat.mul Nat.add bigsum dshape dbary]. destruct c; ring. }
    assert (EL : forall x y, len2 p (s x y) = len2 p (s n0 n0)) by (intros x y; unfold len2, pull; now rewrite !Es).
    rewrite (EL n0 (dec 5 1)), (EL (dec 5 1) n0), (EL (dec 5 1) (dec 5 1)).
    pose proof (half_pos _ (dec_pos HO 333333333333333 15)) as Hw. revert Hw. generalize (@dec N 333333333333333 15 / two). intros w Hw.
    pose proof (len2_nonneg HO p (s n0 n0)) as Hq. 
    destruct (scale_zero w (len2 p (s n0 n0) + len2 p (s n0 n0) + len2 p (s n0 n0)) (w * (len2 p (s n0 n0) + len2 p (s n0 n0) + len2 p (s n0 n0))) Hw) as (A & B);
      [repeat first [assumption | apply (ole_0_add HO)]|apply (ole_refl HO)|].
    split; auto. intros E. specialize (B E). destruct (sum3_zero _ _ _ Hq Hq Hq B) as (Z & _). apply (len2_zero HO) in Z as (Z0 & Z1); auto. rewrite !Es in *.
    intros k Hk. destruct k as [|[|[|]]]; try lia; auto.
    + replace (u 1%nat) with (u 1%nat - u 0%nat + u 0%nat) by ring. rewrite Z0. ring.
    + replace (u 2%nat) with (u 2%nat - u 0%nat + u 0%nat) by ring. rewrite Z1. ring.
  - destruct (rule2_lower p u Ha) as (k & Hk & Hle). destruct (scale_zero _ _ _ Hk (ole_0_add HO _ _ (ole_0_add HO _ _ (len2_nonneg HO p _) (len2_nonneg HO p _)) (len2_nonneg HO p _)) Hle) as (A & B).
    split; auto. intros E. specialize (B E). destruct (sum3_zero _ _ _ (len2_nonneg HO p _) (len2_nonneg HO p _) (len2_nonneg HO p _) B) as (Z1 & Z2 & Z3).
    apply (len2_zero HO) in Z1 as (Z10 & Z11); auto. apply (len2_zero HO) in Z2 as (Z20 & Z21); auto. apply (len2_zero HO) in Z3 as (Z30 & Z31); auto.
    assert (H4 : @dec N 6 1 = dec 2 1 + (dec 2 1 + dec 2 1)) by (rewrite !dec_add; reflexivity).
    assert (T2 : @dec N 2 1 + dec 2 1 <> n0) by (rewrite dec_add; apply (pos_nz HO), (dec_pos HO)).
    rewrite H4 in *. revert T2 Z10 Z11 Z20 Z21 Z30 Z31. generalize (@dec N 2 1). intros t T2 Z10 Z11 Z20 Z21 Z30 Z31.
    assert (V : forall c, slope 2 u t t c = n0 -> slope 2 u t (t + (t + t)) c = n0 -> slope 2 u (t + (t + t)) t c = n0 -> forall x y, slope 2 u x y c = n0).
    { intros c E1 E2 E3 x y. destruct (slope_affine u c) as (s0 & s1 & s2 & F). rewrite F in *.
      assert (S2 : s2 = n0) by (apply (mul_cancel (t + t)); auto; transitivity ((s0 + s1 * t + s2 * (t + (t + t))) - (s0 + s1 * t + s2 * t)); [ring|rewrite E1, E2; ring]).
      assert (S1 : s1 = n0) by (apply (mul_cancel (t + t)); auto; transitivity ((s0 + s1 * (t + (t + t)) + s2 * t) - (s0 + s1 * t + s2 * t)); [ring|rewrite E1, E3; ring]).
      subst s1 s2. transitivity (s0 + n0 * t + n0 * t); [ring|exact E1]. }
    pose proof (V 0%nat Z10 Z20 Z30) as V0. pose proof (V 1%nat Z11 Z21 Z31) as V1. clear V Z10 Z11 Z20 Z21 Z30 Z31.
    assert (four : two * two <> n0) by (apply (mul_neq_0 HO); exact two_nz).
    (* derivatives along the edges *)
    assert (X1 : u 1%nat = u 0%nat).
    { apply (mul_cancel two (u 1%nat - u 0%nat)) in two_nz. 2: { transitivity (slope 2 u n0 n0 0%nat + slope 2 u n1 n0 0%nat); [|rewrite !V0; ring].
        unfold slope. cbn [Nat.mul Nat.add bigsum dshape Nat.ltb Nat.leb edge_of fst snd dbary bary]. ring. }
      replace (u 1%nat) with (u 1%nat - u 0%nat + u 0%nat) by ring. rewrite two_nz. ring. }
    assert (X2 : u 2%nat = u 0%nat).
    { apply (mul_cancel two (u 2%nat - u 0%nat)) in two_nz. 2: { transitivity (slope 2 u n0 n0 1%nat + slope 2 u n0 n1 1%nat); [|rewrite !V1; ring].
        unfold slope. cbn [Nat.mul Nat.add bigsum dshape Nat.ltb Nat.leb edge_of fst snd dbary bary]. ring. }
      replace (u 2%nat) with (u 2%nat - u 0%nat + u 0%nat) by ring. rewrite two_nz. ring. }
    assert (X3 : u 3%nat = u 0%nat).
    { apply (mul_cancel (two * two) (u 3%nat - u 0%nat)) in four. 2: { transitivity (slope 2 u n0 n0 0%nat + (u 1%nat - u 0%nat)); [|rewrite V0, X1; ring].
        unfold slope. cbn [Nat.mul Nat.add bigsum dshape Nat.ltb Nat.leb edge_of fst snd dbary bary]. ring. }
      replace (u 3%nat) with (u 3%nat - u 0%nat + u 0%nat) by ring. rewrite four. ring. }
    assert (X5 : u 5%nat = u 0%nat).
    { apply (mul_cancel (two * two) (u 5%nat - u 0%nat)) in four. 2: { transitivity (slope 2 u n0 n0 1%nat + (u 2%nat - u 0%nat)); [|rewrite V1, X2; ring].
        unfold slope. cbn [Nat.mul Nat.add bigsum dshape Nat.ltb Nat.leb edge_of fst snd dbary bary]. ring. }
      replace (u 5%nat) with (u 5%nat - u 0%nat + u 0%nat) by ring. rewrite four. ring. }
    assert (X4 : u 4%nat = u 0%nat).
    { apply (mul_cancel (two * two) (u 4%nat - u 0%nat)) in four. 2: { transitivity (slope 2 u n0 n1 0%nat - slope 2 u n0 n0 0%nat + two * two * (u 3%nat - u 0%nat) + two * two * (u 5%nat - u 0%nat)); [|rewrite !V0, X3, X5; ring].
        unfold slope. cbn [Nat.mul Nat.add bigsum dshape Nat.ltb Nat.leb edge_of fst snd dbary bary]. ring. }
      replace (u 4%nat) with (u 4%nat - u 0%nat + u 0%nat) by ring. rewrite four. ring. }
    intros j Hj. destruct j as [|[|[|[|[|[|]]]]]]; auto. lia.
Qed.
(** *** The whole system *)
Lemma masked n bd (mid : N) a (x : nat -> N) :
  form n (fixed_a bd mid a) x = mid * bigsum n (fun i => if bd i then x i * x i else n0) + form n a (fun i => if bd i then n0 else x i).
Proof.
  unfold form. rewrite <- (bigsum_mul_l HF), <- (bigsum_plus HF). apply bigsum_ext. intros i Hi.
  transitivity (x i * mulvec n (fixed_a bd mid a) x i).
  { unfold mulvec. rewrite <- (bigsum_mul_l HF). apply bigsum_ext. intros; ring. }
  destruct (bd i) eqn:E.
  - rewrite (fixed_row_flag HO) by auto. rewrite (bigsum_0 HF n (fun j => n0 * a i j * _)) by (intros; ring). ring.
  - rewrite (fixed_row_free HO) by auto. rewrite <- (bigsum_mul_l HF). transitivity (bigsum n (fun j => x i * a i j * (if bd j then n0 else x j))); [|ring].
    apply bigsum_ext. intros j _. destruct (bd j); ring.
Qed.
Section Whole.
Variables (drop : N) (o : nat) (V : list (list N)) (D : list (list nat)).
Hypothesis Ho : low o.
Hypothesis Hlen : forall e, e < length D -> length (nth e D []) = (3 * o)%nat.
Hypothesis Hin : forall e k, e < length D -> k < (3 * o)%nat -> node D e k < length V.
Hypothesis Harea : forall e, e < length D -> area2 (corner V D e) <> n0.
Hypothesis Hkept : forall e k l, e < length D -> k < (3 * o)%nat -> l < (3 * o)%nat -> kept drop (stiff o (corner V D e) k l) = stiff o (corner V D e) k l.
Notation n := (length V).
Notation a := (fem_a drop o V D).
Lemma form_local (x : nat -> N) : form n a x = bigsum (length D) (fun e => bigsum (3 * o) (fun k => bigsum (3 * o) (fun l => x (node D e k) * stiff o (corner V D e) k l * x (node D e l)))).
Proof.
  unfold form, fem_a. rewrite (assembled_form HO) by auto. apply bigsum_ext. intros e He. apply bigsum_ext. intros k Hk. apply bigsum_ext. intros l Hl. now rewrite Hkept.
Qed.
Lemma form_nonneg (x : nat -> N) : le n0 (form n a x).
Proof. rewrite form_local. apply (bigsum_nonneg HO). intros e He. apply (local_zero o (corner V D e) (fun k => x (node D e k)) Ho (Harea e He)). Qed.
Lemma form_zero (x : nat -> N) : form n a x = n0 -> forall e k, e < length D -> k < (3 * o)%nat -> x (node D e k) = x (node D e 0).
Proof.
  rewrite form_local. intros E e k He Hk.
  assert (Z := bigsum_nonneg_0 HO _ _ (fun e He => proj1 (local_zero o (corner V D e) (fun k => x (node D e k)) Ho (Harea e He))) E e He).
  exact (proj2 (local_zero o (corner V D e) (fun k => x (node D e k)) Ho (Harea e He)) Z k Hk).
Qed.
Lemma diag_form i : i < n -> form n a (fun j => if j =? i then n1 else n0) = a i i.
Proof.
  intros Hi. unfold form. rewrite (bigsum_single HF n i); auto.
  - rewrite (bigsum_single HF n i); auto; [rewrite Nat.eqb_refl; ring|]. intros j _ Hj. apply Nat.eqb_neq in Hj. rewrite Hj. ring.
  - intros j _ Hj. apply (bigsum_0 HF). intros k _. apply Nat.eqb_neq in Hj. rewrite Hj. ring.
Qed.
Lemma diag_nonneg i : i < n -> le n0 (a i i).
Proof. intros Hi. rewrite <- diag_form by auto. apply form_nonneg. Qed.
Lemma diag_pos e k : e < length D -> k < (3 * o)%nat -> lt n0 (a (node D e k) (node D e k)).
Proof.
  intros He Hk. assert (Hi := Hin e k He Hk). set (i := node D e k) in *. apply (olt_iff_ne HO). split; [now apply diag_nonneg|]. intros E. symmetry in E.
  rewrite <- diag_form in E by auto. assert (H3 : 3 <= (3 * o)%nat) by (destruct Ho as [-> | ->]; lia).
  pose proof (form_zero _ E e k He Hk) as E0. fold i in E0. cbn beta in E0. rewrite Nat.eqb_refl in E0.
  pose proof (form_zero _ E e 1%nat He ltac:(lia)) as E1. cbn beta in E1. rewrite <- E0 in E1.
  destruct (Nat.eqb_spec (node D e 0) i) as [F0|F0]; [|apply (one_neq_zero HO); auto]. destruct (Nat.eqb_spec (node D e 1) i) as [F1|F1]; [|apply (one_neq_zero HO); auto].
  apply (Harea e He). unfold area2, corner. unfold node in F0, F1. rewrite F0, F1. ring.
Qed.
Lemma node_in e i : e < length D -> In i (nth e D []) -> exists k, k < (3 * o)%nat /\ i = node D e k.
Proof. intros He Hi. destruct (In_nth _ _ 0%nat Hi) as (k & Hk & E). rewrite Hlen in Hk by auto. exists k. unfold node. auto. Qed.
Context (HN : NatLaws N).
Lemma nofnat_pos k : lt (@n0 N) (nofnat (S k)).
Proof.
  induction k as [|k IH]; rewrite (nl_S N HN); [rewrite (nl_0 N HN); replace (n0 + n1) with (@n1 N) by ring; apply (olt_0_1 HO)|].
  apply (olt_0_add HO); auto. apply (olt_le HO), (olt_0_1 HO).
Qed.
Lemma mid_pos : 0 < length D -> lt n0 (avg_diag n a).
Proof.
  intros Hd. assert (H3 : 0 < (3 * o)%nat) by (destruct Ho as [-> | ->]; lia). pose proof (Hin 0%nat 0%nat Hd H3) as Hi. unfold avg_diag. apply (div_pos HO).
  - apply (bigsum_pos_term HO n _ (node D 0 0)); auto; [intros; apply (oabs_nonneg HO)|]. rewrite (of_abs_pos N HO) by (apply (olt_le HO); now apply diag_pos). now apply diag_pos.
  - destruct n; [lia|]. apply nofnat_pos.
Qed.
Theorem spd bd : 0 < length D -> (forall i, i < n -> anchored D bd i) -> pos_def n (fixed_a bd (avg_diag n a) a).
Proof.
  intros Hd Hanc x (i & Hi & Hx). pose proof (mid_pos Hd) as Hm. change (lt n0 (form n (fixed_a bd (avg_diag n a) a) x)).
  set (y := fun i => if bd i then n0 else x i). rewrite masked. fold y.
  assert (P1 : forall j, j < n -> le n0 (if bd j then x j * x j else n0)) by (intros j _; destruct (bd j); [apply (ole_0_sqr HO)|apply (ole_refl HO)]).
  assert (S1 : le n0 (bigsum n (fun j => if bd j then x j * x j else n0))) by now apply (bigsum_nonneg HO).
  apply (olt_iff_ne HO). split; [apply (ole_0_add HO); [apply (ole_0_mul HO); auto; now apply (olt_le HO)|apply form_nonneg]|]. intros E. symmetry in E.
  assert (Z : avg_diag n a * bigsum n (fun j => if bd j then x j * x j else n0) = n0 /\ form n a y = n0 /\ n0 = @n0 N).
  { apply sum3_zero; [apply (ole_0_mul HO); auto; now apply (olt_le HO)|apply form_nonneg|apply (ole_refl HO)|]. etransitivity; [|exact E]. ring. }
  destruct Z as (Z1 & Z2 & _). apply (mul_cancel _ _ (pos_nz HO _ Hm)) in Z1.
  assert (Fl : forall j, j < n -> bd j = true -> x j = n0).
  { intros j Hj Hb. pose proof (bigsum_nonneg_0 HO _ _ P1 Z1 j Hj) as Q. cbn beta in Q. rewrite Hb in Q. apply (mul_0 HO) in Q as [Q|Q]; auto. }
  assert (Y : forall j, anchored D bd j -> y j = n0).
  { intros j A. induction A as [j Hb|e j k He Hj Hk A IH]; [unfold y; now rewrite Hb|].
    destruct (node_in e j He Hj) as (k1 & H1 & ->). destruct (node_in e k He Hk) as (k2 & H2 & ->). rewrite (form_zero y Z2 e k1 He H1), <- (form_zero y Z2 e k2 He H2). exact IH. }
  apply Hx. specialize (Y i (Hanc i Hi)). unfold y in Y. destruct (bd i) eqn:Eb; auto.
Qed.
End Whole.
End FemSpd.
