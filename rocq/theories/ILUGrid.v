(** The finite difference matrix of examples/poisson/fdm.cpp satisfies the conditions of ILUStable.v (with the interior rows
    multiplied by -1). *)
From Coq Require Import List Arith Bool Lia Ring Field.
From Verif Require Import Base BaseProofs Num OrdField Spec SpecProofs VectorModel SparseModel SparseSpec DenseModel MatI MatIProofs MatOps MatOpsProofs
  UtilsSpec DetSpec DetProofs LUModel LUSolve ILUProofs ILUStable IterResult GridModel GridSpec GridProofs GridPoisson GridMax GridSor.
Import ListNotations.
Local Open Scope nat_scope.
Open Scope num_scope.
Section G.
Context {N : Num} (HO : OrdFieldLaws N) (HN : NatLaws N).
Let HF : FieldLaws N := of_field N HO.
Add Field igfld : (fl_field N HF).
Local Notation le x y := (nleb x y = true).
Local Notation lt x y := (nltb x y = true).
Variables (XC YC : nat) (H K : N) (f b : N -> N -> N).
Hypothesis (HX : 0 < XC) (HY : 0 < YC) (HH : H <> n0) (HK : K <> n0).
Local Notation lin := (lin2 XC).
Local Notation D := (XC * YC)%nat.
Local Notation a := (tab (prows XC YC H K)).
Definition sg (i : nat) : N := if rimb XC YC (i mod XC) (i / XC) then n1 else - n1.
Lemma sg_lin x y : x < XC -> sg (lin x y) = if rimb XC YC x y then n1 else - n1.
Proof. intros Hx. unfold sg. now rewrite lin2_x, lin2_y. Qed.
Lemma sg_sqr i : sg i * sg i = n1.
Proof. unfold sg. destruct rimb; ring. Qed.
(** a sum of the first k entries of a row *)
Lemma row_head k x y : x < XC -> y < YC -> k <= D ->
  bigsum k (a (lin x y)) = rowsum (prow XC YC H K x y) (fun j => if j <? k then n1 else n0).
Proof.
  intros Hx Hy Hk. rewrite <- (prows_lin XC YC H K x y) by auto. rewrite <- (mulvec_tab HF _ D).
  2: { intros e. rewrite prows_lin by auto. now apply prow_range. }
  unfold mulvec. rewrite (bigsum_trunc HF D k); auto.
  - apply bigsum_ext. intros i Hi. rewrite (proj2 (Nat.ltb_lt _ _)) by auto. ring.
  - intros i Hi. rewrite (proj2 (Nat.ltb_ge _ _)) by lia. ring.
Qed.
Lemma inner_bounds x y : x < XC -> y < YC -> rimb XC YC x y = false -> 0 < x /\ S x < XC /\ 0 < y /\ S y < YC.
Proof. intros Hx Hy E. apply rimb_false in E. unfold on_rim in E. lia. Qed.
Lemma off_diag i j : i < D -> j < D -> i <> j -> le (sg i * a i j) n0.
Proof.
  intros Hi Hj Hne. destruct (lin2_of XC YC i Hi) as (x & y & Hx & Hy & ->). rewrite sg_lin by auto. unfold tab.
  rewrite prows_lin by auto. unfold prow. destruct (rimb XC YC x y) eqn:E; cbn [fold_right fst snd].
  - rewrite (proj2 (Nat.eqb_neq _ _)) by auto. replace (n1 * (n0 + n0)) with (@n0 N) by ring. apply (ole_refl HO).
  - rewrite (proj2 (Nat.eqb_neq j (lin x y))) by auto.
    assert (R : le n0 (fdm_R2 H K)) by (apply (olt_le HO), (R2_pos HO); auto).
    assert (O : le (@n0 N) n1) by apply (olt_le HO), (olt_0_1 HO).
    assert (Z : le (@n0 N) n0) by apply (ole_refl HO).
    apply (ole_opp HO). match goal with |- le n0 (- (- n1 * ?e)) => replace (- (- n1 * e)) with e by ring end.
    repeat (apply (ole_0_add HO)); auto; match goal with |- le n0 (if ?c then _ else _) => destruct c; auto end.
Qed.
Lemma lin_order x y : x < XC -> y < YC -> rimb XC YC x y = false ->
  (lin (x - 1) y < S (lin x y) /\ lin x y < S (lin x y) /\ ~ lin (x + 1) y < S (lin x y) /\ lin x (y - 1) < S (lin x y) /\
  ~ lin x (y + 1) < S (lin x y) /\ lin (x - 1) y < D /\ lin x y < D /\ lin (x + 1) y < D /\ lin x (y - 1) < D /\ lin x (y + 1) < D)%nat.
Proof.
  intros Hx Hy E. destruct (inner_bounds x y Hx Hy E) as (A1 & A2 & A3 & A4).
  repeat split; try (apply lin2_lt; lia); unfold lin2; nia.
Qed.
Lemma full_sum i : i < D -> le n0 (bigsum D (fun j => sg i * a i j)).
Proof.
  intros Hi. rewrite (bigsum_mul_l HF). destruct (lin2_of XC YC i Hi) as (x & y & Hx & Hy & ->). rewrite sg_lin, row_head by auto.
  unfold prow, rowsum. destruct (rimb XC YC x y) eqn:E; cbn [fold_right fst snd].
  - rewrite (proj2 (Nat.ltb_lt _ _)) by auto. replace (n1 * (n1 * n1 + n0)) with (@n1 N) by ring. apply (olt_le HO), (olt_0_1 HO).
  - destruct (lin_order x y Hx Hy E) as (_ & _ & _ & _ & _ & A1 & A2 & A3 & A4 & A5).
    rewrite !(proj2 (Nat.ltb_lt _ _)) by auto. unfold fdm_C.
    match goal with |- le n0 ?e => replace e with (@n0 N) by ring end. apply (ole_refl HO).
Qed.
Lemma low_sum i : lt (@neps N) n1 -> i < D -> lt neps (bigsum (S i) (fun j => sg i * a i j)).
Proof.
  intros He Hi. rewrite (bigsum_mul_l HF). destruct (lin2_of XC YC i Hi) as (x & y & Hx & Hy & ->). rewrite sg_lin, row_head by auto.
  unfold prow, rowsum. destruct (rimb XC YC x y) eqn:E; cbn [fold_right fst snd].
  - rewrite (proj2 (Nat.ltb_lt _ _)) by auto. now replace (n1 * (n1 * n1 + n0)) with (@n1 N) by ring.
  - destruct (lin_order x y Hx Hy E) as (A1 & A2 & A3 & A4 & A5 & _).
    rewrite (proj2 (Nat.ltb_lt _ _) A1), (proj2 (Nat.ltb_lt _ _) A2), (proj2 (Nat.ltb_lt _ _) A4).
    rewrite (proj2 (Nat.ltb_ge (lin (x + 1) y) _)), (proj2 (Nat.ltb_ge (lin x (y + 1)) _)) by lia. unfold fdm_C.
    match goal with |- lt _ ?e => replace e with (n1 + fdm_R2 H K) by ring end.
    eapply (olt_le_trans HO); [exact He|]. apply (le_add_r HO). apply (olt_le HO), (R2_pos HO); auto.
Qed.
(** The example's matrix can be factorised incompletely and the factors applied to its right-hand side. *)
Theorem fdm_ilu : lt (@neps N) n1 ->
  returns (let* AB := fdm_assemble XC YC H K f b in
           let* Z := s_new (N := N) D D in
           let* LU := ilu0 (fst AB) Z Z in
           solve_lu (M := SparseR N) (fst LU) (snd LU) (snd AB)) (fun x => length x = D).
Proof.
  intros He. destruct (poisson_system HF HN XC YC H K f b HX HY) as (AB & -> & HA & HB). cbn [bind].
  assert (HD : 0 < D) by now apply Nat.mul_pos_pos.
  destruct (ml_new _ (sparse_laws N HF) D D HD HD) as (Z & EZ & HZ). change (@mi_new _ (SparseI N) D D) with (s_new (N := N) D D) in EZ.
  rewrite EZ. cbn [bind].
  assert (HL : length (snd AB) = D) by (rewrite HB, map_length, seq_length; auto).
  destruct (ilu0_signs_apply HO D a sg HD (fun i _ => sg_sqr i) off_diag full_sum (fun i => low_sum i He) (fst AB) Z Z (snd AB) He HA HZ HZ HL)
    as (x & -> & Hx & _). exists x. auto.
Qed.
End G.
