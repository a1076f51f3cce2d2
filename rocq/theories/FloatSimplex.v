(** Simplex<double,2> in double arithmetic (property C94). *)
From Coq Require Import ZArith Reals List Arith Bool SpecFloat Lia Lra.
From Flocq Require Import Core.
From Verif Require Import Base BaseProofs Num NumInst OrdField Spec VectorModel DenseModel DenseSpec MatI MatIProofs LUModel DetSpec SimplexModel SimplexSpec SimplexProofs
  FloatSpec F64Flocq FloatProofs FloatResult FloatSolve FloatLUSpec FloatLU FloatGrowth FloatDetSpec FloatDet FloatChol FloatConvSpec FloatIter FloatConv FloatQuad FloatSimplexSpec.
Import ListNotations.
Local Open Scope R_scope.

(** ** Objects *)
Section Shape.
Context {N : Num}.
Lemma made_shape_any (s : simplex N) : sx_made s -> sx_shape s.
Proof.
  induction 1 as [|l s E|s i v s' Hm IH Lv E|s s' Hm IH E].
  - exact new_shape.
  - now apply (of_list_shape l s).
  - eapply put_shape; eauto.
  - destruct IH as ((p & Hp) & H2). assert (Hs : sx_shape s) by (split; eauto).
    rewrite (prepare_eq s p Hs Hp) in E. destruct (det_fixed (pmat p)); cbn [bind] in E; try discriminate. injection E as <-.
    split; [exists p; reflexivity|]. split; do 4 eexists; reflexivity.
Qed.
Lemma corners_tri_any (s : simplex N) p : corners s p -> sx_shape s /\ sx_v s = tri p.
Proof.
  intros (Hm & Hg). apply made_shape_any in Hm. split; auto. destruct Hm as ((q & Hq) & _). unfold sx_get in Hg. rewrite Hq in *.
  pose proof (Hg 0%nat ltac:(lia)) as H0. pose proof (Hg 1%nat ltac:(lia)) as H1. pose proof (Hg 2%nat ltac:(lia)) as H2.
  unfold tri, vget in *. cbn in *. congruence.
Qed.
(** The object prepare() leaves when the determinant comes out as d. *)
Definition prepd (p : nat -> nat -> N) (d : N) : simplex N := mkSx (tri p) true (pmat p) (pinv p d) d.
Lemma local_of p d x y : sx_toLocal (prepd p d) [x; y] =
  Ok [n0 + (p 2%nat 1%nat - p 0%nat 1%nat) * (n1 / d) * (x - p 0%nat 0%nat) + - (p 2%nat 0%nat - p 0%nat 0%nat) * (n1 / d) * (y - p 0%nat 1%nat);
      n0 + - (p 1%nat 1%nat - p 0%nat 1%nat) * (n1 / d) * (x - p 0%nat 0%nat) + (p 1%nat 0%nat - p 0%nat 0%nat) * (n1 / d) * (y - p 0%nat 1%nat)]%num.
Proof. reflexivity. Qed.
Lemma global_of p d x y : sx_toGlobal (prepd p d) [x; y] =
  Ok [n0 + (p 1%nat 0%nat - p 0%nat 0%nat) * x + (p 2%nat 0%nat - p 0%nat 0%nat) * y + p 0%nat 0%nat;
      n0 + (p 1%nat 1%nat - p 0%nat 1%nat) * x + (p 2%nat 1%nat - p 0%nat 1%nat) * y + p 0%nat 1%nat]%num.
Proof. reflexivity. Qed.
End Shape.

(** ** Numbers *)
Lemma tiny_u : u64 <= / 1000000000000.
Proof. unfold u64. simpl. lra. Qed.
Lemma eta_s s : s <= powerRZ 2 400 -> 0 <= s -> eta64 * (s * s) <= u64 / 1000000.
Proof.
  intros H P. pose proof eta64_pos as V. apply Rle_trans with (eta64 * (powerRZ 2 400 * powerRZ 2 400)).
  - apply Rmult_le_compat_l; [lra|]. apply Rmult_le_compat; auto.
  - unfold eta64. rewrite <- !powerRZ_add by lra. apply Rle_trans with (powerRZ 2 (-73)); [|unfold u64; simpl; lra].
    change 2 with (IZR radix2). rewrite <- !bpow_powerRZ. apply bpow_le. lia.
Qed.
Lemma abs_mul a b A B : Rabs a <= A -> Rabs b <= B -> Rabs (a * b) <= A * B.
Proof. intros. rewrite Rabs_mult. apply Rmult_le_compat; auto; apply Rabs_pos. Qed.
Lemma abs_add a b A B : Rabs a <= A -> Rabs b <= B -> Rabs (a + b) <= A + B.
Proof. intros. eapply Rle_trans; [apply Rabs_triang|]. lra. Qed.
Lemma det_two (f : nat -> nat -> NumR) : (det 2 f : R) = f O O * f 1%nat 1%nat - f O 1%nat * f 1%nat O.
Proof. cbn. unfold minor. cbn. match goal with |- @eq _ ?x ?y => change (@eq R x y) end. ring. Qed.

(** One operation on finite doubles whose exact result is far from the overflow threshold. *)
Definition good (x : NumF64) : Prop := double x /\ finite x.
Lemma mul_step (x y : NumF64) k : good x -> good y -> (0 <= k <= 1000)%Z -> Rabs (real x * real y) <= bpow radix2 k ->
  good (x * y)%num /\ exists d h, Rabs d <= u64 /\ Rabs h <= eta64 /\ real (x * y)%num = real x * real y * (1 + d) + h.
Proof.
  intros (Dx & Fx) (Dy & Fy) K B. assert (F : finite (x * y)%num) by (apply mul_finite; auto; apply (rnd_lt _ k); auto; lia).
  split; [split; auto using mul_double|]. now apply mul_err.
Qed.
Lemma div_step (x y : NumF64) k : good x -> good y -> (0 <= k <= 1000)%Z -> real y <> 0 -> Rabs (real x / real y) <= bpow radix2 k ->
  good (x / y)%num /\ exists d h, Rabs d <= u64 /\ Rabs h <= eta64 /\ real (x / y)%num = real x / real y * (1 + d) + h.
Proof.
  intros (Dx & Fx) (Dy & Fy) K Z0 B. assert (F : finite (x / y)%num) by (apply div_finite; auto; apply (rnd_lt _ k); auto; lia).
  split; [split; auto using div_double|]. now apply div_err.
Qed.
Lemma add_step (x y : NumF64) k : good x -> good y -> (0 <= k <= 1000)%Z -> Rabs (real x + real y) <= bpow radix2 k ->
  good (x + y)%num /\ exists d, Rabs d <= u64 /\ real (x + y)%num = (real x + real y) * (1 + d).
Proof.
  intros (Dx & Fx) (Dy & Fy) K B. assert (F : finite (x + y)%num) by (apply add_finite; auto; apply (rnd_lt _ k); auto; lia).
  split; [split; auto using add_double|]. now apply add_err.
Qed.
Lemma zero_step (x : NumF64) : good x -> good (Num.n0 + x)%num /\ real (Num.n0 + x)%num = real x.
Proof.
  intros (Dx & Fx). assert (R : rnd (0 + real x) = real x) by (rewrite Rplus_0_l; apply rnd_id; now apply real_format).
  assert (F : finite (Num.n0 + x)%num).
  { apply add_finite; auto using double_zero; [exact I|]. rewrite real_zero, R. now apply real_lt_max. }
  split; [split; auto; apply add_double; auto using double_zero|]. now apply add_zero_l.
Qed.

Section Tri.
Variables (p : nat -> nat -> NumF64) (e : Z).
Hypothesis Hp : coordinates e p.
Let s : R := powerRZ 2 e.
Let t := s * s.
Definition edge (p : nat -> nat -> NumF64) (i j : nat) : NumF64 := (p (S j) i - p O i)%num.
Definition diff (p : nat -> nat -> NumF64) (i j : nat) : R := real (p (S j) i) - real (p O i).
Lemma s_bpow : s = bpow radix2 e. Proof. exact (eq_sym (bpow_powerRZ radix2 e)). Qed.
Lemma s1 : 1 <= s. Proof. rewrite s_bpow. change 1 with (bpow radix2 0). apply bpow_le. apply Hp. Qed.
Lemma t1 : 1 <= t. Proof. pose proof s1. unfold t. nra. Qed.
Lemma s_big k : (400 <= k)%Z -> s <= bpow radix2 k.
Proof. intros H. rewrite s_bpow. apply bpow_le. pose proof (proj1 Hp). lia. Qed.
Lemma eta_t : eta64 * t <= u64 / 1000000.
Proof. apply eta_s; [|pose proof s1; lra]. replace (powerRZ 2 400) with (bpow radix2 400) by exact (bpow_powerRZ radix2 400). apply s_big. lia. Qed.
Lemma s_t : s <= t. Proof. pose proof s1. unfold t. nra. Qed.
Lemma sub_near (x y : NumF64) : double x -> finite x -> double y -> finite y -> Rabs (real x) <= s -> Rabs (real y) <= s ->
  double (x - y)%num /\ finite (x - y)%num /\ exists d, Rabs d <= u64 /\ real (x - y)%num = (real x - real y) * (1 + d) /\ Rabs (real x - real y) <= 2 * s.
Proof.
  intros Dx Fx Dy Fy Bx By. assert (D : Rabs (real x - real y) <= 2 * s).
  { eapply Rle_trans; [apply Rabs_triang|]. rewrite Rabs_Ropp. lra. }
  assert (F : finite (x - y)%num).
  { apply sub_finite; auto. apply (rnd_lt _ 401); [lia|]. pose proof (s_big 400 ltac:(lia)).
    change 401%Z with (1 + 400)%Z. rewrite bpow_plus. change (bpow radix2 1) with 2. lra. }
  split; [now apply sub_double|]. split; [exact F|]. destruct (sub_err x y Dx Dy F) as (d & Hd & E). eauto.
Qed.
Lemma edge_near i j : (i < 2)%nat -> (j < 2)%nat -> double (edge p i j) /\ finite (edge p i j) /\
  (exists d, Rabs d <= u64 /\ real (edge p i j) = diff p i j * (1 + d)) /\ Rabs (diff p i j) <= 2 * s.
Proof.
  intros Hi Hj. destruct Hp as (_ & H). destruct (H (S j) i ltac:(lia) Hi) as (D1 & F1 & B1). destruct (H O i ltac:(lia) Hi) as (D0 & F0 & B0).
  destruct (sub_near _ _ D1 F1 D0 F0 B1 B0) as (D & F & d & Hd & E & B). split; [exact D|]. split; [exact F|]. split; [exists d; auto|exact B].
Qed.
Lemma edge_size i j : (i < 2)%nat -> (j < 2)%nat -> Rabs (real (edge p i j)) <= 2 * s * (1 + u64).
Proof.
  intros Hi Hj. destruct (edge_near i j Hi Hj) as (_ & _ & (d & Hd & ->) & B). eapply Rle_trans; [now apply err_abs|].
  rewrite Rmult_comm. apply Rmult_le_compat_r; [pose proof u64_pos; lra|exact B].
Qed.
Lemma pmat_holds : MatI.holds (pmat p : DenseI NumF64) 2 2 (edge p).
Proof.
  split; [reflexivity|]. split; [reflexivity|]. split; [reflexivity|]. intros i j Hi Hj.
  destruct i as [|[|i]]; try lia; destruct j as [|[|j]]; try lia; reflexivity.
Qed.
Lemma edge_top i j : (i < 2)%nat -> (j < 2)%nat -> Rabs (real (edge p i j)) <= bpow radix2 (e + 1).
Proof.
  intros Hi Hj. destruct Hp as (He & H). destruct (H (S j) i ltac:(lia) Hi) as (D1 & F1 & B1). destruct (H O i ltac:(lia) Hi) as (D0 & F0 & B0).
  destruct (edge_near i j Hi Hj) as (_ & F & _ & B). unfold edge in *. rewrite (sub_real _ _ D1 D0 F). apply rnd_le_bpow; [lia|].
  rewrite bpow_plus, <- s_bpow. change (bpow radix2 1) with 2. unfold diff in B. lra.
Qed.
Lemma prod_near a b A B d1 d2 : Rabs a <= A -> Rabs b <= B -> Rabs d1 <= u64 -> Rabs d2 <= u64 -> Rabs (a * (1 + d1) * (b * (1 + d2)) - a * b) <= 2.1 * u64 * (A * B).
Proof.
  intros HA HB H1 H2. replace (a * (1 + d1) * (b * (1 + d2)) - a * b) with (a * b * (d1 + d2 + d1 * d2)) by ring.
  pose proof (abs_mul _ _ _ _ HA HB). pose proof u64_pos. pose proof tiny_u.
  assert (Rabs (d1 + d2 + d1 * d2) <= 2.1 * u64).
  { pose proof (abs_mul _ _ _ _ H1 H2). pose proof (abs_add _ _ _ _ (abs_add _ _ _ _ H1 H2) H4).
    assert (u64 * u64 <= / 1000000000000 * u64) by (apply Rmult_le_compat_r; lra). lra. }
  pose proof (abs_mul _ _ _ _ H H4). lra.
Qed.
Lemma rounded_area : Rabs (real (edge p 0 0) * real (edge p 1 1) - real (edge p 0 1) * real (edge p 1 0) - exact_area2 p) <= 17 * u64 * t.
Proof.
  destruct (edge_near 0 0 ltac:(lia) ltac:(lia)) as (_ & _ & (d0 & H0 & ->) & B0). destruct (edge_near 1 1 ltac:(lia) ltac:(lia)) as (_ & _ & (d1 & H1 & ->) & B1).
  destruct (edge_near 0 1 ltac:(lia) ltac:(lia)) as (_ & _ & (d2 & H2 & ->) & B2). destruct (edge_near 1 0 ltac:(lia) ltac:(lia)) as (_ & _ & (d3 & H3 & ->) & B3).
  change (exact_area2 p) with (diff p 0 0 * diff p 1 1 - diff p 0 1 * diff p 1 0).
  pose proof (prod_near _ _ _ _ d0 d1 B0 B1 H0 H1) as X. pose proof (prod_near _ _ _ _ d2 d3 B2 B3 H2 H3) as Y.
  set (x := diff p 0 0 * (1 + d0) * (diff p 1 1 * (1 + d1))) in *. set (y := diff p 0 1 * (1 + d2) * (diff p 1 0 * (1 + d3))) in *.
  set (x' := diff p 0 0 * diff p 1 1) in *. set (y' := diff p 0 1 * diff p 1 0) in *.
  replace (x - y - (x' - y')) with ((x - x') - (y - y')) by ring. unfold Rminus at 1. eapply Rle_trans; [apply Rabs_triang|]. rewrite Rabs_Ropp.
  pose proof (Rmult_le_pos u64 t ltac:(pose proof u64_pos; lra) ltac:(pose proof t1; lra)). unfold t in *. lra.
Qed.
Lemma area_size : Rabs (exact_area2 p) <= 8 * t.
Proof.
  change (exact_area2 p) with (diff p 0 0 * diff p 1 1 - diff p 0 1 * diff p 1 0).
  unfold Rminus. eapply Rle_trans; [apply Rabs_triang|]. rewrite Rabs_Ropp.
  pose proof (abs_mul _ _ _ _ (proj2 (proj2 (proj2 (edge_near 0 0 ltac:(lia) ltac:(lia))))) (proj2 (proj2 (proj2 (edge_near 1 1 ltac:(lia) ltac:(lia)))))).
  pose proof (abs_mul _ _ _ _ (proj2 (proj2 (proj2 (edge_near 0 1 ltac:(lia) ltac:(lia))))) (proj2 (proj2 (proj2 (edge_near 1 0 ltac:(lia) ltac:(lia)))))).
  unfold t. lra.
Qed.
Lemma lu_err_small : lu_error 2 (e + 1) <= 49 * u64 * s.
Proof.
  unfold lu_error, row_bound. set (B := powerRZ 2 (e + 1 + Z.of_nat 2)).
  assert (EB : B = 8 * s). { unfold B. replace (e + 1 + Z.of_nat 2)%Z with (3 + e)%Z by lia. rewrite powerRZ_add by lra. fold s. simpl. ring. }
  rewrite EB. pose proof s1 as S. rewrite (Rabs_pos_eq (8 * s)) by lra. pose proof tiny_u as T. pose proof u64_pos as U.
  pose proof (eta_t) as Et. pose proof eta64_pos as V. change (2 + 1)%nat with 3%nat. change (INR 2) with 2.
  assert (E3 : 0 <= (1 + u64) ^ 3 - 1 <= 3.001 * u64). { replace ((1 + u64) ^ 3 - 1) with (u64 * (3 + 3 * u64 + u64 * u64)) by ring. split; nra. }
  assert (E4 : eta64 * s <= u64 / 1000000). { eapply Rle_trans; [|exact Et]. apply Rmult_le_compat_l; [lra|apply s_t]. }
  assert (Es : eta64 * 1 <= u64 / 1000000). { eapply Rle_trans; [|exact E4]. apply Rmult_le_compat_l; lra. }
  assert (Us : u64 <= u64 * s). { rewrite <- (Rmult_1_r u64) at 1. apply Rmult_le_compat_l; lra. }
  assert (I3 : INR 3 = 3) by (simpl; ring). rewrite I3.
  assert (P1 : ((1 + u64) ^ 3 - 1) * (2 * (8 * s)) <= 3.001 * u64 * (16 * s)) by (replace (2 * (8 * s)) with (16 * s) by ring; apply Rmult_le_compat_r; lra).
  assert (P2 : (3 + 8 * s) * (1 + u64) ^ 3 * eta64 <= 0.1 * (u64 * s)).
  { replace ((3 + 8 * s) * (1 + u64) ^ 3 * eta64) with ((1 + u64) ^ 3 * (3 * (eta64 * 1) + 8 * (eta64 * s))) by ring.
    apply Rle_trans with (2 * (11 * (u64 / 1000000))); [|lra]. pose proof (Rmult_le_pos eta64 s ltac:(lra) ltac:(lra)).
    apply Rmult_le_compat; lra. }
  lra.
Qed.
Lemma det_move (E : nat -> nat -> R) q : q <= 51 * u64 * s -> (forall i j, (i < 2)%nat -> (j < 2)%nat -> Rabs (E i j) <= q) ->
  Rabs ((det 2 (perturbed (edge p) E) : R) - (real (edge p 0 0) * real (edge p 1 1) - real (edge p 0 1) * real (edge p 1 0))) <= 8 * s * q + 2 * (q * q).
Proof.
  intros Hq HE. rewrite det_two. unfold perturbed.
  assert (A : forall i j, (i < 2)%nat -> (j < 2)%nat -> Rabs (real (edge p i j)) <= 2 * s).
  { intros i j Hi Hj. pose proof (edge_top i j Hi Hj) as T. rewrite bpow_plus, <- s_bpow in T. change (bpow radix2 1) with 2 in T. lra. }
  pose proof (A 0%nat 0%nat ltac:(lia) ltac:(lia)) as A0. pose proof (A 1%nat 1%nat ltac:(lia) ltac:(lia)) as A1.
  pose proof (A 0%nat 1%nat ltac:(lia) ltac:(lia)) as A2. pose proof (A 1%nat 0%nat ltac:(lia) ltac:(lia)) as A3.
  pose proof (HE 0%nat 0%nat ltac:(lia) ltac:(lia)) as E0. pose proof (HE 1%nat 1%nat ltac:(lia) ltac:(lia)) as E1.
  pose proof (HE 0%nat 1%nat ltac:(lia) ltac:(lia)) as E2. pose proof (HE 1%nat 0%nat ltac:(lia) ltac:(lia)) as E3. clear A HE.
  set (a := real (edge p 0 0)) in *. set (b := real (edge p 1 1)) in *. set (c := real (edge p 0 1)) in *. set (d := real (edge p 1 0)) in *.
  set (x := E 0%nat 0%nat) in *. set (y := E 1%nat 1%nat) in *. set (z := E 0%nat 1%nat) in *. set (w := E 1%nat 0%nat) in *. clearbody a b c d x y z w.
  match goal with |- Rabs ?g <= _ => replace g with ((a * y + b * x + x * y) + - (c * w + d * z + z * w)) by ring end.
  eapply Rle_trans; [apply abs_add; [apply abs_add; [apply abs_add|]|rewrite Rabs_Ropp; apply abs_add; [apply abs_add|]]; apply abs_mul; eassumption|]. lra.
Qed.
(** prepare() computes the determinant up to 450 units. *)
Definition near_area (d : NumF64) : Prop := good d /\ Rabs (real d - exact_area2 p) <= 450 * u64 * t.
Lemma det_near : returns (det_fixed (pmat p)) near_area.
Proof.
  destruct (det_fixed_f (pmat p) 2 (e + 1) (edge p)) as (d & Ed & Dd & Fd & Fin).
  - lia.
  - exact pmat_holds.
  - intros i j Hi Hj. apply (edge_near i j Hi Hj).
  - pose proof (proj1 Hp). lia.
  - pose proof (proj1 Hp). lia.
  - intros i j Hi Hj. split; [apply (edge_near i j Hi Hj)|]. rewrite <- (bpow_powerRZ radix2). now apply edge_top.
  - exists d. split; [exact Ed|]. assert (F : finite d) by (apply Fin; pose proof (proj1 Hp); lia). split; [split; auto|].
    pose proof rounded_area as RA. pose proof tiny_u as T. pose proof u64_pos as U. pose proof s1 as S. pose proof t1 as T1.
    pose proof lu_err_small as LE. pose proof area_size as AS.
    set (m := real (edge p 0 0) * real (edge p 1 1) - real (edge p 0 1) * real (edge p 1 0)) in *.
    assert (Q : u64 * u64 <= u64 / 1000000000000) by (unfold Rdiv; apply Rmult_le_compat_l; lra).
    assert (MV : forall E q, 0 <= q <= 51 * u64 * s -> (forall i j, (i < 2)%nat -> (j < 2)%nat -> Rabs (E i j) <= q) -> Rabs ((det 2 (perturbed (edge p) E) : R) - m) <= 409 * u64 * t).
    { intros E q (Q0 & Hq) HE. eapply Rle_trans; [exact (det_move E q Hq HE)|].
      assert (q * q <= (51 * u64 * s) * (51 * u64 * s)) by (apply Rmult_le_compat; auto).
      assert (s * q <= s * (51 * u64 * s)) by (apply Rmult_le_compat_l; lra).
      assert (u64 * u64 * t <= u64 / 1000000000000 * t) by (apply Rmult_le_compat_r; lra).
      pose proof (Rmult_le_pos u64 t ltac:(lra) ltac:(lra)). unfold t in *. lra. }
    pose proof (Rmult_le_pos u64 t ltac:(lra) ltac:(lra)) as UT.
    assert (L0 : 0 <= lu_error 2 (e + 1)).
    { unfold lu_error, row_bound. apply Rplus_le_le_0_compat; apply Rmult_le_pos.
      - change (2 + 1)%nat with 3%nat. nra.
      - apply Rmult_le_pos; [apply pos_INR|]. apply powerRZ_le. lra.
      - apply Rmult_le_pos; [|apply pow_le; lra]. apply Rplus_le_le_0_compat; [apply pos_INR|apply Rabs_pos].
      - pose proof eta64_pos. lra. }
    destruct Fd as [(E & HE & HD)|(-> & E & c & Hc & HE & HD)].
    + specialize (HD F). pose proof (MV E _ ltac:(split; [exact L0|lra]) HE) as M. set (D := det 2 (perturbed (edge p) E) : R) in *.
      assert (RD : det_rounding 2 (e + 1) D <= 18 * u64 * t).
      { unfold det_rounding. set (B := powerRZ 2 (e + 1 + Z.of_nat 2)).
        assert (EB : B = 8 * s). { unfold B. replace (e + 1 + Z.of_nat 2)%Z with (3 + e)%Z by lia. rewrite powerRZ_add by lra. fold s. simpl. ring. }
        rewrite EB, Rmax_right by lra. assert (BD : Rabs D <= 8.01 * t).
        { replace D with ((D - m) + (m - exact_area2 p) + exact_area2 p) by ring.
          eapply Rle_trans; [apply abs_add; [apply abs_add|]; eassumption|].
          assert (u64 * t <= / 1000000000000 * t) by (apply Rmult_le_compat_r; lra). lra. }
        assert (X : ((1 + u64) ^ 2 - 1) * Rabs D <= 2.001 * u64 * (8.01 * t)).
        { apply Rmult_le_compat; [|apply Rabs_pos| |exact BD]; replace ((1 + u64) ^ 2 - 1) with (2 * u64 + u64 * u64) by ring; nra. }
        assert (Y : INR 2 * (1 + u64) ^ 2 * eta64 * (8 * s) ^ 2 <= u64).
        { change (INR 2) with 2. replace (2 * (1 + u64) ^ 2 * eta64 * (8 * s) ^ 2) with (128 * (1 + u64) ^ 2 * (eta64 * t)) by (unfold t; ring).
          pose proof eta_t as Et. apply Rle_trans with (256 * (u64 / 1000000)); [|lra]. apply Rmult_le_compat; [nra| |nra|exact Et].
          apply Rmult_le_pos; [pose proof eta64_pos; lra|lra]. }
        assert (u64 <= u64 * t) by nra. lra. }
      replace (real d - exact_area2 p) with ((real d - D) + (D - m) + (m - exact_area2 p)) by ring.
      eapply Rle_trans; [apply abs_add; [apply abs_add|]; [eapply Rle_trans; [exact HD|exact RD]|exact M|exact RA]|]. lra.
    + assert (P52 : powerRZ 2 (-52) = 2 * u64) by (unfold u64; simpl; lra).
      assert (US : u64 <= u64 * s) by nra.
      pose proof (MV E (lu_error 2 (e + 1) + 2 * u64) ltac:(split; lra) ltac:(intros i j Hi Hj; eapply Rle_trans; [now apply HE|]; destruct (j =? c)%nat; lra)) as M.
      rewrite HD in M. rewrite real_zero. change (n0 : NumR) with 0 in M.
      replace (0 - exact_area2 p) with ((0 - m) + (m - exact_area2 p)) by ring.
      eapply Rle_trans; [apply abs_add; [exact M|exact RA]|]. lra.
Qed.
End Tri.

(** ** The accessors after prepare() *)
Lemma opp_step (x : NumF64) : good x -> good (- x)%num /\ real (- x)%num = - real x.
Proof. intros (D & F). destruct (real_opp x D F) as (A & B & C). repeat split; auto. Qed.
Section Local.
Variables (p : nat -> nat -> NumF64) (e : Z) (d : NumF64).
Hypothesis Hp : coordinates e p.
Let s : R := powerRZ 2 e.
Let t := s * s.
Hypothesis Hd : good d /\ Rabs (real d - exact_area2 p) <= 450 * u64 * t.
Let A := exact_area2 p.
Let D := real d.
Lemma S1 : 1 <= s. Proof. exact (s1 p e Hp). Qed.
Lemma T1 : 1 <= t. Proof. exact (t1 p e Hp). Qed.
Lemma T_top : t <= bpow radix2 800.
Proof.
  change 800%Z with (400 + 400)%Z. rewrite bpow_plus. pose proof (s_big p e Hp 400 ltac:(lia)) as H. fold s in H. pose proof S1.
  apply Rmult_le_compat; lra.
Qed.
Lemma UT : 0 < u64 <= u64 * t. Proof. pose proof u64_pos. pose proof T1. split; [lra|]. nra. Qed.
Lemma UT_small : u64 * t <= t / 1000000000000. Proof. pose proof tiny_u. pose proof T1. nra. Qed.
Lemma D_size : Rabs D <= 9 * t.
Proof.
  pose proof (area_size p e Hp) as B. fold s t A in B. destruct Hd as (_ & E). fold D A in E.
  replace D with ((D - A) + A) by ring. eapply Rle_trans; [apply abs_add; eassumption|]. pose proof UT_small. pose proof T1. lra.
Qed.
Lemma volume_near : returns (@sx_volume NumF64 (prepd p d)) (fun v => finite v /\ Rabs (real v - Rabs A / 2) <= 250 * u64 * t).
Proof.
  unfold sx_volume. cbn [sx_prep prepd assert_ bind sx_det]. eexists. split; [reflexivity|].
  assert (GI : good (@inv_fact NumF64)) by (split; vm_compute; [reflexivity|exact I]).
  assert (RI : real (@inv_fact NumF64) = / 2).
  { replace (@inv_fact NumF64) with (SpecFloat.S754_finite false 4503599627370496 (-53) : NumF64) by (vm_compute; reflexivity). unfold real. simpl. lra. }
  pose proof D_size as DS. pose proof T_top as TT. pose proof UT as U. pose proof UT_small as US. pose proof T1 as T1.
  destruct Hd as (Gd & ED). fold D A in ED.
  destruct (mul_step inv_fact d 804 GI Gd ltac:(lia)) as ((Dm & Fm) & d1 & h1 & H1 & H2 & E).
  { fold D. rewrite RI, Rabs_mult, (Rabs_pos_eq (/ 2)) by lra. change 804%Z with (4 + 800)%Z. rewrite bpow_plus. change (bpow radix2 4) with 16. lra. }
  destruct (nabs_real (inv_fact * d)%num) as (Ra & Fa & Da). split; [now apply Fa|]. rewrite Ra, E, RI. fold D.
  replace (Rabs A / 2) with (Rabs (A / 2)) by (unfold Rdiv; rewrite Rabs_mult, (Rabs_pos_eq (/ 2)) by lra; reflexivity).
  eapply Rle_trans; [apply Rabs_triang_inv2|]. assert (IH : Rabs (/ 2) <= / 2) by (rewrite Rabs_pos_eq; lra).
  replace (/ 2 * D * (1 + d1) + h1 - A / 2) with ((D - A) * / 2 + (D * d1) * / 2 + h1) by field.
  assert (Et : eta64 <= u64 * t). { pose proof (eta_t p e Hp) as Q. fold s t in Q. pose proof eta64_pos. assert (eta64 * 1 <= eta64 * t) by (apply Rmult_le_compat_l; lra). lra. }
  eapply Rle_trans; [apply abs_add; [apply abs_add|exact H2]; apply abs_mul; [exact ED|exact IH|apply abs_mul; [exact DS|exact H1]|exact IH]|].
  assert (9 * t * u64 = 9 * (u64 * t)) by ring. lra.
Qed.
Hypothesis HA : 1000 * u64 * t <= Rabs A.
Lemma D_low : 550 * u64 <= Rabs D.
Proof.
  destruct Hd as (_ & E). fold D A in E. pose proof UT. pose proof (Rabs_triang_inv A D) as H0. rewrite Rabs_minus_sym in H0. lra.
Qed.
Lemma eta_D : eta64 * Rabs D <= u64 / 100000.
Proof.
  pose proof (eta_t p e Hp) as Q. fold s t in Q. pose proof eta64_pos. pose proof D_size.
  assert (eta64 * Rabs D <= eta64 * (9 * t)) by (apply Rmult_le_compat_l; lra). pose proof UT. lra.
Qed.
Let rho : NumF64 := (n1 / d)%num.
Lemma rho_near : good rho /\ Rabs (real rho) <= bpow radix2 53 /\ exists x, Rabs x <= 1.1 * u64 /\ real rho * D = 1 + x.
Proof.
  pose proof D_low as DL. pose proof UT as U. pose proof D_size as DS. assert (N0 : D <> 0) by (intros Z0; rewrite Z0, Rabs_R0 in DL; lra).
  assert (P : 0 < Rabs D) by lra. assert (U53 : bpow radix2 53 * u64 = 1) by (unfold u64; simpl; lra).
  assert (I1 : Rabs (/ D) <= bpow radix2 53 / 550).
  { rewrite Rabs_inv. apply Rle_trans with (/ (550 * u64)); [apply Rinv_le; lra|].
    rewrite Rinv_mult. replace (/ u64) with (bpow radix2 53); [lra|]. apply Rmult_eq_reg_r with u64; [|lra]. rewrite U53. field. lra. }
  assert (G1 : good n1) by (split; [reflexivity|exact I]).
  destruct (div_step n1 d 53 G1 (proj1 Hd) ltac:(lia) N0) as (G & d1 & h1 & H1 & H2 & E); rewrite ?real_n1 in *.
  { fold D. unfold Rdiv. rewrite Rmult_1_l. pose proof (bpow_gt_0 radix2 53). lra. }
  fold rho D in G, E. split; [exact G|].
  assert (Er : real rho * D = 1 + (d1 + h1 * D)) by (rewrite E; field; exact N0).
  assert (Bx : Rabs (d1 + h1 * D) <= 1.1 * u64).
  { pose proof eta_D as ED. eapply Rle_trans; [apply abs_add; [exact H1|apply abs_mul; [exact H2|apply Rle_refl]]|]. lra. }
  split; [|exists (d1 + h1 * D); auto].
  replace (real rho) with (/ D * (1 + (d1 + h1 * D))) by (rewrite <- Er; field; exact N0).
  eapply Rle_trans; [apply abs_mul; [exact I1|apply abs_add; [rewrite Rabs_R1; apply Rle_refl|exact Bx]]|].
  pose proof (bpow_gt_0 radix2 53). pose proof tiny_u. nra.
Qed.
(** One product of a local coordinate: entry of the adjugate times the reciprocal determinant times a difference. *)
Lemma term_near (m g : NumF64) M G : good m -> good g -> Rabs (real m) <= 2 * s -> Rabs (real g) <= 2 * s -> Rabs M <= 2 * s -> Rabs G <= 2 * s ->
  Rabs (real m - M) <= 2 * u64 * s -> Rabs (real g - G) <= 2 * u64 * s ->
  good (m * rho * g)%num /\ Rabs (real (m * rho * g)%num) <= bpow radix2 900 /\ Rabs (real (m * rho * g)%num * D - M * G) <= 21 * u64 * t.
Proof.
  intros Gm Gg Bm Bg BM BG Em Eg. destruct rho_near as (Gr & Br & x & Hx & Ex). pose proof tiny_u as TU. pose proof UT as U. pose proof UT_small as US.
  pose proof S1 as S1. pose proof T1 as T1. pose proof eta_D as ED. pose proof eta64_pos as EP.
  pose proof (s_big p e Hp 400 ltac:(lia)) as SB. fold s in SB.
  assert (EU : eta64 <= u64) by (unfold eta64; unfold u64; change 2 with (IZR radix2); rewrite <- !bpow_powerRZ; apply bpow_le; lia).
  destruct (mul_step m rho 460 Gm Gr ltac:(lia)) as (Ga & d1 & h1 & H1 & H2 & E1).
  { eapply Rle_trans; [apply abs_mul; eassumption|]. change 460%Z with (7 + 400 + 53)%Z. rewrite !bpow_plus. change (bpow radix2 7) with 128.
    apply Rmult_le_compat_r; [apply bpow_ge_0|]. lra. }
  assert (Ba : Rabs (real (m * rho)%num) <= bpow radix2 461).
  { rewrite E1. apply Rle_trans with (2 * s * bpow radix2 53 * 2 + 1).
    - apply abs_add; [|lra]. apply abs_mul; [now apply abs_mul|]. eapply Rle_trans; [apply abs_add; [rewrite Rabs_R1; apply Rle_refl|exact H1]|]. lra.
    - change 461%Z with (8 + 400 + 53)%Z. rewrite !bpow_plus. change (bpow radix2 8) with 256. pose proof (bpow_ge_0 radix2 53).
      assert (1 <= bpow radix2 53) by (change 1 with (bpow radix2 0); apply bpow_le; lia). nra. }
  assert (Ea : Rabs (real (m * rho)%num * D - real m) <= 4.3 * u64 * s).
  { rewrite E1. replace ((real m * real rho * (1 + d1) + h1) * D - real m) with (real m * ((real rho * D) * (1 + d1) - 1) + h1 * D) by ring.
    rewrite Ex. replace ((1 + x) * (1 + d1) - 1) with (x + d1 + x * d1) by ring.
    eapply Rle_trans; [apply abs_add; [apply abs_mul; [exact Bm|apply abs_add; [apply abs_add; [exact Hx|exact H1]|apply abs_mul; [exact Hx|exact H1]]]|apply abs_mul; [exact H2|apply Rle_refl]]|].
    assert (u64 * u64 <= u64 / 1000000000000) by (unfold Rdiv; apply Rmult_le_compat_l; lra).
    assert (2 * s * (1.1 * u64 + u64 + 1.1 * u64 * u64) <= 2 * s * (2.11 * u64)) by (apply Rmult_le_compat_l; lra).
    assert (u64 <= u64 * s) by nra. lra. }
  destruct (mul_step (m * rho)%num g 870 Ga Gg ltac:(lia)) as (Gb & d2 & h2 & H3 & H4 & E2).
  { eapply Rle_trans; [apply abs_mul; [exact Ba|exact Bg]|]. change 870%Z with (461 + (9 + 400))%Z. rewrite !bpow_plus. change (bpow radix2 9) with 512.
    apply Rmult_le_compat_l; [apply bpow_ge_0|]. lra. }
  split; [exact Gb|].
  set (a := real (m * rho)%num) in *. assert (Bg' : Rabs (a * real g) <= bpow radix2 461 * bpow radix2 401).
  { apply abs_mul; [exact Ba|]. change 401%Z with (1 + 400)%Z. rewrite bpow_plus. change (bpow radix2 1) with 2. lra. }
  split.
  - rewrite E2. apply Rle_trans with (bpow radix2 461 * bpow radix2 401 * 2 + 1).
    + apply abs_add; [|lra]. apply abs_mul; [exact Bg'|]. eapply Rle_trans; [apply abs_add; [rewrite Rabs_R1; apply Rle_refl|exact H3]|]. lra.
    + rewrite <- bpow_plus. change 900%Z with (38 + (461 + 401))%Z. rewrite (bpow_plus radix2 38). set (q := bpow radix2 (461 + 401)).
      assert (1 <= q) by (unfold q; change 1 with (bpow radix2 0); apply bpow_le; lia). change (bpow radix2 38) with 274877906944. lra.
  - rewrite E2. replace ((a * real g * (1 + d2) + h2) * D - M * G) with
      ((a * D - real m) * real g + (real m - M) * real g + M * (real g - G) + (((a * D - real m) + real m) * real g) * d2 + h2 * D) by ring.
    eapply Rle_trans.
    { apply abs_add; [apply abs_add; [apply abs_add; [apply abs_add|]|]|].
      - apply abs_mul; [exact Ea|exact Bg].
      - apply abs_mul; [exact Em|exact Bg].
      - apply abs_mul; [exact BM|exact Eg].
      - apply abs_mul; [apply abs_mul; [apply abs_add; [exact Ea|exact Bm]|exact Bg]|exact H3].
      - apply abs_mul; [exact H4|apply Rle_refl]. }
    assert (X : (4.3 * u64 * s + 2 * s) * (2 * s) * u64 <= 4.1 * (u64 * t)).
    { unfold t. replace ((4.3 * u64 * s + 2 * s) * (2 * s) * u64) with ((4.3 * u64 + 2) * 2 * (u64 * (s * s))) by ring.
      apply Rmult_le_compat_r; [unfold t in U; lra|]. lra. }
    unfold t in *. lra.
Qed.
Lemma coord_near (m1 g1 m2 g2 : NumF64) M1 G1 M2 G2 l : good m1 -> good g1 -> good m2 -> good g2 ->
  Rabs (real m1) <= 2 * s -> Rabs (real g1) <= 2 * s -> Rabs M1 <= 2 * s -> Rabs G1 <= 2 * s -> Rabs (real m1 - M1) <= 2 * u64 * s -> Rabs (real g1 - G1) <= 2 * u64 * s ->
  Rabs (real m2) <= 2 * s -> Rabs (real g2) <= 2 * s -> Rabs M2 <= 2 * s -> Rabs G2 <= 2 * s -> Rabs (real m2 - M2) <= 2 * u64 * s -> Rabs (real g2 - G2) <= 2 * u64 * s ->
  M1 * G1 + M2 * G2 = A * l ->
  good (Num.n0 + m1 * rho * g1 + m2 * rho * g2)%num /\ Rabs A * Rabs (real (Num.n0 + m1 * rho * g1 + m2 * rho * g2)%num - l) <= 1000 * u64 * t * (1 + Rabs l).
Proof.
  intros Gm1 Gg1 Gm2 Gg2 B1 B2 B3 B4 B5 B6 C1 C2 C3 C4 C5 C6 EL.
  destruct (term_near m1 g1 M1 G1) as (K1 & T & V1); auto. destruct (term_near m2 g2 M2 G2) as (K2 & T' & V2); auto.
  pose proof (abs_mul _ _ _ _ B3 B4) as P1. pose proof (abs_mul _ _ _ _ C3 C4) as P2. clear B1 B2 B3 B4 B5 B6 C1 C2 C3 C4 C5 C6 Gm1 Gg1 Gm2 Gg2.
  set (b1 := (m1 * rho * g1)%num) in *. set (b2 := (m2 * rho * g2)%num) in *. clearbody b1 b2.
  destruct (zero_step b1 K1) as (K0 & Z0).
  destruct (add_step (Num.n0 + b1)%num b2 901 K0 K2 ltac:(lia)) as (GL & x & Hx & E).
  { rewrite Z0. eapply Rle_trans; [now apply abs_add; eassumption|]. change 901%Z with (1 + 900)%Z. rewrite (bpow_plus radix2 1). change (bpow radix2 1) with 2. lra. }
  split; [exact GL|]. rewrite Z0 in E. set (L := real (Num.n0 + b1 + b2)%num) in *.
  pose proof tiny_u as TU. pose proof UT as U. pose proof UT_small as US. pose proof S1 as S1. pose proof T1 as T1.
  assert (W : Rabs (L * D - A * l) <= 51 * u64 * t).
  { rewrite <- EL, E. replace ((real b1 + real b2) * (1 + x) * D - (M1 * G1 + M2 * G2)) with
      ((real b1 * D - M1 * G1) + (real b2 * D - M2 * G2) + (((real b1 * D - M1 * G1) + M1 * G1) + ((real b2 * D - M2 * G2) + M2 * G2)) * x) by ring.
    eapply Rle_trans; [apply abs_add; [apply abs_add; eassumption|apply abs_mul; [apply abs_add; apply abs_add; eassumption|exact Hx]]|].
    assert ((21 * u64 * t + 2 * s * (2 * s) + (21 * u64 * t + 2 * s * (2 * s))) * u64 <= (8.1 * t) * u64) by (apply Rmult_le_compat_r; [lra|unfold t in *; lra]). lra. }
  destruct Hd as (_ & ED). fold D A in ED.
  assert (X : Rabs A * Rabs (L - l) <= 450 * u64 * t * (Rabs l + Rabs (L - l)) + 51 * u64 * t).
  { rewrite <- Rabs_mult. replace (A * (L - l)) with (- (D - A) * (l + (L - l)) + (L * D - A * l)) by ring.
    apply abs_add; [|exact W]. apply abs_mul; [rewrite Rabs_Ropp; exact ED|apply Rabs_triang]. }
  assert (Y : 1000 * u64 * t * Rabs (L - l) <= Rabs A * Rabs (L - l)) by (apply Rmult_le_compat_r; [apply Rabs_pos|exact HA]).
  pose proof (Rmult_le_pos (u64 * t) (Rabs l) ltac:(lra) (Rabs_pos l)). pose proof (Rmult_le_pos (u64 * t) (Rabs (L - l)) ltac:(lra) (Rabs_pos _)). lra.
Qed.
Lemma edge_all i j : (i < 2)%nat -> (j < 2)%nat -> good (edge p i j) /\ Rabs (real (edge p i j)) <= 2 * s /\ Rabs (diff p i j) <= 2 * s /\
  Rabs (real (edge p i j) - diff p i j) <= 2 * u64 * s.
Proof.
  intros Hi Hj. destruct (edge_near p e Hp i j Hi Hj) as (D1 & F1 & (x & Hx & E) & B). fold s in B.
  pose proof (edge_top p e Hp i j Hi Hj) as T. rewrite bpow_plus in T. change (bpow radix2 1) with 2 in T. rewrite (bpow_powerRZ radix2) in T. change (IZR radix2) with 2 in T. fold s in T.
  repeat split; auto; [lra|]. rewrite E. replace (diff p i j * (1 + x) - diff p i j) with (diff p i j * x) by ring.
  eapply Rle_trans; [apply abs_mul; [exact B|exact Hx]|]. lra.
Qed.
Lemma point_all (x : NumF64) k : (k < 2)%nat -> good x -> Rabs (real x) <= s -> good (x - p O k)%num /\ Rabs (real (x - p O k)%num) <= 2 * s /\
  Rabs (real x - real (p O k)) <= 2 * s /\ Rabs (real (x - p O k)%num - (real x - real (p O k))) <= 2 * u64 * s.
Proof.
  intros Hk (Dx & Fx) Bx. destruct (proj2 Hp O k ltac:(lia) Hk) as (D0 & F0 & B0). fold s in B0.
  destruct (sub_near p e Hp x (p O k) Dx Fx D0 F0 Bx B0) as (Ds & Fs & y & Hy & E & B). fold s in B. split; [split; auto|]. split.
  - rewrite (sub_real _ _ Dx D0 Fs). change (2 * s) with (bpow radix2 1 * powerRZ 2 e). change 2 with (IZR radix2) at 1. rewrite <- (bpow_powerRZ radix2), <- bpow_plus. apply rnd_le_bpow; [pose proof (proj1 Hp); lia|].
    rewrite bpow_plus, (bpow_powerRZ radix2 e). exact B.
  - split; [exact B|]. rewrite E. replace ((real x - real (p O k)) * (1 + y) - (real x - real (p O k))) with ((real x - real (p O k)) * y) by ring.
    eapply Rle_trans; [apply abs_mul; [exact B|exact Hy]|]. lra.
Qed.
Lemma local_near (x y : NumF64) l1 l2 : good x -> good y -> Rabs (real x) <= s -> Rabs (real y) <= s ->
  real x = exact_point p l1 l2 0 -> real y = exact_point p l1 l2 1 ->
  exists a b, @sx_toLocal NumF64 (prepd p d) [x; y] = Ok [a; b] /\ finite a /\ finite b /\
    Rabs A * Rabs (real a - l1) <= 1000 * u64 * t * (1 + Rabs l1) /\ Rabs A * Rabs (real b - l2) <= 1000 * u64 * t * (1 + Rabs l2).
Proof.
  intros Gx Gy Bx By Ex Ey. rewrite local_of. do 2 eexists. split; [reflexivity|].
  destruct (edge_all 1 1 ltac:(lia) ltac:(lia)) as (M1 & M2 & M3 & M4). destruct (edge_all 0 1 ltac:(lia) ltac:(lia)) as (N1 & N2 & N3 & N4).
  destruct (edge_all 1 0 ltac:(lia) ltac:(lia)) as (O1 & O2 & O3 & O4). destruct (edge_all 0 0 ltac:(lia) ltac:(lia)) as (Q1 & Q2 & Q3 & Q4).
  destruct (point_all x 0 ltac:(lia) Gx Bx) as (X1 & X2 & X3 & X4). destruct (point_all y 1 ltac:(lia) Gy By) as (Y1 & Y2 & Y3 & Y4).
  change (p 2%nat 1%nat - p 0%nat 1%nat)%num with (edge p 1 1). change (p 2%nat 0%nat - p 0%nat 0%nat)%num with (edge p 0 1).
  change (p 1%nat 1%nat - p 0%nat 1%nat)%num with (edge p 1 0). change (p 1%nat 0%nat - p 0%nat 0%nat)%num with (edge p 0 0). fold rho.
  destruct (opp_step _ N1) as (N1' & EN). destruct (opp_step _ O1) as (O1' & EO).
  assert (NN : Rabs (- real (edge p 0 1) - - diff p 0 1) <= 2 * u64 * s) by (replace (- real (edge p 0 1) - - diff p 0 1) with (- (real (edge p 0 1) - diff p 0 1)) by ring; now rewrite Rabs_Ropp).
  assert (OO : Rabs (- real (edge p 1 0) - - diff p 1 0) <= 2 * u64 * s) by (replace (- real (edge p 1 0) - - diff p 1 0) with (- (real (edge p 1 0) - diff p 1 0)) by ring; now rewrite Rabs_Ropp).
  destruct (coord_near (edge p 1 1) (x - p O O)%num (- edge p 0 1)%num (y - p O 1%nat)%num (diff p 1 1) (real x - real (p O O)) (- diff p 0 1) (real y - real (p O 1%nat)) l1) as ((_ & R1) & R2);
    rewrite ?EN, ?Rabs_Ropp; auto.
  { rewrite Ex, Ey. unfold A, exact_area2, exact_point, diff. ring. }
  destruct (coord_near (- edge p 1 0)%num (x - p O O)%num (edge p 0 0) (y - p O 1%nat)%num (- diff p 1 0) (real x - real (p O O)) (diff p 0 0) (real y - real (p O 1%nat)) l2) as ((_ & R3) & R4);
    rewrite ?EO, ?Rabs_Ropp; auto.
  rewrite Ex, Ey. unfold A, exact_area2, exact_point, diff. ring.
Qed.
End Local.
Section Global.
Variables (p : nat -> nat -> NumF64) (e : Z) (d : NumF64) (c : R).
Hypothesis Hp : coordinates e p.
Hypothesis Hc : 1 <= c <= powerRZ 2 400.
Let s : R := powerRZ 2 e.
Lemma eta_s1 : eta64 <= u64 / 1000000 * s.
Proof.
  pose proof (eta_s 1 ltac:(rewrite <- (powerRZ_O 2); rewrite <- !(bpow_powerRZ radix2); apply bpow_le; lia) ltac:(lra)) as H.
  pose proof (s1 p e Hp) as S. fold s in S. pose proof u64_pos. assert (u64 / 1000000 * 1 <= u64 / 1000000 * s) by (apply Rmult_le_compat_l; lra). lra.
Qed.
Lemma global_coord (i : nat) (x y : NumF64) : (i < 2)%nat -> good x -> good y -> Rabs (real x) <= c -> Rabs (real y) <= c ->
  good (Num.n0 + edge p i 0 * x + edge p i 1 * y + p O i)%num /\
  Rabs (real (Num.n0 + edge p i 0 * x + edge p i 1 * y + p O i)%num - exact_point p (real x) (real y) i) <= 20 * u64 * s * c.
Proof.
  intros Hi Gx Gy Bx By. destruct (edge_all p e Hp i 0 Hi ltac:(lia)) as (G0 & B0 & C0 & D0). destruct (edge_all p e Hp i 1 Hi ltac:(lia)) as (G1 & B1 & C1 & D1).
  destruct (proj2 Hp O i ltac:(lia) Hi) as (Dp & Fp & Bp). fold s in B0, B1, C0, C1, D0, D1, Bp. pose proof (conj Dp Fp : good (p O i)) as Gp.
  pose proof tiny_u as TU. pose proof u64_pos as UP. pose proof (s1 p e Hp) as S1. fold s in S1. pose proof eta_s1 as ES. pose proof eta64_pos as EP.
  pose proof (s_big p e Hp 400 ltac:(lia)) as SB. fold s in SB. assert (SC : s <= s * c) by nra. assert (P : 0 <= s * c) by lra.
  assert (CB : s * c <= bpow radix2 800).
  { change 800%Z with (400 + 400)%Z. rewrite bpow_plus. apply Rmult_le_compat; [lra|lra|exact SB|]. rewrite (bpow_powerRZ radix2). apply Hc. }
  assert (UC : 0 < u64 * (s * c)) by (apply Rmult_lt_0_compat; lra).
  assert (US : u64 * (s * c) <= s * c / 1000000000000) by (unfold Rdiv; rewrite Rmult_comm; apply Rmult_le_compat_l; lra).
  assert (EC : eta64 <= u64 * (s * c) / 1000000). { eapply Rle_trans; [exact ES|]. assert (u64 * s <= u64 * (s * c)) by (apply Rmult_le_compat_l; lra). lra. }
  assert (K : forall (m v : NumF64) M, good m -> good v -> Rabs (real m) <= 2 * s -> Rabs M <= 2 * s -> Rabs (real m - M) <= 2 * u64 * s -> Rabs (real v) <= c ->
    good (m * v)%num /\ Rabs (real (m * v)%num - M * real v) <= 4.1 * (u64 * (s * c)) /\ Rabs (M * real v) <= 2 * (s * c)).
  { intros m v M Gm Gv Bm BM Em Bv. destruct (mul_step m v 801 Gm Gv ltac:(lia)) as (G & d1 & h1 & H1 & H2 & E).
    { eapply Rle_trans; [now apply abs_mul; eassumption|]. change 801%Z with (1 + 800)%Z. rewrite (bpow_plus radix2 1). change (bpow radix2 1) with 2. lra. }
    split; [exact G|]. split; [|eapply Rle_trans; [now apply abs_mul; eassumption|]; lra].
    rewrite E. replace (real m * real v * (1 + d1) + h1 - M * real v) with ((real m - M) * real v + real m * real v * d1 + h1) by ring.
    eapply Rle_trans; [apply abs_add; [apply abs_add; [now apply abs_mul; eassumption|apply abs_mul; [now apply abs_mul; eassumption|exact H1]]|exact H2]|]. lra. }
  destruct (K _ x _ G0 Gx B0 C0 D0 Bx) as (Ga & Ea & Ma). destruct (K _ y _ G1 Gy B1 C1 D1 By) as (Gb & Eb & Mb). clear K.
  set (a := (edge p i 0 * x)%num) in *. set (b := (edge p i 1 * y)%num) in *. set (X := diff p i 0 * real x) in *. set (Y := diff p i 1 * real y) in *.
  assert (XY : exact_point p (real x) (real y) i = X + Y + real (p O i)) by (unfold X, Y, exact_point, diff; ring).
  rewrite XY. clear XY. clearbody a b X Y. destruct (zero_step a Ga) as (K0 & Z0).
  assert (Ba : Rabs (real a) <= 2.1 * (s * c)) by (replace (real a) with ((real a - X) + X) by ring; eapply Rle_trans; [apply abs_add; eassumption|]; lra).
  assert (Bb : Rabs (real b) <= 2.1 * (s * c)) by (replace (real b) with ((real b - Y) + Y) by ring; eapply Rle_trans; [apply abs_add; eassumption|]; lra).
  destruct (add_step (Num.n0 + a)%num b 803 K0 Gb ltac:(lia)) as (K1 & d1 & H1 & E1).
  { rewrite Z0. eapply Rle_trans; [apply abs_add; eassumption|]. change 803%Z with (3 + 800)%Z. rewrite (bpow_plus radix2 3). change (bpow radix2 3) with 8. lra. }
  rewrite Z0 in E1. set (q := (Num.n0 + a + b)%num) in *.
  assert (Eq : Rabs (real q - (X + Y)) <= 12.5 * (u64 * (s * c))).
  { rewrite E1. replace ((real a + real b) * (1 + d1) - (X + Y)) with ((real a - X) + (real b - Y) + (real a + real b) * d1) by ring.
    eapply Rle_trans; [apply abs_add; [apply abs_add; eassumption|apply abs_mul; [apply abs_add; eassumption|exact H1]]|]. lra. }
  assert (Bq : Rabs (real q) <= 4.1 * (s * c)).
  { replace (real q) with ((real q - (X + Y)) + (X + Y)) by ring. eapply Rle_trans; [apply abs_add; [exact Eq|apply abs_add; eassumption]|]. lra. }
  clearbody q. destruct (add_step q (p O i) 803 K1 Gp ltac:(lia)) as (K2 & d2 & H2 & E2).
  { eapply Rle_trans; [apply abs_add; eassumption|]. change 803%Z with (3 + 800)%Z. rewrite (bpow_plus radix2 3). change (bpow radix2 3) with 8. lra. }
  split; [exact K2|]. rewrite E2. replace ((real q + real (p O i)) * (1 + d2) - (X + Y + real (p O i))) with ((real q - (X + Y)) + (real q + real (p O i)) * d2) by ring.
  eapply Rle_trans; [apply abs_add; [exact Eq|apply abs_mul; [apply abs_add; eassumption|exact H2]]|].
  assert ((4.1 * (s * c) + s) * u64 <= 5.1 * (s * c) * u64) by (apply Rmult_le_compat_r; lra). lra.
Qed.
Lemma global_near (x y : NumF64) : good x -> good y -> Rabs (real x) <= c -> Rabs (real y) <= c ->
  exists a b, @sx_toGlobal NumF64 (prepd p d) [x; y] = Ok [a; b] /\ finite a /\ finite b /\
    Rabs (real a - exact_point p (real x) (real y) 0) <= 20 * u64 * s * c /\ Rabs (real b - exact_point p (real x) (real y) 1) <= 20 * u64 * s * c.
Proof.
  intros Gx Gy Bx By. rewrite global_of. do 2 eexists. split; [reflexivity|].
  destruct (global_coord 0 x y ltac:(lia) Gx Gy Bx By) as ((_ & F0) & E0). destruct (global_coord 1 x y ltac:(lia) Gx Gy Bx By) as ((_ & F1) & E1). auto.
Qed.
End Global.
(** prepare() on every object. *)
Lemma prepare_float (o : simplex NumF64) p e : corners o p -> coordinates e p ->
  returns (sx_prepare o) (fun o' => corners o' p /\ exists d, near_area p e d /\ o' = prepd p d).
Proof.
  intros Hc Hp. destruct (corners_tri_any o p Hc) as (Hs & Hv). destruct (det_near p e Hp) as (d & Ed & Hd).
  pose proof (prepare_eq o p Hs Hv) as E. rewrite Ed in E. cbn [bind] in E. exists (prepd p d). split; [exact E|]. split.
  - split; [eapply sm_prepare; [apply Hc|exact E]|]. intros i Hi. destruct i as [|[|[|i]]]; try lia; reflexivity.
  - exists d. auto.
Qed.
Lemma coordinates_up p e : coordinates e p -> (e < 400)%Z -> coordinates (e + 1) p.
Proof.
  intros (H & H') L. split; [lia|]. intros i k Hi Hk. destruct (H' i k Hi Hk) as (A & B & C). repeat split; auto.
  rewrite powerRZ_add by lra. change (powerRZ 2 1) with (2 * 1). pose proof (Rabs_pos (real (p i k))). lra.
Qed.
Lemma roundtrip_near (p : nat -> nat -> NumF64) e d (x y : NumF64) : coordinates e p -> (e < 400)%Z -> near_area p e d -> 4000 * area_unit e <= Rabs (exact_area2 p) ->
  good x -> good y -> 0 <= real x -> 0 <= real y -> real x + real y <= 1 ->
  returns (@sx_toGlobal NumF64 (prepd p d) [x; y]) (fun g => exists a b, sx_toLocal (prepd p d) g = Ok [a; b] /\ finite a /\ finite b /\
    Rabs (exact_area2 p) * Rabs (real a - real x) <= 10000 * area_unit e /\ Rabs (exact_area2 p) * Rabs (real b - real y) <= 10000 * area_unit e).
Proof.
  intros Hp L (Gd & Hd) HA Gx Gy Px Py Pxy. pose proof (coordinates_up p e Hp L) as Hp1. set (s := powerRZ 2 e) in *. unfold area_unit in *. fold s in HA |- *.
  assert (C1 : 1 <= 1 <= powerRZ 2 400) by (split; [lra|]; rewrite <- (bpow_powerRZ radix2); change 1 with (bpow radix2 0); apply bpow_le; lia).
  assert (S' : powerRZ 2 (e + 1) = 2 * s) by (rewrite powerRZ_add by lra; fold s; simpl; ring).
  pose proof (s1 p e Hp) as S1. fold s in S1. pose proof tiny_u as TU. pose proof u64_pos as UP.
  assert (US : u64 * s <= s / 1000000000000) by (unfold Rdiv; rewrite Rmult_comm; apply Rmult_le_compat_l; lra). assert (UP2 : 0 < u64 * s) by (apply Rmult_lt_0_compat; lra).
  assert (PT : forall k, (k < 2)%nat -> Rabs (exact_point p (real x) (real y) k) <= s).
  { intros k Hk. destruct Hp as (_ & H). destruct (H 0%nat k ltac:(lia) Hk) as (_ & _ & B0). destruct (H 1%nat k ltac:(lia) Hk) as (_ & _ & B1). destruct (H 2%nat k ltac:(lia) Hk) as (_ & _ & B2).
    fold s in B0, B1, B2. unfold exact_point. apply Rle_trans with ((1 - real x - real y) * s + real x * s + real y * s); [|lra].
    apply abs_add; [apply abs_add|]; apply abs_mul; auto; rewrite Rabs_pos_eq; lra. }
  destruct (global_near p e d 1 Hp C1 x y Gx Gy) as (g0 & g1 & Eg & F0 & F1 & R0 & R1); try (rewrite Rabs_pos_eq; lra). fold s in R0, R1.
  exists [g0; g1]. split; [exact Eg|].
  assert (DD : double g0 /\ double g1).
  { rewrite global_of in Eg. injection Eg as <- <-. change (p 1%nat 0%nat - p 0%nat 0%nat)%num with (edge p 0 0). change (p 2%nat 0%nat - p 0%nat 0%nat)%num with (edge p 0 1).
    change (p 1%nat 1%nat - p 0%nat 1%nat)%num with (edge p 1 0). change (p 2%nat 1%nat - p 0%nat 1%nat)%num with (edge p 1 1).
    destruct (global_coord p e 1 Hp C1 0 x y ltac:(lia) Gx Gy) as ((A & _) & _); try (rewrite Rabs_pos_eq; lra).
    destruct (global_coord p e 1 Hp C1 1 x y ltac:(lia) Gx Gy) as ((B & _) & _); try (rewrite Rabs_pos_eq; lra). auto. }
  assert (B0 : Rabs (real g0) <= powerRZ 2 (e + 1)).
  { rewrite S'. replace (real g0) with ((real g0 - exact_point p (real x) (real y) 0) + exact_point p (real x) (real y) 0) by ring.
    eapply Rle_trans; [apply abs_add; [exact R0|apply PT; lia]|]. lra. }
  assert (B1 : Rabs (real g1) <= powerRZ 2 (e + 1)).
  { rewrite S'. replace (real g1) with ((real g1 - exact_point p (real x) (real y) 1) + exact_point p (real x) (real y) 1) by ring.
    eapply Rle_trans; [apply abs_add; [exact R1|apply PT; lia]|]. lra. }
  set (A := exact_area2 p) in *. set (t := s * s) in *. assert (T1 : 1 <= t) by (unfold t; nra). assert (UT : 0 < u64 * t) by (apply Rmult_lt_0_compat; lra).
  assert (PA : 0 < Rabs A) by lra. assert (NA : A <> 0) by (intros Z0; rewrite Z0, Rabs_R0 in PA; lra).
  set (x0 := exact_point p (real x) (real y) 0) in *. set (y0 := exact_point p (real x) (real y) 1) in *.
  set (l1 := real x + (diff p 1 1 * (real g0 - x0) - diff p 0 1 * (real g1 - y0)) / A).
  set (l2 := real y + (diff p 0 0 * (real g1 - y0) - diff p 1 0 * (real g0 - x0)) / A).
  assert (EA : A = diff p 0 0 * diff p 1 1 - diff p 0 1 * diff p 1 0) by reflexivity.
  assert (Lg0 : real g0 = exact_point p l1 l2 0).
  { apply Rmult_eq_reg_l with A; [|exact NA]. unfold l1, l2, exact_point. replace (real (p 1%nat 0%nat)) with (diff p 0 0 + real (p 0%nat 0%nat)) by (unfold diff; ring).
    replace (real (p 2%nat 0%nat)) with (diff p 0 1 + real (p 0%nat 0%nat)) by (unfold diff; ring).
    assert (X : x0 = real (p 0%nat 0%nat) + real x * diff p 0 0 + real y * diff p 0 1) by (unfold x0, exact_point, diff; ring).
    rewrite X. field_simplify; [|exact NA]. rewrite EA. ring. }
  assert (Lg1 : real g1 = exact_point p l1 l2 1).
  { apply Rmult_eq_reg_l with A; [|exact NA]. unfold l1, l2, exact_point. replace (real (p 1%nat 1%nat)) with (diff p 1 0 + real (p 0%nat 1%nat)) by (unfold diff; ring).
    replace (real (p 2%nat 1%nat)) with (diff p 1 1 + real (p 0%nat 1%nat)) by (unfold diff; ring).
    assert (X : y0 = real (p 0%nat 1%nat) + real x * diff p 1 0 + real y * diff p 1 1) by (unfold y0, exact_point, diff; ring).
    rewrite X. field_simplify; [|exact NA]. rewrite EA. ring. }
  assert (H1 : good d /\ Rabs (real d - exact_area2 p) <= 450 * u64 * (powerRZ 2 (e + 1) * powerRZ 2 (e + 1))) by (split; [exact Gd|]; rewrite S'; fold A; unfold t in *; lra).
  assert (H2 : 1000 * u64 * (powerRZ 2 (e + 1) * powerRZ 2 (e + 1)) <= Rabs (exact_area2 p)) by (rewrite S'; fold A; unfold t in *; lra).
  destruct (local_near p (e + 1) d Hp1 H1 H2 g0 g1 l1 l2) as (a & b & El & Fa & Fb & Ra & Rb); auto;
    try (split; tauto).
  rewrite S' in Ra, Rb. fold A in Ra, Rb. exists a, b. split; [exact El|]. split; [exact Fa|]. split; [exact Fb|].
  assert (MV : forall u v w z l, Rabs u <= 2 * s -> Rabs v <= 2 * s -> Rabs w <= 20 * u64 * s * 1 -> Rabs z <= 20 * u64 * s * 1 -> 0 <= l <= 1 ->
    Rabs A * Rabs (l + (u * w - v * z) / A - l) <= 80 * (u64 * t) /\ Rabs (l + (u * w - v * z) / A) <= 1.02).
  { intros u v w z l Hu Hv Hw Hz Hl. assert (Q : Rabs (u * w - v * z) <= 80 * (u64 * t)).
    { unfold Rminus. eapply Rle_trans; [apply abs_add; [apply abs_mul; eassumption|rewrite Rabs_Ropp; apply abs_mul; eassumption]|]. unfold t. lra. }
    split.
    - rewrite <- Rabs_mult. replace (A * (l + (u * w - v * z) / A - l)) with (u * w - v * z) by (field; exact NA). exact Q.
    - assert (Q2 : Rabs ((u * w - v * z) / A) <= 0.02).
      { unfold Rdiv. rewrite Rabs_mult, Rabs_inv. apply Rmult_le_reg_r with (Rabs A); [exact PA|]. rewrite Rmult_assoc, Rinv_l by lra. lra. }
      eapply Rle_trans; [apply Rabs_triang|]. rewrite (Rabs_pos_eq l) by lra. lra. }
  assert (J : forall i j, (i < 2)%nat -> (j < 2)%nat -> Rabs (diff p i j) <= 2 * s) by (intros i j Hi Hj; apply (edge_all p e Hp i j Hi Hj)).
  destruct (MV (diff p 1 1) (diff p 0 1) (real g0 - x0) (real g1 - y0) (real x)) as (M1 & M2); try apply J; auto; try lia; try lra.
  destruct (MV (diff p 0 0) (diff p 1 0) (real g1 - y0) (real g0 - x0) (real y)) as (M3 & M4); try apply J; auto; try lia; try lra.
  fold l1 in M1, M2. fold l2 in M3, M4. replace (1000 * u64 * (2 * s * (2 * s))) with (4000 * (u64 * t)) in Ra, Rb by (unfold t; ring).
  assert (FIN : forall v l w, Rabs A * Rabs (v - l) <= 4000 * (u64 * t) * (1 + Rabs l) -> Rabs A * Rabs (l - w) <= 80 * (u64 * t) -> Rabs l <= 1.02 -> Rabs A * Rabs (v - w) <= 10000 * (u64 * t)).
  { intros v l w H3 H4 H5. replace (v - w) with ((v - l) + (l - w)) by ring. apply Rle_trans with (Rabs A * (Rabs (v - l) + Rabs (l - w))); [apply Rmult_le_compat_l; [apply Rabs_pos|apply Rabs_triang]|].
    rewrite Rmult_plus_distr_l. assert (4000 * (u64 * t) * (1 + Rabs l) <= 4000 * (u64 * t) * 2.02) by (apply Rmult_le_compat_l; lra). lra. }
  split; eapply FIN; eassumption.
Qed.

(** ** gradient() *)
Section Gradient.
Variables (p : nat -> nat -> NumF64) (e : Z) (d : NumF64).
Hypothesis Hp : coordinates e p.
Let s : R := powerRZ 2 e.
Let t := s * s.
Hypothesis Hd : good d /\ Rabs (real d - exact_area2 p) <= 450 * u64 * t.
Let A := exact_area2 p.
Let D := real d.
Hypothesis HA : 1000 * u64 * t <= Rabs A.
Let rho : NumF64 := (n1 / d)%num.
Lemma slope_near i j k : (i < 3)%nat -> (j < 3)%nat -> (k < 2)%nat ->
  finite ((p i k - p j k) * rho)%num /\ Rabs A * Rabs A * Rabs (real ((p i k - p j k) * rho)%num - (real (p i k) - real (p j k)) / A) <= 2000 * u64 * (s * t).
Proof.
  intros Hi Hj Hk. destruct (proj2 Hp i k Hi Hk) as (Di & Fi & Bi). destruct (proj2 Hp j k Hj Hk) as (Dj & Fj & Bj). fold s in Bi, Bj.
  destruct (sub_near p e Hp (p i k) (p j k) Di Fi Dj Fj Bi Bj) as (Dm & Fm & y & Hy & E & BM). fold s in BM.
  assert (Bm : Rabs (real (p i k - p j k)%num) <= 2 * s).
  { rewrite (sub_real _ _ Di Dj Fm). change (2 * s) with (bpow radix2 1 * powerRZ 2 e). change 2 with (IZR radix2) at 1. rewrite <- (bpow_powerRZ radix2), <- bpow_plus. apply rnd_le_bpow; [pose proof (proj1 Hp); lia|].
    rewrite bpow_plus, (bpow_powerRZ radix2 e). exact BM. }
  assert (Em : Rabs (real (p i k - p j k)%num - (real (p i k) - real (p j k))) <= 2 * u64 * s).
  { rewrite E. replace ((real (p i k) - real (p j k)) * (1 + y) - (real (p i k) - real (p j k))) with ((real (p i k) - real (p j k)) * y) by ring.
    eapply Rle_trans; [apply abs_mul; [exact BM|exact Hy]|]. lra. }
  set (m := (p i k - p j k)%num) in *. set (M := real (p i k) - real (p j k)) in *. clear E.
  destruct (rho_near p e d Hp Hd HA) as (Gr & Br & x & Hx & Ex). fold rho in Gr, Br, Ex. fold D in Ex.
  pose proof (eta_D p e d Hp Hd) as ED. pose proof tiny_u as TU. pose proof u64_pos as UP. pose proof (s1 p e Hp) as S1. fold s in S1. pose proof (s_big p e Hp 400 ltac:(lia)) as SB. fold s in SB.
  fold D in ED. destruct (mul_step m rho 460 (conj Dm Fm) Gr ltac:(lia)) as ((Da & Fa) & d1 & h1 & H1 & H2 & E1).
  { eapply Rle_trans; [apply abs_mul; eassumption|]. change 460%Z with (7 + 400 + 53)%Z. rewrite !bpow_plus. change (bpow radix2 7) with 128.
    apply Rmult_le_compat_r; [apply bpow_ge_0|]. lra. }
  split; [exact Fa|]. set (a := real (m * rho)%num) in *.
  assert (Ea : Rabs (a * D - M) <= 6.3 * u64 * s).
  { rewrite E1. replace ((real m * real rho * (1 + d1) + h1) * D - M) with (real m * ((real rho * D) * (1 + d1) - 1) + h1 * D + (real m - M)) by ring.
    rewrite Ex. replace ((1 + x) * (1 + d1) - 1) with (x + d1 + x * d1) by ring.
    eapply Rle_trans; [apply abs_add; [apply abs_add; [apply abs_mul; [exact Bm|apply abs_add; [apply abs_add; [exact Hx|exact H1]|apply abs_mul; [exact Hx|exact H1]]]|apply abs_mul; [exact H2|apply Rle_refl]]|exact Em]|].
    assert (u64 * u64 <= u64 / 1000000000000) by (unfold Rdiv; apply Rmult_le_compat_l; lra).
    assert (2 * s * (1.1 * u64 + u64 + 1.1 * u64 * u64) <= 2 * s * (2.11 * u64)) by (apply Rmult_le_compat_l; lra).
    assert (u64 <= u64 * s) by nra. lra. }
  destruct Hd as (_ & EA). fold D A in EA. pose proof (area_size p e Hp) as AS. fold s t A in AS.
  assert (T1 : 1 <= t) by (unfold t; nra). assert (UT : 0 < u64 * t) by (apply Rmult_lt_0_compat; lra). assert (US : 0 < u64 * s) by (apply Rmult_lt_0_compat; lra).
  assert (PA : 0 < Rabs A) by lra. assert (NA : A <> 0) by (intros Z0; rewrite Z0, Rabs_R0 in PA; lra).
  assert (G : Rabs A * Rabs (M / A) <= 2 * s) by (rewrite <- Rabs_mult; replace (A * (M / A)) with M by (field; exact NA); exact BM).
  set (g := M / A) in *. assert (MA : M = A * g) by (unfold g; field; exact NA).
  assert (X : Rabs A * Rabs (a - g) <= 6.3 * u64 * s + 450 * u64 * t * (Rabs g + Rabs (a - g))).
  { rewrite <- Rabs_mult. replace (A * (a - g)) with ((a * D - M) + - (D - A) * (g + (a - g))) by (rewrite MA; ring).
    apply abs_add; [exact Ea|]. apply abs_mul; [rewrite Rabs_Ropp; exact EA|apply Rabs_triang]. }
  assert (Y : 1000 * u64 * t * Rabs (a - g) <= Rabs A * Rabs (a - g)) by (apply Rmult_le_compat_r; [apply Rabs_pos|exact HA]).
  assert (P : 0 <= u64 * t * Rabs (a - g)) by (apply Rmult_le_pos; [lra|apply Rabs_pos]).
  assert (Q : 0 <= u64 * t * Rabs g) by (apply Rmult_le_pos; [lra|apply Rabs_pos]).
  assert (W : Rabs A * Rabs (a - g) <= 12.6 * u64 * s + 900 * (u64 * t * Rabs g)) by lra.
  rewrite Rmult_assoc. apply Rle_trans with (Rabs A * (12.6 * u64 * s + 900 * (u64 * t * Rabs g))); [apply Rmult_le_compat_l; lra|].
  assert (K1 : Rabs A * (u64 * s) <= 8 * t * (u64 * s)) by (apply Rmult_le_compat_r; lra).
  assert (K2 : (u64 * t) * (Rabs A * Rabs g) <= (u64 * t) * (2 * s)) by (apply Rmult_le_compat_l; lra).
  assert (K3 : 0 < u64 * s * t) by (apply Rmult_lt_0_compat; lra). lra.
Qed.
Lemma gradient_near c : (c < 3)%nat -> exists a b g0 g1, @sx_gradient NumF64 (prepd p d) c = Ok [a; b] /\ finite a /\ finite b /\ exact_gradient p c g0 g1 /\
  Rabs A * Rabs A * Rabs (real a - g0) <= 2000 * u64 * (s * t) /\ Rabs A * Rabs A * Rabs (real b - g1) <= 2000 * u64 * (s * t).
Proof.
  intros Hc. assert (NA : A <> 0).
  { intros Z0. rewrite Z0, Rabs_R0 in HA. pose proof u64_pos. pose proof (t1 p e Hp) as T. fold s in T. fold t in T. assert (0 < u64 * t) by (apply Rmult_lt_0_compat; lra). lra. }
  assert (G : forall i j, (i < 3)%nat -> (j < 3)%nat -> @sx_gradient NumF64 (prepd p d) c = Ok [((p i 1%nat - p j 1%nat) * rho)%num; ((p j 0%nat - p i 0%nat) * rho)%num] ->
    exact_gradient p c ((real (p i 1%nat) - real (p j 1%nat)) / A) ((real (p j 0%nat) - real (p i 0%nat)) / A) ->
    exists a b g0 g1, @sx_gradient NumF64 (prepd p d) c = Ok [a; b] /\ finite a /\ finite b /\ exact_gradient p c g0 g1 /\
      Rabs A * Rabs A * Rabs (real a - g0) <= 2000 * u64 * (s * t) /\ Rabs A * Rabs A * Rabs (real b - g1) <= 2000 * u64 * (s * t)).
  { intros i j Hi Hj E X. destruct (slope_near i j 1 Hi Hj ltac:(lia)) as (F1 & B1). destruct (slope_near j i 0 Hj Hi ltac:(lia)) as (F0 & B0).
    do 4 eexists. split; [exact E|]. split; [exact F1|]. split; [exact F0|]. split; [exact X|]. auto. }
  destruct c as [|[|[|c]]]; try lia; [apply (G 1%nat 2%nat)|apply (G 2%nat 0%nat)|apply (G 0%nat 1%nat)]; try lia; try reflexivity;
    intros l1 l2 m1 m2; unfold coord3, exact_point; unfold A, exact_area2 in *; field; exact NA.
Qed.
End Gradient.

Definition sq2 {N : Num} (p : nat -> nat -> N) (i j : nat) : N :=
  (n0 + (p i 0%nat - p j 0%nat) * (p i 0%nat - p j 0%nat) + (p i 1%nat - p j 1%nat) * (p i 1%nat - p j 1%nat))%num.
Lemma diameter_eq {N : Num} (s : simplex N) p : sx_v s = tri p ->
  sx_diameter s = Ok (nsqrt (fold_left std_max [sq2 p 0 1; sq2 p 0 2; sq2 p 1 0; sq2 p 1 2; sq2 p 2 0; sq2 p 2 1] n0)).
Proof. destruct s as [v a b c d]. cbn [sx_v]. intros ->. reflexivity. Qed.

Section Diameter.
Variables (p : nat -> nat -> NumF64) (e : Z).
Hypothesis Hp : coordinates e p.
Let s : R := powerRZ 2 e.
Lemma sq2_near i j : (i < 3)%nat -> (j < 3)%nat -> good (sq2 p i j) /\ 0 <= exact_dist2 p i j <= 8 * (s * s) /\
  Rabs (real (sq2 p i j) - exact_dist2 p i j) <= 4.1 * u64 * exact_dist2 p i j + 2.1 * eta64.
Proof.
  intros Hi Hj. pose proof tiny_u as TU. pose proof u64_pos as UP. pose proof eta64_pos as EP. pose proof (s1 p e Hp) as S1. fold s in S1.
  pose proof (s_big p e Hp 400 ltac:(lia)) as SB. fold s in SB.
  assert (CB : s * s <= bpow radix2 800) by (change 800%Z with (400 + 400)%Z; rewrite bpow_plus; apply Rmult_le_compat; lra).
  assert (EU : eta64 <= 1) by (unfold eta64; change 1 with (powerRZ 2 0); rewrite <- !(bpow_powerRZ radix2); apply bpow_le; lia).
  assert (QU : u64 * u64 <= u64 / 1000000000000) by (unfold Rdiv; apply Rmult_le_compat_l; lra).
  assert (K : forall k, (k < 2)%nat -> let X := real (p i k) - real (p j k) in let m := (p i k - p j k)%num in
    good (m * m)%num /\ 0 <= X * X <= 4 * (s * s) /\ Rabs (real (m * m)%num - X * X) <= 3.01 * u64 * (X * X) + eta64).
  { intros k Hk X m. destruct (proj2 Hp i k Hi Hk) as (Di & Fi & Bi). destruct (proj2 Hp j k Hj Hk) as (Dj & Fj & Bj). fold s in Bi, Bj.
    destruct (sub_near p e Hp (p i k) (p j k) Di Fi Dj Fj Bi Bj) as (Dm & Fm & y & Hy & E & BM). fold s in BM. fold X in BM, E. fold m in E, Dm, Fm.
    assert (X2 : 0 <= X * X <= 4 * (s * s)).
    { split; [nra|]. replace (X * X) with (Rabs X * Rabs X) by (rewrite <- Rabs_mult; apply Rabs_pos_eq; nra).
      replace (4 * (s * s)) with ((2 * s) * (2 * s)) by ring. apply Rmult_le_compat; auto; apply Rabs_pos. }
    assert (B2 : Rabs (2 * y + y * y) <= 2.001 * u64).
    { eapply Rle_trans; [apply abs_add; [apply abs_mul; [rewrite Rabs_pos_eq by lra; apply Rle_refl|exact Hy]|apply abs_mul; exact Hy]|]. lra. }
    assert (M2 : Rabs (real m * real m - X * X) <= 2.001 * u64 * (X * X)).
    { rewrite E. replace (X * (1 + y) * (X * (1 + y)) - X * X) with ((2 * y + y * y) * (X * X)) by ring.
      apply abs_mul; [exact B2|rewrite Rabs_pos_eq; lra]. }
    assert (M3 : Rabs (real m * real m) <= 1.001 * (X * X)).
    { replace (real m * real m) with ((real m * real m - X * X) + X * X) by ring.
      eapply Rle_trans; [apply abs_add; [exact M2|rewrite Rabs_pos_eq by lra; apply Rle_refl]|].
      assert (2.001 * u64 * (X * X) <= 0.001 * (X * X)) by (apply Rmult_le_compat_r; lra). lra. }
    destruct (mul_step m m 803 (conj Dm Fm) (conj Dm Fm) ltac:(lia)) as (G & d1 & h1 & H1 & H2 & E1).
    { eapply Rle_trans; [exact M3|]. change 803%Z with (3 + 800)%Z. rewrite (bpow_plus radix2 3). change (bpow radix2 3) with 8. lra. }
    split; [exact G|]. split; [exact X2|]. rewrite E1.
    replace (real m * real m * (1 + d1) + h1 - X * X) with ((real m * real m - X * X) + real m * real m * d1 + h1) by ring.
    eapply Rle_trans; [apply abs_add; [apply abs_add; [exact M2|apply abs_mul; [exact M3|exact H1]]|exact H2]|].
    assert (1.001 * (X * X) * u64 = 1.001 * (u64 * (X * X))) by ring. assert (0 <= u64 * (X * X)) by (apply Rmult_le_pos; lra). lra. }
  destruct (K 0%nat ltac:(lia)) as (G0 & X0 & E0). destruct (K 1%nat ltac:(lia)) as (G1 & X1 & E1). clear K. cbv zeta in *.
  unfold sq2, exact_dist2. set (a := ((p i 0%nat - p j 0%nat) * (p i 0%nat - p j 0%nat))%num) in *. set (b := ((p i 1%nat - p j 1%nat) * (p i 1%nat - p j 1%nat))%num) in *.
  set (x := (real (p i 0%nat) - real (p j 0%nat)) * (real (p i 0%nat) - real (p j 0%nat))) in *. set (y := (real (p i 1%nat) - real (p j 1%nat)) * (real (p i 1%nat) - real (p j 1%nat))) in *.
  clearbody a b x y. destruct (zero_step a G0) as (Z1 & Z2).
  assert (Ux : 0 <= u64 * x <= x / 1000000000000) by (split; [apply Rmult_le_pos; lra|unfold Rdiv; rewrite Rmult_comm; apply Rmult_le_compat_l; lra]).
  assert (Uy : 0 <= u64 * y <= y / 1000000000000) by (split; [apply Rmult_le_pos; lra|unfold Rdiv; rewrite Rmult_comm; apply Rmult_le_compat_l; lra]).
  assert (SS : 1 <= s * s) by nra.
  assert (BS : Rabs (real a + real b) <= 1.001 * (x + y) + 2 * eta64).
  { replace (real a + real b) with ((real a - x) + (real b - y) + (x + y)) by ring.
    eapply Rle_trans; [apply abs_add; [apply abs_add; [exact E0|exact E1]|rewrite Rabs_pos_eq by lra; apply Rle_refl]|]. lra. }
  destruct (add_step (Num.n0 + a)%num b 804 Z1 G1 ltac:(lia)) as (G & d & Hd & E).
  { rewrite Z2. eapply Rle_trans; [exact BS|]. change 804%Z with (4 + 800)%Z. rewrite (bpow_plus radix2 4). change (bpow radix2 4) with 16. lra. }
  split; [exact G|]. split; [lra|]. rewrite E, Z2.
  replace ((real a + real b) * (1 + d) - (x + y)) with ((real a - x) + (real b - y) + (real a + real b) * d) by ring.
  eapply Rle_trans; [apply abs_add; [apply abs_add; [exact E0|exact E1]|apply abs_mul; [exact BS|exact Hd]]|].
  assert (eta64 * u64 <= eta64 / 1000000000000) by (unfold Rdiv; apply Rmult_le_compat_l; lra). lra.
Qed.
(** std::max on finite doubles. *)
Lemma max_step (a b : NumF64) : good a -> good b -> good (std_max a b) /\ real (std_max a b) = Rmax (real a) (real b).
Proof.
  intros (Da & Fa) (Db & Fb). unfold std_max. pose proof (ltb_real a b Da Db Fa Fb) as H. destruct (nltb a b).
  - split; [split; auto|]. rewrite Rmax_right; [reflexivity|]. left. now apply H.
  - split; [split; auto|]. rewrite Rmax_left; [reflexivity|]. apply Rnot_lt_le. intros L. apply H in L. discriminate.
Qed.
Lemma max_list (l : list NumF64) : forall a, good a -> Forall good l -> let r := fold_left std_max l a in
  good r /\ real a <= real r /\ (forall x, In x l -> real x <= real r) /\ (r = a \/ In r l).
Proof.
  induction l as [|x l IH]; intros a Ga Hl; cbn [fold_left].
  - split; [exact Ga|]. split; [apply Rle_refl|]. split; [intros x []|auto].
  - inversion Hl as [|? ? Gx Hl']; subst. destruct (max_step a x Ga Gx) as (Gm & Em). destruct (IH _ Gm Hl') as (G & B & H & C).
    split; [exact G|]. rewrite Em in B. split; [eapply Rle_trans; [apply Rmax_l|exact B]|]. split.
    + intros y [<-|Hy]; [eapply Rle_trans; [apply Rmax_r|exact B]|auto].
    + destruct C as [C|C]; [|now right; right]. rewrite C. unfold std_max. destruct (nltb a x); [right; now left|now left].
Qed.
Lemma dist2_sym i j : exact_dist2 p i j = exact_dist2 p j i. Proof. unfold exact_dist2. ring. Qed.
Lemma dist2_self i : exact_dist2 p i i = 0. Proof. unfold exact_dist2. ring. Qed.
Lemma diameter_near (o : simplex NumF64) L : sx_v o = tri p -> longest_edge p L ->
  returns (sx_diameter o) (fun d => finite d /\ Rabs (real d - L) <= 6 * u64 * L + powerRZ 2 (-529)).
Proof.
  intros Hv (L0 & (i0 & j0 & Hi0 & Hj0 & Hne & EL) & HL). rewrite (diameter_eq o p Hv). eexists. split; [reflexivity|].
  pose proof tiny_u as TU. pose proof u64_pos as UP. pose proof eta64_pos as EP.
  set (l := [sq2 p 0 1; sq2 p 0 2; sq2 p 1 0; sq2 p 1 2; sq2 p 2 0; sq2 p 2 1]).
  assert (Hl : forall x, In x l -> exists i j, (i < 3)%nat /\ (j < 3)%nat /\ x = sq2 p i j).
  { intros x Hx. cbn [l In] in Hx. destruct Hx as [<-|[<-|[<-|[<-|[<-|[<-|[]]]]]]]; do 2 eexists; (split; [|split; [|reflexivity]]); lia. }
  assert (Gl : Forall good l). { apply Forall_forall. intros x Hx. destruct (Hl x Hx) as (i & j & Hi & Hj & ->). apply (sq2_near i j Hi Hj). }
  assert (G0 : good Num.n0) by (split; [reflexivity|exact I]).
  destruct (max_list l Num.n0 G0 Gl) as (Gr & Br & Mr & Cr). set (r := fold_left std_max l Num.n0) in *. rewrite real_zero in Br.
  assert (EB : 4.1 * u64 * (L * L) + 2.1 * eta64 >= 0) by (pose proof (Rmult_le_pos _ _ L0 L0); pose proof (Rmult_le_pos u64 (L * L) ltac:(lra) ltac:(lra)); lra).
  assert (In0 : In (sq2 p i0 j0) l).
  { destruct i0 as [|[|[|i0]]]; try lia; destruct j0 as [|[|[|j0]]]; try lia; cbn [l In]; tauto. }
  assert (Lo : real r >= L * L - (4.1 * u64 * (L * L) + 2.1 * eta64)).
  { pose proof (Mr _ In0) as H. destruct (sq2_near i0 j0 Hi0 Hj0) as (_ & _ & H2). rewrite <- EL in H2. apply Rabs_le_inv in H2. lra. }
  assert (Up : real r <= L * L + (4.1 * u64 * (L * L) + 2.1 * eta64)).
  { destruct Cr as [->|Hr]; [rewrite real_zero; pose proof (Rmult_le_pos _ _ L0 L0); lra|].
    destruct (Hl _ Hr) as (i & j & Hi & Hj & ->). destruct (sq2_near i j Hi Hj) as (_ & P & H2). pose proof (HL i j Hi Hj) as H3.
    assert (u64 * exact_dist2 p i j <= u64 * (L * L)) by (apply Rmult_le_compat_l; lra). apply Rabs_le_inv in H2. lra. }
  destruct Gr as (Dr & Fr). clearbody r. assert (F : finite (nsqrt r)) by (apply sqrt_fin; auto). split; [exact F|].
  destruct (sqrt_real r Dr F) as (_ & _ & Er). rewrite Er. destruct (rnd_any (R_sqrt.sqrt (real r))) as (d & h & Hd & Hh & ->).
  set (q := R_sqrt.sqrt (real r)) in *. assert (Q0 : 0 <= q) by apply R_sqrt.sqrt_pos. assert (Eq : real r = q * q) by (unfold q; now rewrite R_sqrt.sqrt_sqrt).
  set (w := powerRZ 2 (-530)). assert (W0 : 0 < w) by (apply powerRZ_lt; lra).
  assert (WW : 16 * eta64 <= w * w).
  { unfold w, eta64. rewrite <- powerRZ_add by lra. replace 16 with (powerRZ 2 4) by (simpl; lra). rewrite <- powerRZ_add by lra. rewrite <- !(bpow_powerRZ radix2). apply bpow_le. lia. }
  assert (EW : eta64 <= w / 100).
  { assert (100 * eta64 <= w); [|lra]. apply Rle_trans with (powerRZ 2 7 * eta64); [apply Rmult_le_compat_r; [lra|simpl; lra]|].
    unfold w, eta64. rewrite <- powerRZ_add by lra. rewrite <- !(bpow_powerRZ radix2). apply bpow_le. lia. }
  assert (W2 : powerRZ 2 (-529) = 2 * w) by (unfold w; replace (-529)%Z with (1 + -530)%Z by lia; rewrite powerRZ_add by lra; simpl; ring). rewrite W2.
  set (z := Rabs (q - L)). assert (Z0 : 0 <= z) by apply Rabs_pos.
  assert (ZS : z * (q + L) <= 4.1 * u64 * (L * L) + 2.1 * eta64).
  { unfold z. rewrite <- (Rabs_pos_eq (q + L)) by lra. rewrite <- Rabs_mult. replace ((q - L) * (q + L)) with (real r - L * L) by (rewrite Eq; ring). apply Rabs_le. lra. }
  assert (Zq : z <= q + L) by (unfold z; apply Rabs_le; lra).
  assert (ZB : z <= 4.1 * u64 * L + w).
  { destruct (Rle_lt_dec z (4.1 * u64 * L + w)) as [H|H]; [exact H|exfalso].
    assert (A1 : z * L <= z * (q + L)) by (apply Rmult_le_compat_l; lra). assert (A2 : z * z <= z * (q + L)) by (apply Rmult_le_compat_l; lra).
    assert (UL : 0 <= u64 * L) by (apply Rmult_le_pos; lra).
    destruct (Rle_lt_dec w L) as [H1|H1].
    - assert (A3 : (4.1 * u64 * L + w) * L <= z * L) by (apply Rmult_le_compat_r; lra). assert (w * w <= w * L) by (apply Rmult_le_compat_l; lra). lra.
    - assert (A3 : w * w <= z * z) by (apply Rmult_le_compat; lra). assert (A4 : L * L <= w * w) by (apply Rmult_le_compat; lra).
      assert (A5 : u64 * (L * L) <= u64 * (w * w)) by (apply Rmult_le_compat_l; lra).
      assert (A6 : u64 * (w * w) <= w * w / 1000000000000) by (unfold Rdiv; rewrite Rmult_comm; apply Rmult_le_compat_l; nra). lra. }
  replace (q * (1 + d) + h - L) with ((q - L) + ((q - L) + L) * d + h) by ring.
  eapply Rle_trans; [apply abs_add; [apply abs_add; [apply Rle_refl|apply abs_mul; [apply abs_add; [apply Rle_refl|rewrite Rabs_pos_eq by exact L0; apply Rle_refl]|exact Hd]]|exact Hh]|].
  fold z. assert (z * u64 <= (4.1 * u64 * L + w) * u64) by (apply Rmult_le_compat_r; lra).
  assert (0 <= u64 * L) by (apply Rmult_le_pos; lra). assert (u64 * L * u64 <= u64 * L / 1000000000000) by (unfold Rdiv; apply Rmult_le_compat_l; lra).
  assert (w * u64 <= w / 1000000000000) by (unfold Rdiv; apply Rmult_le_compat_l; lra). lra.
Qed.
Lemma longest_exists : exists L, longest_edge p L.
Proof.
  set (M := Rmax (Rmax (exact_dist2 p 0 1) (exact_dist2 p 0 2)) (exact_dist2 p 1 2)).
  assert (P : forall i j, 0 <= exact_dist2 p i j) by (intros i j; unfold exact_dist2; apply Rplus_le_le_0_compat; exact (Rle_0_sqr _)).
  pose proof (Rmax_l (Rmax (exact_dist2 p 0 1) (exact_dist2 p 0 2)) (exact_dist2 p 1 2)) as H1. pose proof (Rmax_r (Rmax (exact_dist2 p 0 1) (exact_dist2 p 0 2)) (exact_dist2 p 1 2)) as H2.
  pose proof (Rmax_l (exact_dist2 p 0 1) (exact_dist2 p 0 2)) as H3. pose proof (Rmax_r (exact_dist2 p 0 1) (exact_dist2 p 0 2)) as H4. fold M in H1, H2.
  pose proof (P 0%nat 1%nat) as P01. exists (R_sqrt.sqrt M). split; [apply R_sqrt.sqrt_pos|]. rewrite R_sqrt.sqrt_sqrt by lra. split.
  - unfold M, Rmax. destruct (Rle_dec (exact_dist2 p 0 1) (exact_dist2 p 0 2)); match goal with |- context [Rle_dec ?a ?b] => destruct (Rle_dec a b) end;
      [exists 1%nat, 2%nat|exists 0%nat, 2%nat|exists 1%nat, 2%nat|exists 0%nat, 1%nat]; repeat split; lia.
  - intros i j Hi Hj. destruct i as [|[|[|i]]]; try lia; destruct j as [|[|[|j]]]; try lia; rewrite ?dist2_self; try lra; rewrite dist2_sym; lra.
Qed.
End Diameter.

(** ** faceCenter() *)
Definition mid2 {N : Num} (p : nat -> nat -> N) (i j k : nat) : N := ((n0 + p i k + p j k) * (n1 / nofnat 2))%num.
Lemma face_center_eq {N : Num} (o : simplex N) p i : sx_v o = tri p -> (i < 3)%nat ->
  exists j l, (j < 3)%nat /\ (l < 3)%nat /\ j <> i /\ l <> i /\ j <> l /\ sx_faceCenter o i = Ok [mid2 p j l 0; mid2 p j l 1].
Proof.
  destruct o as [v a b c d]. cbn [sx_v]. intros -> Hi. destruct i as [|[|[|i]]]; try lia;
    [exists 1%nat, 2%nat|exists 0%nat, 2%nat|exists 0%nat, 1%nat]; repeat (split; [lia|]); reflexivity.
Qed.
Section FaceCenter.
Variables (p : nat -> nat -> NumF64) (e : Z).
Hypothesis Hp : coordinates e p.
Let s : R := powerRZ 2 e.
Lemma mid2_near i j k : (i < 3)%nat -> (j < 3)%nat -> (k < 2)%nat -> finite (mid2 p i j k) /\
  Rabs (real (mid2 p i j k) - (real (p i k) + real (p j k)) / 2) <= 3 * u64 * s.
Proof.
  intros Hi Hj Hk. destruct (proj2 Hp i k Hi Hk) as (Di & Fi & Bi). destruct (proj2 Hp j k Hj Hk) as (Dj & Fj & Bj). fold s in Bi, Bj.
  pose proof tiny_u as TU. pose proof u64_pos as UP. pose proof (s1 p e Hp) as S1. fold s in S1. pose proof (eta_s1 p e Hp) as ES. fold s in ES. pose proof eta64_pos as EP.
  pose proof (s_big p e Hp 400 ltac:(lia)) as SB. fold s in SB.
  destruct (zero_step (p i k) (conj Di Fi)) as (Z1 & Z2).
  assert (B : Rabs (real (p i k) + real (p j k)) <= 2 * s) by (eapply Rle_trans; [apply abs_add; eassumption|]; lra).
  destruct (add_step (Num.n0 + p i k)%num (p j k) 402 Z1 (conj Dj Fj) ltac:(lia)) as (G & d & Hd & E).
  { rewrite Z2. eapply Rle_trans; [exact B|]. change 402%Z with (2 + 400)%Z. rewrite (bpow_plus radix2 2). change (bpow radix2 2) with 4. lra. }
  rewrite Z2 in E. set (a := (Num.n0 + p i k + p j k)%num) in *. set (h := (n1 / nofnat 2 : NumF64)%num).
  assert (GI : good h) by (split; vm_compute; [reflexivity|exact I]).
  assert (RI : real h = / 2).
  { replace h with (SpecFloat.S754_finite false 4503599627370496 (-53) : NumF64) by (vm_compute; reflexivity). unfold real. simpl. lra. }
  assert (Ba : Rabs (real a) <= 2.1 * s).
  { rewrite E. eapply Rle_trans; [now apply err_abs|]. assert ((1 + u64) * Rabs (real (p i k) + real (p j k)) <= (1 + u64) * (2 * s)) by (apply Rmult_le_compat_l; lra).
    assert (u64 * (2 * s) <= / 1000000000000 * (2 * s)) by (apply Rmult_le_compat_r; lra). lra. }
  assert (IH : Rabs (/ 2) <= / 2) by (rewrite Rabs_pos_eq; lra).
  destruct (mul_step a h 402 G GI ltac:(lia)) as ((_ & F) & d1 & h1 & H1 & H2 & E1).
  { rewrite RI. eapply Rle_trans; [apply abs_mul; [exact Ba|exact IH]|]. change 402%Z with (2 + 400)%Z. rewrite (bpow_plus radix2 2). change (bpow radix2 2) with 4. lra. }
  split; [exact F|]. change (mid2 p i j k) with (a * h)%num. rewrite E1, RI.
  replace (real a * / 2 * (1 + d1) + h1 - (real (p i k) + real (p j k)) / 2) with ((real (p i k) + real (p j k)) * d * / 2 + real a * / 2 * d1 + h1) by (rewrite E; field).
  eapply Rle_trans; [apply abs_add; [apply abs_add; [apply abs_mul; [apply abs_mul; [exact B|exact Hd]|exact IH]|apply abs_mul; [apply abs_mul; [exact Ba|exact IH]|exact H1]]|exact H2]|].
  assert (0 <= u64 * s) by (apply Rmult_le_pos; lra). lra.
Qed.
End FaceCenter.
Lemma face_center_near (o : simplex NumF64) p e i : corners o p -> coordinates e p -> (i < 3)%nat ->
  exists a b, sx_faceCenter o i = Ok [a; b] /\ finite a /\ finite b /\ forall j l, (j < 3)%nat -> (l < 3)%nat -> j <> i -> l <> i -> j <> l ->
    Rabs (real a - (real (p j 0%nat) + real (p l 0%nat)) / 2) <= 3 * u64 * powerRZ 2 e /\ Rabs (real b - (real (p j 1%nat) + real (p l 1%nat)) / 2) <= 3 * u64 * powerRZ 2 e.
Proof.
  intros Hc Hp Hi. destruct (face_center_eq o p i (proj2 (corners_tri_any o p Hc)) Hi) as (j0 & l0 & A & B & C & D & F & E).
  destruct (mid2_near p e Hp j0 l0 0 A B ltac:(lia)) as (F0 & E0). destruct (mid2_near p e Hp j0 l0 1 A B ltac:(lia)) as (F1 & E1).
  do 2 eexists. split; [exact E|]. split; [exact F0|]. split; [exact F1|]. intros j l Hj Hl Nj Nl Njl.
  assert (S : (j = j0 /\ l = l0) \/ (j = l0 /\ l = j0)) by lia. destruct S as [(-> & ->)|(-> & ->)]; [auto|].
  rewrite (Rplus_comm (real (p l0 0%nat))), (Rplus_comm (real (p l0 1%nat))). auto.
Qed.
