(** Property C94: the triangle Simplex<double,2> in double arithmetic.  Vocabulary: FloatSpec.v, FloatSimplexSpec.v; [corners o p] (SimplexSpec.v)
    says that o is an object of any history whose operator[] yields the corners p.  [area_unit e] is 2^-53 times the square of the bound 2^e on the
    coordinates.  The exact results for exact arithmetic are C47. *)
From Coq Require Import ZArith Reals List Arith Bool SpecFloat Lia Lra.
From Verif Require Import Base BaseProofs Num NumInst OrdField VectorModel DenseModel LUModel SimplexModel SimplexSpec ExampleBase FloatSpec FloatProofs PropFloat
  FloatSimplexSpec FloatSimplex.
Import ListNotations.
Local Open Scope R_scope.
Open Scope res_scope.

(** prepare() always succeeds and keeps the corners; determinant() is a finite double within 450 units of twice the signed area, and volume() is
    finite and within 250 units of the area.  Nothing is assumed about the shape: the triangle may be degenerate. *)
Theorem C94_prepare : forall (o : simplex NumF64) p e, corners o p -> coordinates e p ->
  returns (sx_prepare o) (fun o' => corners o' p /\
    returns (sx_determinant o') (fun d => finite d /\ Rabs (real d - exact_area2 p) <= 450 * area_unit e) /\
    returns (sx_volume o') (fun v => finite v /\ Rabs (real v - Rabs (exact_area2 p) / 2) <= 250 * area_unit e)).
Proof.
  intros o p e Hc Hp. destruct (prepare_float o p e Hc Hp) as (o' & E & C' & d & Hd & ->). exists (prepd p d). split; [exact E|]. split; [exact C'|].
  unfold area_unit. rewrite <- !Rmult_assoc. pose proof Hd as ((Dd & Fd) & B). rewrite <- !Rmult_assoc in B. split.
  - exists d. split; [reflexivity|]. auto.
  - destruct (volume_near p e d Hp Hd) as (v & Ev & Fv & Bv). rewrite <- !Rmult_assoc in Bv. exists v. auto.
Qed.
(** toGlobal() of coordinates of modulus at most c is within 20 * 2^-53 * 2^e * c of the exact point. *)
Theorem C94_to_global : forall (o o' : simplex NumF64) p e c, corners o p -> coordinates e p -> sx_prepare o = Ok o' -> 1 <= c <= powerRZ 2 400 ->
  forall l1 l2 : NumF64, double l1 -> finite l1 -> double l2 -> finite l2 -> Rabs (real l1) <= c -> Rabs (real l2) <= c ->
  exists a b, sx_toGlobal o' [l1; l2] = Ok [a; b] /\ finite a /\ finite b /\
    Rabs (real a - exact_point p (real l1) (real l2) 0) <= 20 * u64 * powerRZ 2 e * c /\
    Rabs (real b - exact_point p (real l1) (real l2) 1) <= 20 * u64 * powerRZ 2 e * c.
Proof.
  intros o o' p e c Hc Hp E Bc l1 l2 D1 F1 D2 F2 B1 B2. destruct (prepare_float o p e Hc Hp) as (o1 & E1 & _ & d & _ & ->). rewrite E in E1. injection E1 as ->.
  apply (global_near p e d c Hp Bc); auto; split; auto.
Qed.
(** toLocal(): for a point whose exact barycentric coordinates are l1, l2 the result is within 1000 units (1 + |l|) / (twice the area) of them,
    for every triangle with twice the area at least 1000 units. *)
Theorem C94_to_local : forall (o o' : simplex NumF64) p e, corners o p -> coordinates e p -> sx_prepare o = Ok o' -> 1000 * area_unit e <= Rabs (exact_area2 p) ->
  forall (x y : NumF64) l1 l2, double x -> finite x -> double y -> finite y -> Rabs (real x) <= powerRZ 2 e -> Rabs (real y) <= powerRZ 2 e ->
  real x = exact_point p l1 l2 0 -> real y = exact_point p l1 l2 1 ->
  exists a b, sx_toLocal o' [x; y] = Ok [a; b] /\ finite a /\ finite b /\
    Rabs (exact_area2 p) * Rabs (real a - l1) <= 1000 * area_unit e * (1 + Rabs l1) /\
    Rabs (exact_area2 p) * Rabs (real b - l2) <= 1000 * area_unit e * (1 + Rabs l2).
Proof.
  intros o o' p e Hc Hp E HA x y l1 l2 D1 F1 D2 F2 B1 B2 X Y. destruct (prepare_float o p e Hc Hp) as (o1 & E1 & _ & d & Hd & ->). rewrite E in E1. injection E1 as ->.
  unfold area_unit in *. rewrite <- !Rmult_assoc in *.
  assert (HA' : 1000 * u64 * (powerRZ 2 e * powerRZ 2 e) <= Rabs (exact_area2 p)) by (rewrite <- !Rmult_assoc; exact HA).
  destruct (local_near p e d Hp Hd HA' x y l1 l2) as (a & b & R & Fa & Fb & Ba & Bb); auto; try (split; assumption).
  rewrite <- !Rmult_assoc in Ba, Bb. exists a, b. auto.
Qed.
(** Every point of the plane has exact barycentric coordinates if the area is not 0. *)
Theorem C94_point_exists : forall p, exact_area2 p <> 0 -> forall x y : R, exists l1 l2, x = exact_point p l1 l2 0 /\ y = exact_point p l1 l2 1.
Proof.
  intros p H x y. exists (((real (p 2%nat 1%nat) - real (p 0%nat 1%nat)) * (x - real (p 0%nat 0%nat)) - (real (p 2%nat 0%nat) - real (p 0%nat 0%nat)) * (y - real (p 0%nat 1%nat))) / exact_area2 p),
    (((real (p 1%nat 0%nat) - real (p 0%nat 0%nat)) * (y - real (p 0%nat 1%nat)) - (real (p 1%nat 1%nat) - real (p 0%nat 1%nat)) * (x - real (p 0%nat 0%nat))) / exact_area2 p).
  unfold exact_point, exact_area2 in *. split; field; exact H.
Qed.
(** toLocal(toGlobal(l)) for a point of the reference triangle. *)
Theorem C94_roundtrip : forall (o o' : simplex NumF64) p e, corners o p -> coordinates e p -> (e < 400)%Z -> sx_prepare o = Ok o' -> 4000 * area_unit e <= Rabs (exact_area2 p) ->
  forall l1 l2 : NumF64, double l1 -> finite l1 -> double l2 -> finite l2 -> 0 <= real l1 -> 0 <= real l2 -> real l1 + real l2 <= 1 ->
  returns (sx_toGlobal o' [l1; l2]) (fun g => exists a b, sx_toLocal o' g = Ok [a; b] /\ finite a /\ finite b /\
    Rabs (exact_area2 p) * Rabs (real a - real l1) <= 10000 * area_unit e /\ Rabs (exact_area2 p) * Rabs (real b - real l2) <= 10000 * area_unit e).
Proof.
  intros o o' p e Hc Hp L E HA l1 l2 D1 F1 D2 F2 P1 P2 P3. destruct (prepare_float o p e Hc Hp) as (o1 & E1 & _ & d & Hd & ->). rewrite E in E1. injection E1 as ->.
  apply (roundtrip_near p e d); auto; split; auto.
Qed.

(** gradient(c) is within 2000 units * 2^e / (twice the area)^2 of the exact gradient of barycentric coordinate c, in both components. *)
Theorem C94_gradient : forall (o o' : simplex NumF64) p e, corners o p -> coordinates e p -> sx_prepare o = Ok o' -> 1000 * area_unit e <= Rabs (exact_area2 p) ->
  forall c, (c < 3)%nat -> exists a b g0 g1, sx_gradient o' c = Ok [a; b] /\ finite a /\ finite b /\ exact_gradient p c g0 g1 /\
    Rabs (exact_area2 p) * Rabs (exact_area2 p) * Rabs (real a - g0) <= 2000 * (powerRZ 2 e * area_unit e) /\
    Rabs (exact_area2 p) * Rabs (exact_area2 p) * Rabs (real b - g1) <= 2000 * (powerRZ 2 e * area_unit e).
Proof.
  intros o o' p e Hc Hp E HA c Lc. destruct (prepare_float o p e Hc Hp) as (o1 & E1 & _ & d & Hd & ->). rewrite E in E1. injection E1 as ->.
  unfold area_unit in *. rewrite <- !Rmult_assoc in *.
  assert (HA' : 1000 * u64 * (powerRZ 2 e * powerRZ 2 e) <= Rabs (exact_area2 p)) by (rewrite <- !Rmult_assoc; exact HA).
  destruct (gradient_near p e d Hp Hd HA' c Lc) as (a & b & g0 & g1 & R & Fa & Fb & X & Ba & Bb).
  exists a, b, g0, g1. split; [exact R|]. split; [exact Fa|]. split; [exact Fb|]. split; [exact X|]. split; [eapply Rle_trans; [exact Ba|]|eapply Rle_trans; [exact Bb|]]; apply Req_le; ring.
Qed.

(** diameter(), before or after prepare(), is within 6 unit roundoffs and 2^-529 of the length L of the longest edge, whatever the shape. *)
Theorem C94_diameter : forall (o : simplex NumF64) p e L, corners o p -> coordinates e p -> longest_edge p L ->
  returns (sx_diameter o) (fun d => finite d /\ Rabs (real d - L) <= 6 * u64 * L + powerRZ 2 (-529)).
Proof. intros o p e L Hc Hp HL. exact (diameter_near p e Hp o L (proj2 (corners_tri_any o p Hc)) HL). Qed.
Theorem C94_longest_edge_exists : forall p, exists L, longest_edge p L.
Proof. exact longest_exists. Qed.

(** faceCenter(i), before or after prepare(): both coordinates are within 3 * 2^-53 * 2^e of those of the midpoint of the two other corners. *)
Theorem C94_face_center : forall (o : simplex NumF64) p e i, corners o p -> coordinates e p -> (i < 3)%nat ->
  exists a b, sx_faceCenter o i = Ok [a; b] /\ finite a /\ finite b /\ forall j l, (j < 3)%nat -> (l < 3)%nat -> j <> i -> l <> i -> j <> l ->
    Rabs (real a - (real (p j 0%nat) + real (p l 0%nat)) / 2) <= 3 * u64 * powerRZ 2 e /\
    Rabs (real b - (real (p j 1%nat) + real (p l 1%nat)) / 2) <= 3 * u64 * powerRZ 2 e.
Proof. exact face_center_near. Qed.

(** ** Example: the triangle (0,0) (3,1) (1,2) with e = 2, and a sliver of area 2^-61 whose computed area is 0. *)
Definition tl : list (list NumF64) := [[fz 0; fz 0]; [fz 3; fz 1]; [fz 1; fz 2]].
Definition tp (i k : nat) : NumF64 := nth k (nth i tl []) n0.
Example C94_premises : exists o : simplex NumF64, sx_of_list tl = Ok o /\ corners o tp /\ coordinates 2 tp /\ exact_area2 tp = 5 /\
  4000 * area_unit 2 <= Rabs (exact_area2 tp).
Proof.
  assert (I : forall z, (Z.abs z <= 10)%Z -> double (fz z) /\ finite (fz z) /\ real (fz z) = IZR z).
  { intros z Hz. apply int_checked. assert (Hin : In z [-10;-9;-8;-7;-6;-5;-4;-3;-2;-1;0;1;2;3;4;5;6;7;8;9;10]%Z) by (cbn; lia).
    repeat (destruct Hin as [<-|Hin]; [vm_compute; reflexivity|]). destruct Hin. }
  assert (E : sx_of_list tl = Ok (get sx_new (sx_of_list tl))) by (apply ok_get; vm_compute; reflexivity).
  exists (get sx_new (sx_of_list tl)). split; [exact E|].
  split; [split; [eapply sm_list; exact E|]; intros i Hi; destruct i as [|[|[|i]]]; try lia; vm_compute; reflexivity|]. clear E.
  assert (A : exact_area2 tp = 5).
  { unfold exact_area2, tp, tl. cbn [nth]. repeat match goal with |- context[real (fz ?z)] => rewrite (proj2 (proj2 (I z ltac:(lia)))) end. lra. }
  split; [|split; [exact A|]].
  - split; [lia|]. intros i k Hi Hk. unfold tp, tl.
    destruct i as [|[|[|i]]]; try lia; destruct k as [|[|k]]; try lia; cbn [nth]; 
      match goal with |- context[real (fz ?z)] => destruct (I z ltac:(lia)) as (D & F & ->) end; (split; [exact D|split; [exact F|change (powerRZ 2 2) with (2 * (2 * 1)); rewrite Rabs_pos_eq; lra]]).
  - rewrite A, Rabs_pos_eq by lra. unfold area_unit. change (powerRZ 2 2) with (2 * (2 * 1)). pose proof tiny_u. lra.
Qed.
Example C94_example :
  (let* o := sx_of_list tl in let* o := sx_prepare o in
   let* d := sx_determinant o in let* v := sx_volume o in let* g := sx_toGlobal o [(fz 1 / fz 2)%num; (fz 1 / fz 4)%num] in let* l := sx_toLocal o g in
   Ok (v, g, check_finite (d :: l))) = Ok ((fz 5 / fz 2)%num, [(fz 7 / fz 4)%num; fz 1], true).
Proof. vm_compute. reflexivity. Qed.
Example C94_sliver : (let* o := sx_of_list [[fz 0; fz 0]; [(fz 1 / fz (2 ^ 60))%num; fz 0]; [fz 0; fz 1]] in let* o := sx_prepare o in sx_determinant o) = Ok n0.
Proof. vm_compute. reflexivity. Qed.
Example C94_example_diameter : (let* o := sx_of_list [[fz 1; fz 1]; [fz 5; fz 1]; [fz 1; fz 4]] in sx_diameter o) = Ok (fz 5).
Proof. vm_compute. reflexivity. Qed.
