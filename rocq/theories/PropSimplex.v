(** Properties C47-C49: triangles (Simplex<T,2>) and normals.
    [corners s p]: s is any Simplex object a program can hold and s[i] is the point (p i 0, p i 1);
    [proper p]: area not 0 and the first edge longer than epsilon (automatic in exact arithmetic, epsilon 0). *)
From Coq Require Import List Arith Bool ZArith QArith Lia Reals Lra.
From Verif Require Import Base BaseProofs Num NumInst NumEps OrdField Spec SpecProofs VectorModel DenseModel DenseSpec MatI MatOps DetSpec LUModel UtilsSpec UtilsInst
  ExampleBase CGMath CGProofs SimplexModel SimplexSpec SimplexProofs SimplexResult NormalProofs PropLU.
Import ListNotations.
Local Open Scope nat_scope.
Open Scope res_scope.

(** ** C47 *)
Theorem C47_corners (N : Num) (HO : OrdFieldLaws N) : forall s : simplex N, sx_made s -> exists p, corners s p.
Proof. exact (made_corners HO). Qed.
(** prepare() succeeds on every object; determinant() is twice the signed area (0 if the first edge is tiny). *)
Theorem C47_prepare (N : Num) (HO : OrdFieldLaws N) : forall (s : simplex N) p, corners s p ->
  returns (sx_prepare s) (fun s' => corners s' p /\ sx_determinant s' = Ok (if flat p then n0 else area2 p)).
Proof. exact (prepare_ok HO). Qed.
(** matrix() has the edges as columns and inverseMatrix() is its two-sided inverse. *)
Theorem C47_matrices (N : Num) (HO : OrdFieldLaws N) : forall (s s' : simplex N) p, corners s p -> proper p -> sx_prepare s = Ok s' ->
  exists M I, sx_matrix s' = Ok M /\ sx_inverseMatrix s' = Ok I /\
    holds (M : DenseI N) 2 2 (fun i j => (p (S j) i - p 0%nat i)%num) /\
    exists x, holds (I : DenseI N) 2 2 x /\
    (forall i j, i < 2 -> j < 2 -> bigsum 2 (fun k => (p (S k) i - p 0%nat i) * x k j)%num = if i =? j then n1 else n0) /\
    (forall i j, i < 2 -> j < 2 -> bigsum 2 (fun k => x i k * (p (S j) k - p 0%nat k))%num = if i =? j then n1 else n0).
Proof. exact (matrices_ok HO). Qed.
Theorem C47_roundtrip (N : Num) (HO : OrdFieldLaws N) : forall (s s' : simplex N) p, corners s p -> proper p -> sx_prepare s = Ok s' ->
  forall x, length x = 2 ->
  returns (sx_toGlobal s' x) (fun g => sx_toLocal s' g = Ok x) /\
  returns (sx_toLocal s' x) (fun l => sx_toGlobal s' l = Ok x).
Proof. exact (roundtrip HO). Qed.
(** The local coordinates are the (unique) barycentric coordinates of p 1 and p 2; toGlobal evaluates them. *)
Theorem C47_barycentric (N : Num) (HO : OrdFieldLaws N) : forall (s s' : simplex N) p, corners s p -> proper p -> sx_prepare s = Ok s' ->
  forall x, returns (sx_toLocal s' (vec2 x)) (fun l => exists l1 l2, l = [l1; l2] /\ barycentric p l1 l2 x /\
     forall m1 m2, barycentric p m1 m2 x -> m1 = l1 /\ m2 = l2).
Proof. exact (local_bary HO). Qed.
Theorem C47_to_global (N : Num) (HO : OrdFieldLaws N) : forall (s s' : simplex N) p, corners s p -> sx_prepare s = Ok s' ->
  forall l1 l2, returns (sx_toGlobal s' [l1; l2]) (fun g => exists x, g = vec2 x /\ barycentric p l1 l2 x).
Proof. exact (global_bary HO). Qed.
Theorem C47_reference (N : Num) (HO : OrdFieldLaws N) : forall (s s' : simplex N) p, corners s p -> proper p -> sx_prepare s = Ok s' ->
  sx_toLocal s' (vec2 (p 0)) = Ok [n0; n0] /\ sx_toLocal s' (vec2 (p 1)) = Ok [n1; n0] /\ sx_toLocal s' (vec2 (p 2)) = Ok [n0; n1].
Proof. exact (vertices_local HO). Qed.
Theorem C47_volume (N : Num) (HO : OrdFieldLaws N) (HN : NatLaws N) : forall (s s' : simplex N) p, corners s p -> sx_prepare s = Ok s' ->
  sx_volume s' = Ok (if flat p then n0 else nabs (area2 p) / (n1 + n1))%num.
Proof. exact (volume_ok HO HN). Qed.
(** unitVolume() is 1/2, the volume of the reference triangle; every volume is |determinant()| times it. *)
Theorem C47_unit_volume (N : Num) (HO : OrdFieldLaws N) (HN : NatLaws N) :
  (@sx_unitVolume N + sx_unitVolume = n1)%num /\
  forall (s s' : simplex N) p, corners s p -> sx_prepare s = Ok s' ->
    exists d, sx_determinant s' = Ok d /\ sx_volume s' = Ok (nabs d * sx_unitVolume)%num.
Proof. exact (unit_volume_ok HO HN). Qed.
(** Renumbering the corners and translating the triangle does not change the volume: in exact arithmetic
    (epsilon 0) always, otherwise if neither numbering has a tiny first edge. *)
Theorem C47_volume_invariant (N : Num) (HO : OrdFieldLaws N) (HN : NatLaws N) : forall (s s' t t' : simplex N) p q,
  corners s p -> sx_prepare s = Ok s' -> corners t q -> sx_prepare t = Ok t' ->
  (exists (sg : nat -> nat) (d : nat -> N), (forall i, i < 3 -> sg i < 3) /\ (forall i j, i < 3 -> j < 3 -> sg i = sg j -> i = j) /\
     forall i k, i < 3 -> k < 2 -> q i k = (p (sg i) k + d k)%num) ->
  @neps N = n0 \/ (flat p = false /\ flat q = false) -> sx_volume t' = sx_volume s'.
Proof. exact (volume_moved HO HN). Qed.
(** Every triangle of non-zero area is proper when epsilon is 0. *)
Theorem C47_proper_exact (N : Num) (HO : OrdFieldLaws N) : @neps N = n0 -> forall p : nat -> nat -> N, area2 p <> n0 -> proper p.
Proof.
  intros He p Ha. split; auto. destruct (flat p) eqn:E; auto. destruct (Ha (flat_exact HO p He E)).
Qed.
(** Without prepare() every query aborts. *)
Theorem C47_unprepared (N : Num) : forall l (s : simplex N), sx_of_list l = Ok s ->
  sx_volume s = Abort /\ sx_determinant s = Abort /\ sx_matrix s = Abort /\ sx_inverseMatrix s = Abort /\
  (forall x, sx_toLocal s x = Abort) /\ (forall x, sx_toGlobal s x = Abort) /\ (forall c, sx_gradient s c = Abort).
Proof.
  intros l s E. destruct (of_list_shape l s E) as (_ & Hp).
  unfold sx_volume, sx_determinant, sx_matrix, sx_inverseMatrix, sx_toLocal, sx_toGlobal, sx_gradient. rewrite Hp. repeat split; reflexivity.
Qed.
Theorem C47_wrong_size (N : Num) : forall l : list (list N), length l <> 3 -> sx_of_list l = Abort.
Proof. intros l H. unfold sx_of_list. apply Nat.eqb_neq in H. cbn [Nat.add]. now rewrite H. Qed.
(** [BUG] With the epsilon of double a small but non-degenerate triangle has volume 0, and the result depends on
    the numbering of the corners: exchanging corners 1 and 2 gives the right volume. *)
Theorem C47_tiny_refuted :
  let tiny_len := (Qcanon.Q2Qc (1 # 9007199254740992) : NumQc) in
  (let* s := @sx_of_list NumQc [[n0; n0]; [tiny_len; n0]; [n0; qz 1]] in let* s := sx_prepare s in
   let* v := sx_volume s in Ok (Qcanon.this v)) = Ok 0%Q /\
  (let* s := @sx_of_list NumQc [[n0; n0]; [n0; qz 1]; [tiny_len; n0]] in let* s := sx_prepare s in
   let* v := sx_volume s in Ok (Qcanon.this v)) = Ok (1 # 18014398509481984)%Q.
Proof. split; vm_compute; reflexivity. Qed.
(** Assigning a corner after prepare() leaves the object prepared with the old volume. *)
Theorem C47_stale :
  (let* s := @sx_of_list NumQc [[n0; n0]; [qz 1; n0]; [n0; qz 1]] in let* s := sx_prepare s in
   let* s := sx_put s 2 [qz 0; qz 7] in let* v := sx_volume s in Ok (Qcanon.this v)) = Ok (1 # 2)%Q.
Proof. vm_compute. reflexivity. Qed.
(** A triangle away from the origin: volume, toLocal of its centroid. *)
Definition ex47 : list (list NumQc) := [[qz 1; qz 2]; [qz 4; qz 3]; [qz 2; qz 7]].
Definition ex47p (i k : nat) : NumQc := nth k (nth i ex47 []) n0.
Example C47_example :
  (let* s := sx_of_list ex47 in let* s := sx_prepare s in let* v := sx_volume s in
   let* l := sx_toLocal s [Qcanon.Q2Qc (7 # 3); qz 4 : NumQc] in Ok (Qcanon.this v, map Qcanon.this l)) = Ok (7, [1 # 3; 1 # 3])%Q.
Proof. vm_compute. reflexivity. Qed.
Example C47_example_hypotheses : exists s : simplex NumQc, corners s ex47p /\ proper ex47p /\ exists s', sx_prepare s = Ok s'.
Proof.
  exists (get sx_new (sx_of_list ex47)). split; [|split].
  - split; [apply sm_list with ex47; apply ok_get; vm_compute; reflexivity|].
    intros i Hi. destruct i as [|[|[|]]]; try lia; vm_compute; reflexivity.
  - split; [|vm_compute; reflexivity]. intros E. apply (f_equal Qcanon.this) in E. vm_compute in E. discriminate.
  - eexists. apply (ok_get sx_new). vm_compute. reflexivity.
Qed.
Example C47_example_moved : exists (sg : nat -> nat) (d : nat -> NumQc), (forall i, i < 3 -> sg i < 3) /\
  (forall i j, i < 3 -> j < 3 -> sg i = sg j -> i = j) /\ sg 0 <> 0 /\ d 0 <> n0.
Proof.
  exists (fun i => (i + 1) mod 3), (fun _ => qz 5). repeat split.
  - intros i Hi. apply Nat.mod_upper_bound. lia.
  - intros i j Hi Hj. destruct i as [|[|[|]]]; try lia; destruct j as [|[|[|]]]; try lia; cbn; lia.
  - cbn. lia.
  - intros E. apply (f_equal Qcanon.this) in E. vm_compute in E. discriminate.
Qed.

(** ** C48.  gradient(c): moving from x to y changes the c-th barycentric coordinate by gradient . (y-x). *)
Theorem C48_gradient (N : Num) (HO : OrdFieldLaws N) : forall (s s' : simplex N) p c, corners s p -> proper p -> sx_prepare s = Ok s' -> c < 3 ->
  exists g, sx_gradient s' c = Ok (vec2 g) /\
  forall x y l1 l2 m1 m2, barycentric p l1 l2 x -> barycentric p m1 m2 y ->
    (match c with 0 => (n1 - m1 - m2) - (n1 - l1 - l2) | 1 => m1 - l1 | _ => m2 - l2 end)%num =
    (g 0%nat * (y 0%nat - x 0%nat) + g 1%nat * (y 1%nat - x 1%nat))%num.
Proof. exact (gradient_ok HO). Qed.
Theorem C48_gradient_range (N : Num) (HO : OrdFieldLaws N) : forall (s s' : simplex N) p c, corners s p -> sx_prepare s = Ok s' -> 3 <= c ->
  sx_gradient s' c = Abort.
Proof. exact (gradient_bad HO). Qed.
(** faceCenter(i) is the midpoint of the two other corners. *)
Theorem C48_face_center (N : Num) (HO : OrdFieldLaws N) (HN : NatLaws N) : forall (s : simplex N) p i, corners s p -> i < 3 ->
  exists c, sx_faceCenter s i = Ok (vec2 c) /\
  forall j l k, j < 3 -> l < 3 -> j <> i -> l <> i -> j <> l -> k < 2 -> ((n1 + n1) * c k = p j k + p l k)%num.
Proof. exact (faceCenter_ok HO HN). Qed.
(** faceNormal(i) has length 1, is orthogonal to face i and points away from corner i. *)
Theorem C48_face_normal (N : Num) (HO : OrdFieldLaws N) (HN : NatLaws N) (HS : SqrtLaws N) : forall (s : simplex N) p i,
  corners s p -> area2 p <> n0 -> i < 3 ->
  exists n, sx_faceNormal s i = Ok (vec2 n) /\ (n 0%nat * n 0%nat + n 1%nat * n 1%nat = n1)%num /\
  (forall j l, j < 3 -> l < 3 -> j <> i -> l <> i -> (n 0%nat * (p j 0%nat - p l 0%nat) + n 1%nat * (p j 1%nat - p l 1%nat) = n0)%num) /\
  forall j, j < 3 -> j <> i -> nltb n0 (n 0%nat * (p j 0%nat - p i 0%nat) + n 1%nat * (p j 1%nat - p i 1%nat))%num = true.
Proof. exact (faceNormal_ok HO HN HS). Qed.
(** operator[] and faceNormal do not check the index. *)
Theorem C48_face_range_refuted (N : Num) (HO : OrdFieldLaws N) : forall (s : simplex N) p i, corners s p -> 3 <= i -> sx_faceNormal s i = UB.
Proof. exact (face_bad HO). Qed.
(** Math::normal in any dimension K >= 2 (exact arithmetic): orthogonal to all K-1 vectors; if they can be completed
    by w to a basis, it has length 1, and it lies on the side of w exactly when (w, v0, v1, ...) is positively oriented. *)
Theorem C48_normal_any_dimension (N : Num) (HO : OrdFieldLaws N) (HS : SqrtLaws N) (Heps : @neps N = n0) : forall K (vs : list (list N)),
  2 <= K -> length vs = K - 1 -> (forall v, In v vs -> length v = K) ->
  let v := fun r c => nth c (nth r vs []) n0 in
  exists n, nm_normal K vs = Ok (V K n) /\
    (forall j, j < K - 1 -> dot K n (v j) = n0) /\
    forall w, det K (fun i j => match j with O => w i | S j => v j i end) <> n0 -> dot K n n = n1 /\
      (nltb n0 (dot K n w) = true <-> nltb n0 (det K (fun i j => match j with O => w i | S j => v j i end)) = true).
Proof. exact (normal_ok HO HS Heps). Qed.
Example C48_example :
  (let* s := sx_of_list ex47 in let* s := sx_prepare s in let* g := sx_gradient s 1 in let* c := sx_faceCenter s 0 in
   Ok (map Qcanon.this g, map Qcanon.this c)) = Ok ([5 # 14; -1 # 14], [3; 5])%Q.
Proof. vm_compute. reflexivity. Qed.
(** Doubles: the normal of the face opposite to corner 0 of (0,0),(4,0),(0,3) is (0.6,0.8) up to rounding. *)
Example C48_example_normal :
  (let* s := @sx_of_list NumF64 [[fz 0; fz 0]; [fz 4; fz 0]; [fz 0; fz 3]] in let* n := sx_faceNormal s 0 in
   Ok (map (fun x => nltb (nabs x) n1) n, map (fun x => nltb n0 x) n)) = Ok ([true; true], [true; true]).
Proof. vm_compute. reflexivity. Qed.
(** The hypotheses of C48_face_normal and C49 in the real numbers. *)
Definition exRp (i k : nat) : NumR := match i, k with 1, 0 => 4%R | 2, 1 => 3%R | _, _ => 0%R end.
Definition exRs : simplex NumR := mkSx (tri exRp) false (d_fixed_new 2 2) (d_fixed_new 2 2) n0.
Lemma exR_corners : corners exRs exRp.
Proof.
  split; [apply sm_list with (tri exRp); reflexivity|]. intros i Hi. destruct i as [|[|[|]]]; try lia; reflexivity.
Qed.
Lemma exR_area : area2 exRp <> n0.
Proof. cbn. lra. Qed.
Example C48_example_hypotheses : corners exRs exRp /\ area2 exRp <> n0 /\ OrdFieldLaws NumR /\ SqrtLaws NumR /\ NatLaws NumR.
Proof. split; [exact exR_corners|]. split; [exact exR_area|]. split; [exact NumR_ord|]. split; [exact NumR_sqrt|exact NumR_nat]. Qed.
(** The hypotheses of C48_normal_any_dimension: two vectors in space. *)
Definition NumR0 : Num := with_eps NumR 0%R.
Definition exN : list (list NumR0) := [[1; 0; 0]; [1; 2; 0]]%R.
Example C48_example_space : OrdFieldLaws NumR0 /\ SqrtLaws NumR0 /\ @neps NumR0 = n0 /\ length exN = 3 - 1 /\
  (forall v, In v exN -> length v = 3) /\
  det 3 (fun i j => match j with O => (match i with 2 => 1%R | _ => 0%R end : NumR0) | S j => nth i (nth j exN []) n0 end) <> n0.
Proof.
  split; [|split; [|split; [|split; [|split]]]].
  - apply with_eps_ord; [exact NumR_ord|]. apply (ole_refl NumR_ord).
  - destruct NumR_sqrt as [H1 H2]. constructor; assumption.
  - reflexivity.
  - reflexivity.
  - intros v [<-|[<-|[]]]; reflexivity.
  - cbn. lra.
Qed.

(** ** C49.  diameter() is the length of the longest edge. *)
Theorem C49_diameter (N : Num) (HO : OrdFieldLaws N) (HS : SqrtLaws N) : forall (s : simplex N) p, corners s p ->
  exists d, sx_diameter s = Ok d /\ nleb n0 d = true /\
    (exists i j, i < 3 /\ j < 3 /\ i <> j /\ (d * d)%num = dist2 (p i) (p j)) /\
    forall i j, i < 3 -> j < 3 -> nleb (dist2 (p i) (p j)) (d * d)%num = true.
Proof. exact (diameter_ok HO HS). Qed.
(** center() does not return the circumcentre: the circumcentre is p0 + center()/determinant()^2. *)
Theorem C49_center_partial (N : Num) (HO : OrdFieldLaws N) (HN : NatLaws N) : forall (s s' : simplex N) p, corners s p -> proper p -> sx_prepare s = Ok s' ->
  exists c, sx_center s' = Ok (vec2 c) /\
   let z := fun k => (p 0%nat k + c k / (area2 p * area2 p))%num in
   dist2 z (p 0) = dist2 z (p 1) /\ dist2 z (p 0) = dist2 z (p 2).
Proof. exact (center_ok HO HN). Qed.
Definition ex49 : list (list NumQc) := [[qz 0; qz 0]; [qz 2; qz 0]; [qz 0; qz 2]].
(** [BUG] The circumcentre of (0,0),(2,0),(0,2) is (1,1); center() returns (16,16). *)
Theorem C49_center_refuted :
  (let* s := sx_of_list ex49 in let* s := sx_prepare s in let* c := sx_center s in Ok (map Qcanon.this c)) = Ok [16; 16]%Q /\
  ~ (forall (s s' : simplex NumQc) p, corners s p -> proper p -> sx_prepare s = Ok s' ->
      exists c, sx_center s' = Ok (vec2 c) /\ dist2 c (p 0) = dist2 c (p 1) /\ dist2 c (p 0) = dist2 c (p 2)).
Proof.
  split; [vm_compute; reflexivity|]. intros H.
  pose (p := fun i k => nth k (nth i ex49 []) n0 : NumQc).
  destruct (H (get sx_new (sx_of_list ex49)) (get sx_new (sx_prepare (get sx_new (sx_of_list ex49)))) p) as (c & Hc & H1 & _).
  - split; [apply sm_list with ex49; apply ok_get; vm_compute; reflexivity|].
    intros i Hi. destruct i as [|[|[|]]]; try lia; vm_compute; reflexivity.
  - split; [|vm_compute; reflexivity]. intros E. apply (f_equal Qcanon.this) in E. vm_compute in E. discriminate.
  - apply ok_get. vm_compute. reflexivity.
  - assert (Hc2 : sx_center (get sx_new (sx_prepare (get sx_new (sx_of_list ex49)))) = Ok [qz 16; qz 16]) by (vm_compute; reflexivity).
    rewrite Hc in Hc2. injection Hc2 as E0 E1. unfold dist2 in H1. rewrite E0, E1 in H1. subst p. clear - H1.
    apply (f_equal (fun x : Qcanon.Qc => Qeq_bool (Qcanon.this x) 512)) in H1. vm_compute in H1. discriminate H1.
Qed.
(** outerRadius() is the distance from center() to corner 0, whatever center() returned ... *)
Theorem C49_radius_partial (N : Num) (HO : OrdFieldLaws N) (HS : SqrtLaws N) : forall (s : simplex N) c, (exists p, corners s p) ->
  sx_center s = Ok (vec2 c) ->
  exists r v0, sx_outerRadius s = Ok r /\ sx_get s 0 = Ok (vec2 v0) /\ nleb n0 r = true /\ (r * r)%num = dist2 c v0.
Proof. exact (radius_ok HO HS). Qed.
(** ... so [BUG] for (0,0),(2,0),(0,2), in doubles, it is larger than 22 instead of sqrt 2. *)
Theorem C49_radius_refuted :
  (let* s := @sx_of_list NumF64 [[fz 0; fz 0]; [fz 2; fz 0]; [fz 0; fz 2]] in let* s := sx_prepare s in
   let* r := sx_outerRadius s in Ok (nltb (fz 22) r)) = Ok true.
Proof. vm_compute. reflexivity. Qed.
Example C49_example :
  (let* s := @sx_of_list NumF64 [[fz 1; fz 1]; [fz 5; fz 1]; [fz 1; fz 4]] in let* d := sx_diameter s in Ok (neqb d (fz 5))) = Ok true.
Proof. vm_compute. reflexivity. Qed.
Example C49_example_hypotheses : corners exRs exRp /\ OrdFieldLaws NumR /\ SqrtLaws NumR.
Proof. split; [exact exR_corners|]. split; [exact NumR_ord|exact NumR_sqrt]. Qed.
