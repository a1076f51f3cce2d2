(** Model of src/lib/Normal.h and src/lib/Simplex.{h,inl}.  Simplex<T,K> has static_assert(K==2)
    (Simplex.inl:12), so only K = 2 exists; the loops are written with the constant [K].
    T is a real type: std::abs is [nabs] and complex_abs the identity (Types.h:78-82). *)
From Coq Require Import List Arith Bool ZArith.
From Verif Require Import Base Num VectorModel DenseModel MatI DenseSpec MatOps LUModel UtilsModel.
Import ListNotations.
Open Scope res_scope.

Section Normal.
Context {N : Num}.
(** The sub matrix of one component, Normal.h:22-37: row j is vectors[j] without component i;
    the inner variable p counts the columns written. *)
Definition nm_sub (K : nat) (vs : list (list N)) (i : nat) : res (dmat N) :=
  for_ 0 (K - 1) (fun j m =>
    let* st := for_ 0 K (fun k st =>
      let '(p, m) := st in
      if k =? i then Ok (p, m)
      else let* v := vget vs j in
           let* x := v_at v k in
           let* m := d_set m j p x in Ok (S p, m)) (0, m) in
    Ok (snd st)) (d_fixed_new (K - 1) (K - 1)).
(** Math::normal, Normal.h:15-46 *)
Definition nm_normal (K : nat) (vs : list (list N)) : res (list N) :=
  let* r := for_ 0 K (fun i r =>
    let* m := nm_sub K vs i in
    let* d := det_fixed m in
    v_set r i (if Nat.odd i then (- d)%num else d)) (v_new K) in
  v_normalized r.
End Normal.

(** The data members, Simplex.h:51-56 *)
Record simplex (N : Num) : Type := mkSx {
  sx_v : list (list N);      (* mVertices[K+1] *)
  sx_prep : bool;            (* mPrepared *)
  sx_m : dmat N;             (* mMatrix *)
  sx_inv : dmat N;           (* mInverseMatrix *)
  sx_det : N                 (* mDeterminant *)
}.
Arguments mkSx {N} _ _ _ _ _.
Arguments sx_v {N} _.
Arguments sx_prep {N} _.
Arguments sx_m {N} _.
Arguments sx_inv {N} _.
Arguments sx_det {N} _.

Section SimplexModel.
Context {N : Num}.
Notation sx := (simplex N).
Notation K := 2.

(** Simplex(), Simplex.inl:7-13 *)
Definition sx_new : sx := mkSx (repeat (v_new K) (K + 1)) false (d_fixed_new K K) (d_fixed_new K K) n0.
(** operator[] const / non-const, Simplex.inl:51-61: a plain array access, undefined out of range. *)
Definition sx_get (s : sx) (i : nat) : res (list N) := vget (sx_v s) i.
(** The assignment  s[i] = v  (v : FixedVector<T,K>) through the reference returned by operator[]. *)
Definition sx_put (s : sx) (i : nat) (v : list N) : res sx :=
  let* vs := vset (sx_v s) i v in
  Ok (mkSx vs (sx_prep s) (sx_m s) (sx_inv s) (sx_det s)).
(** Simplex(initializer_list), Simplex.inl:15-27 *)
Definition sx_of_list (l : list (list N)) : res sx :=
  let* _ := assert_ (length l =? K + 1) in
  let* st := foreach l (fun v st => let '(i, s) := st in
                         let* w := v_of_list_fixed K v in
                         let* s := sx_put s i w in Ok (S i, s)) (0, sx_new) in
  Ok (snd st).

(** prepare, Simplex.inl:29-49 *)
Definition sx_prepare (s : sx) : res sx :=
  let* m := for_ 1 (K + 1) (fun i m =>
    let* a := sx_get s i in
    let* b := sx_get s 0 in
    let* dist := v_sub a b in
    for_ 0 K (fun j m => let* x := v_at dist j in d_set m j (i - 1) x) m) (sx_m s) in
  let* d := det_fixed m in
  let* x := d_at m 1 1 in
  let* inv := d_set (sx_inv s) 0 0 x in
  let* x := d_at m 0 1 in
  let* inv := d_set inv 0 1 (- x)%num in
  let* x := d_at m 0 0 in
  let* inv := d_set inv 1 1 x in
  let* x := d_at m 1 0 in
  let* inv := d_set inv 1 0 (- x)%num in
  let* inv := d_scale_eq inv (n1 / d)%num in
  Ok (mkSx (sx_v s) true m inv d).

(** 1.0/Math::factorial(K); factorial is [u_factorial] (Utils.h:33-38) *)
Definition inv_fact : N := (n1 / nofnat (Z.to_nat (u_factorial K)))%num.
(** unitVolume, Simplex.inl:63-67 *)
Definition sx_unitVolume : N := inv_fact.
(** volume, Simplex.inl:69-74 *)
Definition sx_volume (s : sx) : res N :=
  let* _ := assert_ (sx_prep s) in Ok (nabs (inv_fact * sx_det s))%num.

(** center, Simplex.inl:76-87 *)
Definition sx_center (s : sx) : res (list N) :=
  let* v1 := sx_get s 1 in
  let* v0 := sx_get s 0 in
  let* a := v_sub v1 v0 in
  let* v2 := sx_get s 2 in
  let* b := v_sub v2 v0 in
  let v := v_new K in
  let* b1 := v_at b 1 in let* am := v_magSqr a in let* a1 := v_at a 1 in let* bm := v_magSqr b in
  let* v := v_set v 0 (b1 * am - a1 * bm)%num in
  let* a0 := v_at a 0 in let* b0 := v_at b 0 in
  let* v := v_set v 1 (a0 * bm - b0 * am)%num in
  let* h := v_divs v (nofnat 2) in
  v_scale h (sx_det s).
(** outerRadius, Simplex.inl:89-93 *)
Definition sx_outerRadius (s : sx) : res N :=
  let* c := sx_center s in
  let* v0 := sx_get s 0 in
  let* d := v_sub c v0 in v_mag d.
(** std::max(a,b): (a < b) ? b : a *)
Definition std_max (a b : N) : N := if nltb a b then b else a.
(** diameter, Simplex.inl:95-111 *)
Definition sx_diameter (s : sx) : res N :=
  let* r := for_ 0 (K + 1) (fun i r =>
    for_ 0 (K + 1) (fun j r =>
      if i =? j then Ok r
      else let* a := sx_get s i in
           let* b := sx_get s j in
           let* d := v_sub a b in
           let* q := v_magSqr d in Ok (std_max r q)) r) n0 in
  Ok (nsqrt r).
(** faceCenter, Simplex.inl:113-124 *)
Definition sx_faceCenter (s : sx) (i : nat) : res (list N) :=
  let* v := for_ 0 (K + 1) (fun j v =>
    if negb (j =? i) then let* w := sx_get s j in v_add_eq v w else Ok v) (v_new K) in
  v_divs v (nofnat K).
(** faceNormal, Simplex.inl:126-149.  [face] and [arr] are std::arrays of K and K-1 default vectors. *)
Definition sx_faceNormal (s : sx) (i : nat) : res (list N) :=
  let* st := for_ 0 (K + 1) (fun j st =>
    let '(p, face) := st in
    if j =? i then Ok (p, face)
    else let* w := sx_get s j in
         let* face := vset face p w in Ok (S p, face)) (0, repeat (v_new K) K) in
  let face := snd st in
  let* arr := for_ 0 (K - 1) (fun j arr =>
    let* a := vget face (j + 1) in
    let* b := vget face 0 in
    let* d := v_sub a b in vset arr j d) (repeat (v_new K) (K - 1)) in
  let* res := nm_normal K arr in
  let* c := sx_faceCenter s i in
  let* w := sx_get s i in
  let* d := v_sub c w in
  let* q := v_dot d res in
  if nltb q n0 then v_neg res else Ok res.
(** gradient, Simplex.inl:151-181 *)
Definition sx_gradient (s : sx) (c : nat) : res (list N) :=
  let* _ := assert_ (sx_prep s) in
  let* _ := assert_ (c <? K + 1) in
  let crd i j := (let* w := sx_get s i in v_at w j) in
  let diff i j k d := (let* x := crd i k in let* y := crd j k in v_set d (1 - k) (x - y)%num) in
  let d := v_new K in
  let* d := (match c with
             | 0 => let* d := diff 1 2 1 d in diff 2 1 0 d
             | 1 => let* d := diff 2 0 1 d in diff 0 2 0 d
             | 2 => let* d := diff 0 1 1 d in diff 1 0 0 d
             | _ => Ok d
             end) in
  v_scale d (n1 / sx_det s)%num.
(** toLocal / toGlobal, Simplex.inl:183-195 *)
Definition sx_toLocal (s : sx) (g : list N) : res (list N) :=
  let* _ := assert_ (sx_prep s) in
  let* v0 := sx_get s 0 in
  let* d := v_sub g v0 in d_mulv (sx_inv s) d.
Definition sx_toGlobal (s : sx) (l : list N) : res (list N) :=
  let* _ := assert_ (sx_prep s) in
  let* t := d_mulv (sx_m s) l in
  let* v0 := sx_get s 0 in v_add t v0.
(** matrix / inverseMatrix / determinant, Simplex.inl:197-216 *)
Definition sx_matrix (s : sx) : res (dmat N) := let* _ := assert_ (sx_prep s) in Ok (sx_m s).
Definition sx_inverseMatrix (s : sx) : res (dmat N) := let* _ := assert_ (sx_prep s) in Ok (sx_inv s).
Definition sx_determinant (s : sx) : res N := let* _ := assert_ (sx_prep s) in Ok (sx_det s).

(** The Simplex objects a program can hold: constructed, with vertices (FixedVectors of K numbers) assigned
    and prepare() called in any order. *)
Inductive sx_made : sx -> Prop :=
| sm_new : sx_made sx_new
| sm_list l s : sx_of_list l = Ok s -> sx_made s
| sm_put s i v s' : sx_made s -> length v = K -> sx_put s i v = Ok s' -> sx_made s'
| sm_prepare s s' : sx_made s -> sx_prepare s = Ok s' -> sx_made s'.
End SimplexModel.
