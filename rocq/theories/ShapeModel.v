(** Model of PolyShapePolicy<T,K,Order> (src/lib/sf/PolyShapeFunction.h, .inl) and ShapeFunction<Policy>, which adds
    nothing to its policy (ShapeFunction.h:7-11).  prepareMesh is in MeshModel.v. *)
From Coq Require Import List Arith Bool ZArith.
From Verif Require Import Base Num VectorModel.
Import ListNotations.
Local Open Scope nat_scope.
Open Scope res_scope.

Section ShapeModel.
Context {N : Num}.
Notation vec := (list N).

(** the float constants: integers, and halves (both exact in every binary floating point type) *)
Definition cz (z : Z) : N :=
  match z with Z0 => nofnat 0 | Zpos p => nofnat (Pos.to_nat p) | Zneg p => (- nofnat (Pos.to_nat p))%num end.
Definition ch (z : Z) : N := (cz z / nofnat 2)%num.

(** PSF_Coeff_*, PolyShapeFunction.inl:11-81 (rows: component, columns: coefficient) *)
Definition coeff_1D_1 : list vec := map (map cz) [[1; -1]; [0; 1]]%Z. (* :13 *)
Definition coeff_1D_2 : list vec := map (map cz) [[1; -3; 2]; [0; 4; -4]; [0; -1; 2]]%Z. (* :16 *)
Definition coeff_2D_1 : list vec := map (map cz) [[1; -1; -1]; [0; 1; 0]; [0; 0; 1]]%Z. (* :25 *)
Definition coeff_2D_2 : list vec := map (map cz) (* :33-39 *)
  [[1; -3; -3;  4;  2;  2];
   [0; -1;  0;  0;  2;  0];
   [0;  0; -1;  0;  0;  2];
   [0;  4;  0; -4; -4;  0];
   [0;  0;  0;  4;  0;  0];
   [0;  0;  4; -4;  0; -4]]%Z.
Definition coeff_2D_3 : list vec := map (map ch) (* :49-59, in halves *)
  [[2; -11; -11;  36;  18;  18; -27; -27;  -9;  -9];
   [0;   2;   0;   0;  -9;   0;   0;   0;   9;   0];
   [0;   0;   2;   0;   0;  -9;   0;   0;   0;   9];
   [0;  18;   0; -45; -45;   0;  54;  27;  27;   0];
   [0;  -9;   0;   9;  36;   0; -27;   0; -27;   0];
   [0;   0;   0;  -9;   0;   0;  27;   0;   0;   0];
   [0;   0;   0;  -9;   0;   0;   0;  27;   0;   0];
   [0;   0;  -9;   9;   0;  36;   0; -27;   0; -27];
   [0;   0;  18; -45;   0; -45;  27;  54;   0;  27];
   [0;   0;   0;  54;   0;   0; -54; -54;   0;   0]]%Z.
Definition coeff_3D_1 : list vec := map (map cz) [[1; -1; -1; -1]; [0; 1; 0; 0]; [0; 0; 1; 0]; [0; 0; 0; 1]]%Z. (* :64-68 *)
Definition coeff_3D_2 : list vec := map (map cz) (* :71-81 *)
  [[1; -3; -3; -3;  4;  4;  4;  2;  2;  2];
   [0; -1;  0;  0;  0;  0;  0;  2;  0;  0];
   [0;  0; -1;  0;  0;  0;  0;  0;  2;  0];
   [0;  0;  0; -1;  0;  0;  0;  0;  0;  2];
   [0;  4;  0;  0; -4; -4;  0; -4;  0;  0];
   [0;  0;  0;  0;  4;  0;  0;  0;  0;  0];
   [0;  0;  4;  0; -4;  0; -4;  0; -4;  0];
   [0;  0;  0;  0;  0;  4;  0;  0;  0;  0];
   [0;  0;  0;  4;  0; -4; -4;  0;  0; -4];
   [0;  0;  0;  0;  0;  0;  4;  0;  0;  0]]%Z.

(** DOF, PolyShapeFunction.h:17 *)
Definition sf_dof (k o : nat) : nat := (k + 1) * o.
(** nodeValues[i] = 1 for i < DOF, PolyShapeFunction.inl:88-90 (likewise :185-187, :287-289) *)
Definition sf_ones (k o : nat) : res vec := for_ 0 (sf_dof k o) (fun i nv => v_set nv i n1) (v_new (sf_dof k o)).

(** One product of the sums below: nodeValues[c]*m*Coeff[component][c]*v[j]*..., from left to right; the factor m is
    absent where it is 1. *)
Definition sf_term (nv : vec) (tab : list vec) (comp : nat) (v : vec) (t : nat * nat * list nat) : res N :=
  let '(c, m, js) := t in
  let* a := v_at nv c in
  let a := if m =? 1 then a else (a * nofnat m)%num in
  let* row := vget tab comp in
  let* q := vget row c in
  foreach js (fun j p => let* x := v_at v j in Ok (p * x)%num) (a * q)%num.
(** The sum of such products, from left to right. *)
Definition sf_sum (nv : vec) (tab : list vec) (comp : nat) (v : vec) (ts : list (nat * nat * list nat)) : res N :=
  match ts with
  | [] => Ok n0
  | t :: r => let* a := sf_term nv tab comp v t in
              foreach r (fun t s => let* b := sf_term nv tab comp v t in Ok (s + b)%num) a
  end.

(** value(localComponent, v, nodeValues), PolyShapeFunction.inl:94-180.  For any other (K, Order) the function does not
    compile (static_assert); here Abort. *)
Definition sf_value_nv (k o comp : nat) (v nv : vec) : res N :=
  match k, o with
  | 1, 1 => let* _ := assert_ (comp <? 2) in sf_sum nv coeff_1D_1 comp v [(0,1,[]); (1,1,[0])]
  | 1, 2 => let* _ := assert_ (comp <? 3) in sf_sum nv coeff_1D_2 comp v [(0,1,[]); (1,1,[0]); (2,1,[0;0])]
  | 2, 1 => let* _ := assert_ (comp <? 3) in sf_sum nv coeff_2D_1 comp v [(0,1,[]); (1,1,[0]); (2,1,[1])]
  | 2, 2 => let* _ := assert_ (comp <? 6) in sf_sum nv coeff_2D_2 comp v
              [(0,1,[]); (1,1,[0]); (2,1,[1]); (3,1,[0;1]); (4,1,[0;0]); (5,1,[1;1])]
  | 2, 3 => let* _ := assert_ (comp <? 10) in sf_sum nv coeff_2D_3 comp v
              [(0,1,[]); (1,1,[0]); (2,1,[1]); (3,1,[0;1]); (4,1,[0;0]); (5,1,[1;1]);
               (6,1,[0;0;1]); (7,1,[0;1;1]); (8,1,[0;0;0]); (9,1,[1;1;1])]
  | 3, 1 => let* _ := assert_ (comp <? 4) in sf_sum nv coeff_3D_1 comp v [(0,1,[]); (1,1,[0]); (2,1,[1]); (3,1,[2])]
  | 3, 2 => let* _ := assert_ (comp <? 10) in sf_sum nv coeff_3D_2 comp v
              [(0,1,[]); (1,1,[0]); (2,1,[1]); (3,1,[2]); (4,1,[0;1]); (5,1,[0;2]); (6,1,[1;2]); (7,1,[0;0]); (8,1,[1;1]); (9,1,[2;2])]
  | _, _ => Abort
  end.
(** value(localComponent, v), :85-92 *)
Definition sf_value (k o comp : nat) (v : vec) : res N := let* nv := sf_ones k o in sf_value_nv k o comp v nv.

(** assignments to the components of g *)
Definition sf_fill (k : nat) (l : list (res N)) : res vec :=
  let* st := foreach l (fun e st => let '(i, g) := st in let* x := e in let* g := v_set g i x in Ok (S i, g)) (0, v_new k) in Ok (snd st).
(** gradient(localComponent, local, nodeValues), PolyShapeFunction.inl:191-282.  K = 2, Order = 1 has an additional factor
    nodeValues[0] (:214-215). *)
Definition sf_gradient_nv (k o comp : nat) (x nv : vec) : res vec :=
  match k, o with
  | 1, 1 => let* _ := assert_ (comp <? 2) in sf_fill 1 [sf_sum nv coeff_1D_1 comp x [(1,1,[])]]
  | 1, 2 => let* _ := assert_ (comp <? 3) in sf_fill 1 [sf_sum nv coeff_1D_2 comp x [(1,1,[]); (2,2,[0])]]
  | 2, 1 => let* _ := assert_ (comp <? 3) in
      let term c := let* a := v_at nv c in let* b := v_at nv 0 in let* row := vget coeff_2D_1 comp in let* q := vget row c in Ok (a * b * q)%num in
      sf_fill 2 [term 1; term 2]
  | 2, 2 => let* _ := assert_ (comp <? 6) in
      sf_fill 2 [sf_sum nv coeff_2D_2 comp x [(1,1,[]); (3,1,[1]); (4,2,[0])]; sf_sum nv coeff_2D_2 comp x [(2,1,[]); (3,1,[0]); (5,2,[1])]]
  | 2, 3 => let* _ := assert_ (comp <? 10) in
      sf_fill 2 [sf_sum nv coeff_2D_3 comp x [(1,1,[]); (3,1,[1]); (4,2,[0]); (6,2,[0;1]); (7,1,[1;1]); (8,3,[0;0])];
                 sf_sum nv coeff_2D_3 comp x [(2,1,[]); (3,1,[0]); (5,2,[1]); (6,1,[0;0]); (7,2,[0;1]); (9,3,[1;1])]]
  | 3, 1 => let* _ := assert_ (comp <? 4) in
      sf_fill 3 [sf_sum nv coeff_3D_1 comp x [(1,1,[])]; sf_sum nv coeff_3D_1 comp x [(2,1,[])]; sf_sum nv coeff_3D_1 comp x [(3,1,[])]]
  | 3, 2 => let* _ := assert_ (comp <? 10) in
      sf_fill 3 [sf_sum nv coeff_3D_2 comp x [(1,1,[]); (4,1,[1]); (5,1,[2]); (7,2,[0])];
                 sf_sum nv coeff_3D_2 comp x [(2,1,[]); (4,1,[0]); (6,1,[2]); (8,2,[1])];
                 sf_sum nv coeff_3D_2 comp x [(3,1,[]); (5,1,[0]); (6,1,[1]); (9,2,[2])]]
  | _, _ => Abort
  end.
(** gradient(localComponent, local), :182-189 *)
Definition sf_gradient (k o comp : nat) (x : vec) : res vec := let* nv := sf_ones k o in sf_gradient_nv k o comp x nv.

(** gradient2(localComponent, local, nodeValues), PolyShapeFunction.inl:293-362 *)
Definition sf_gradient2_nv (k o comp : nat) (x nv : vec) : res vec :=
  match k, o with
  | 1, 1 => let* _ := assert_ (comp <? 2) in sf_fill 1 [Ok (nofnat 0)]
  | 1, 2 => let* _ := assert_ (comp <? 3) in sf_fill 1 [sf_sum nv coeff_1D_2 comp x [(2,2,[])]]
  | 2, 1 => let* _ := assert_ (comp <? 3) in sf_fill 2 [Ok (nofnat 0); Ok (nofnat 0)]
  | 2, 2 => let* _ := assert_ (comp <? 6) in
      sf_fill 2 [sf_sum nv coeff_2D_2 comp x [(4,2,[])]; sf_sum nv coeff_2D_2 comp x [(5,2,[])]]
  | 2, 3 => let* _ := assert_ (comp <? 10) in
      sf_fill 2 [sf_sum nv coeff_2D_3 comp x [(4,2,[]); (6,2,[1]); (8,6,[0])]; sf_sum nv coeff_2D_3 comp x [(5,2,[]); (7,2,[1]); (9,6,[1])]]
  | 3, 1 => let* _ := assert_ (comp <? 4) in sf_fill 3 [Ok (nofnat 0); Ok (nofnat 0); Ok (nofnat 0)]
  | 3, 2 => let* _ := assert_ (comp <? 10) in
      sf_fill 3 [sf_sum nv coeff_3D_2 comp x [(7,2,[])]; sf_sum nv coeff_3D_2 comp x [(8,2,[])]; sf_sum nv coeff_3D_2 comp x [(9,2,[])]]
  | _, _ => Abort
  end.
(** gradient2(localComponent, local), :284-291 *)
Definition sf_gradient2 (k o comp : nat) (x : vec) : res vec := let* nv := sf_ones k o in sf_gradient2_nv k o comp x nv.
End ShapeModel.
