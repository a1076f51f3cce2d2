(** Vocabulary in which the sparse-matrix properties are stated: only calls of the class' public
    interface and plain tables of values.  No storage detail appears here. *)
From Coq Require Import List Arith Bool.
From Verif Require Import Base Num Spec VectorModel SparseModel.
Import ListNotations.
Open Scope res_scope.

Section SparseSpec.
Context {N : Num}.

(** The object answers rows(), columns() and at(i,j) like the d1 x d2 table [a]. *)
Definition reads (m : smat N) (d1 d2 : nat) (a : nat -> nat -> N) : Prop :=
  s_rows m = d1 /\ s_cols m = d2 /\
  forall i j, i < d1 -> j < d2 -> s_at m i j = Ok (a i j).

(** The iterators a user can have: begin() advanced some number of times by ++. *)
Inductive walks (m : smat N) : sit -> Prop :=
| w_begin it : s_begin m = Ok it -> walks m it
| w_next it it' : walks m it -> it_inc m it = Ok it' -> walks m it'.

(** The matrices a program can have: every way of obtaining a SparseMatrix from the public
    interface whose precondition holds.  (Scaling and the elementwise product are included when no
    product of two non-zero entries compares equal to 0, i.e. nothing underflows, and the
    elementwise product only in the situation in which it works, see C06; A -= A and swap are
    treated separately, see C05 and C09.) *)
Inductive built : smat N -> Prop :=
| b_new d1 d2 m : s_new d1 d2 = Ok m -> built m
| b_list l m : s_of_list l = Ok m -> built m
| b_set m i j v m' : built m -> s_set m i j v = Ok m' -> built m'
| b_lset m k v m' : built m -> s_linear_set m k v = Ok m' -> built m'
| b_erase m it m' it' : built m -> walks m it -> s_erase m it = Ok (m', it') -> built m'
| b_setit m it v m' it' : built m -> walks m it -> s_set_it m it v = Ok (m', it') -> built m'
| b_add a b m : built a -> built b -> s_rows a = s_rows b -> s_cols a = s_cols b ->
    s_add a b = Ok m -> built m
| b_sub a b m : built a -> built b -> s_rows a = s_rows b -> s_cols a = s_cols b ->
    s_sub a b = Ok m -> built m
| b_mul a b m : built a -> built b -> s_mul a b = Ok m -> built m
| b_scale a f m : built a ->
    (forall i j x, i < s_rows a -> j < s_cols a -> s_at a i j = Ok x ->
       is0 x = false -> is0 f = false -> is0 (nmul x f) = false) ->
    s_scale a f = Ok m -> built m
| b_transpose a m : built a -> s_transpose a = Ok m -> built m
| b_conjugate a m : built a -> s_conjugate a = Ok m -> built m
| b_adjugate a m : built a -> s_adjugate a = Ok m -> built m
| b_resize a d1 d2 m : built a -> s_resize a d1 d2 = Ok m -> built m.

(** Writes, as a program issues them. *)
Inductive wop : Type :=
| WSet (i j : nat) (v : N)      (* m.set(i,j,v) *)
| WLin (k : nat) (v : N).       (* m.linear_set(k,v) *)

Definition do_op (m : smat N) (o : wop) : res (smat N) :=
  match o with WSet i j v => s_set m i j v | WLin k v => s_linear_set m k v end.
Fixpoint run (m : smat N) (ops : list wop) : res (smat N) :=
  match ops with [] => Ok m | o :: t => let* m1 := do_op m o in run m1 t end.

(** The position a write addresses in a matrix with d2 columns, and its value. *)
Definition target (d2 : nat) (o : wop) : nat * nat :=
  match o with WSet i j _ => (i, j) | WLin k _ => (Nat.div k d2, Nat.modulo k d2) end.
Definition payload (o : wop) : N := match o with WSet _ _ v => v | WLin _ v => v end.
Definition in_range (d1 d2 : nat) (o : wop) : Prop :=
  match o with WSet i j _ => i < d1 /\ j < d2 | WLin k _ => k < d1 * d2 end.

(** The value of the last write to (i,j), [dflt] if there is none. *)
Fixpoint last_write (d2 : nat) (ops : list wop) (i j : nat) (dflt : N) : N :=
  match ops with
  | [] => dflt
  | o :: t => last_write d2 t i j
                (if (fst (target d2 o) =? i) && (snd (target d2 o) =? j) then payload o else dflt)
  end.

(** What a sum over the non-zero terms only, in index order, gives. *)
Definition sparse_dot (d : nat) (x y : nat -> N) : N :=
  fold_left (fun s j => (s + x j * y j)%num) (filter (fun j => negb (is0 (x j))) (seq 0 d)) n0.

(** The position following p in a list of positions. *)
Fixpoint after (p : nat * nat) (l : list (nat * nat)) : option (nat * nat) :=
  match l with
  | [] => None
  | q :: t => if (fst q =? fst p) && (snd q =? snd p) then hd_error t else after p t
  end.

(** The iterator designates no entry (it compares equal to end()). *)
Definition at_end (m : smat N) (it : sit) : Prop := it_valid m it = false.

(** x is the largest / smallest entry of the table. *)
Definition greatest (d1 d2 : nat) (a : nat -> nat -> N) (x : N) : Prop :=
  (exists i j, i < d1 /\ j < d2 /\ a i j = x) /\
  (forall i j, i < d1 -> j < d2 -> nleb (a i j) x = true).
Definition least (d1 d2 : nat) (a : nat -> nat -> N) (x : N) : Prop :=
  (exists i j, i < d1 /\ j < d2 /\ a i j = x) /\
  (forall i j, i < d1 -> j < d2 -> nleb x (a i j) = true).

End SparseSpec.
Arguments wop N : clear implicits.
