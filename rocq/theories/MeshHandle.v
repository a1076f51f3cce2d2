(** Model of the reference counted Mesh handles, src/lib/mesh/Mesh.inl:41-127.
    A program holds numbered Mesh variables; PrivateData objects live in a pool (None: deleted). *)
From Coq Require Import List Arith Bool.
From Verif Require Import Base Num MeshModel.
Import ListNotations.
Open Scope res_scope.

(** The member mData of a variable: destroyed variable, nullptr, or a pointer. *)
Inductive hval : Type := Gone | Null | At (p : nat).
(** The program state. *)
Record hst (N : Num) : Type := mkH { cells : list (option (nat * mst N)); vars : list hval }.
Arguments mkH {N} _ _.
Arguments cells {N} _.
Arguments vars {N} _.

Section MeshHandle.
Context {N : Num}.
Notation hst := (hst N).
(** What a program can do with Mesh variables.  New variables are appended. *)
Inductive hop : Type :=
| HNew                                   (* Mesh m; *)
| HCopy (y : nat)                        (* Mesh m(y); *)
| HMove (y : nat)                        (* Mesh m(std::move(y)); *)
| HDestroy (x : nat)                     (* the variable x goes out of scope *)
| HAssign (x y : nat)                    (* x = y; *)
| HMoveAssign (x y : nat)                (* x = std::move(y); *)
| HUse (x : nat) (f : mst N -> res (mst N)). (* a member function of x changing the shared data *)

(** A live variable; using a destroyed one is undefined. *)
Definition h_val (s : hst) (x : nat) : res hval :=
  match nth_error (vars s) x with Some Gone => UB | Some v => Ok v | None => UB end.
(** mData->Refs++ through the pointer, Mesh.inl:52, 92 *)
Definition h_inc (c : list (option (nat * mst N))) (v : hval) : res (list (option (nat * mst N))) :=
  match v with
  | At p => let* d := deref c p in store c p (S (fst d), snd d)
  | _ => UB
  end.
(** if(mData) { assert; Refs--; if 0 { clear(); delete } }, Mesh.inl:65-74, 80-89, 100-109 *)
Definition h_dec (c : list (option (nat * mst N))) (v : hval) : res (list (option (nat * mst N))) :=
  match v with
  | At p =>
    let* d := deref c p in
    let* _ := assert_ (0 <? fst d) in
    if fst d - 1 =? 0 then let* _ := m_clear (snd d) in free c p
    else store c p (fst d - 1, snd d)
  | _ => Ok c
  end.
Definition h_step (o : hop) (s : hst) : res hst :=
  match o with
  | HNew => (* Mesh.inl:41-46 *) Ok (mkH (cells s ++ [Some (1, m_new)]) (vars s ++ [At (length (cells s))]))
  | HCopy y => (* Mesh.inl:48-53 *)
      let* v := h_val s y in
      let* c := h_inc (cells s) v in
      Ok (mkH c (vars s ++ [v]))
  | HMove y => (* Mesh.inl:55-60 *)
      let* v := h_val s y in
      Ok (mkH (cells s) (upd (vars s) y Null ++ [v]))
  | HDestroy x => (* Mesh.inl:62-75 *)
      let* v := h_val s x in
      let* c := h_dec (cells s) v in
      Ok (mkH c (upd (vars s) x Gone))
  | HAssign x y => (* Mesh.inl:77-95 *)
      let* v := h_val s x in
      let* w := h_val s y in
      let* c := h_dec (cells s) v in
      let* c := h_inc c w in
      Ok (mkH c (upd (vars s) x w))
  | HMoveAssign x y => (* Mesh.inl:97-115 *)
      let* v := h_val s x in
      let* w := h_val s y in
      let* c := h_dec (cells s) v in
      Ok (mkH c (upd (upd (vars s) x w) y Null))
  | HUse x f => (* any member function: dereferences mData *)
      let* v := h_val s x in
      match v with
      | At p => let* d := deref (cells s) p in
                let* m := f (snd d) in
                let* c := store (cells s) p (fst d, m) in Ok (mkH c (vars s))
      | _ => UB
      end
  end.
Definition h_start : hst := mkH [] [].

(** A mesh that owns its objects: the lists hold different pointers to live objects. *)
Definition owning (s : mst N) : Prop :=
  NoDup (mV s) /\ NoDup (mE s) /\ (forall p, In p (mV s) -> exists x, deref (hv s) p = Ok x) /\
  (forall p, In p (mE s) -> exists x, deref (he s) p = Ok x).
(** What the program must respect: live variables, no copying or using of an empty (moved-from) handle, and no
    assignment of the only handle to itself; member functions keep the mesh owning. *)
Definition count (p : nat) (l : list hval) : nat := length (filter (fun v => match v with At q => q =? p | _ => false end) l).
Definition live (s : hst) (x : nat) : Prop := exists v, nth_error (vars s) x = Some v /\ v <> Gone.
Definition full (s : hst) (x p : nat) : Prop := nth_error (vars s) x = Some (At p).
Definition allowed (o : hop) (s : hst) : Prop :=
  match o with
  | HNew => True
  | HCopy y => exists p, full s y p
  | HMove y => live s y
  | HDestroy x => live s x
  | HAssign x y => live s x /\ exists p, full s y p /\ (x = y -> 1 < count p (vars s))
  | HMoveAssign x y => live s x /\ live s y
  | HUse x f => exists p d m, full s x p /\ deref (cells s) p = Ok d /\ f (snd d) = Ok m /\ owning m
  end.
(** Histories of allowed operations. *)
Inductive reachable : hst -> Prop :=
| r_start : reachable h_start
| r_step s o s' : reachable s -> allowed o s -> h_step o s = Ok s' -> reachable s'.
End MeshHandle.
Arguments hop : clear implicits.
