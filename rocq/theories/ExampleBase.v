(** Helpers for writing concrete examples. *)
From Coq Require Import List ZArith QArith Qcanon.
From Verif Require Import Base Num NumInst.

Definition fz (z : Z) : NumF64 := f64_of_Z z.
Definition qz (z : Z) : NumQc := Q2Qc (inject_Z z).
Definition get {A} (d : A) (r : res A) : A := match r with Ok a => a | _ => d end.
Definition is_ok {A} (r : res A) : bool := match r with Ok _ => true | _ => false end.
Lemma ok_get {A} (d : A) r : is_ok r = true -> r = Ok (get d r).
Proof. destruct r; try discriminate. reflexivity. Qed.
Lemma ok_get2 {A B} (d : A * B) r : is_ok r = true -> r = Ok (fst (get d r), snd (get d r)).
Proof. destruct r as [[a b]| | | | |]; try discriminate. reflexivity. Qed.
