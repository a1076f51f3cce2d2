(** Model of src/lib/Utils.h (namespace Math).  Index/size_t values are integers in [0, 2^64); the
    functions are modelled at T = size_t, the only integral type the library instantiates them with
    (MatrixConstructor.inl:120-122), sign_pow at every integral type. *)
From Coq Require Import List Arith Bool ZArith.
From Verif Require Import Base Num.
Import ListNotations.
Open Scope res_scope.
Local Open Scope Z_scope.

Definition M64 : Z := 2 ^ 64.
(** Unsigned arithmetic is modulo 2^64. *)
Definition u64 (x : Z) : Z := x mod M64.

(** sign_pow, Utils.h:26-31; % is C++ remainder (truncated) *)
Definition sign_pow (k : Z) : Z := if Z.rem k 2 =? 0 then 1 else -1.

(** factorial<size_t>, Utils.h:33-38; the recursion runs k times *)
Fixpoint u_factorial (k : nat) : Z :=
  match k with
  | O => 1
  | S k' => u64 (Z.of_nat k * u_factorial k')
  end.

(** The loop for (i = 2; i <= k; ++i) { v *= (n-k+i); v /= i; }, Utils.h:51-56.  Fuel [cnt]: k-1 rounds
    (k < 2^64 - 1, so that ++i does not wrap before the test fails). *)
Fixpoint u_binom_loop (cnt : nat) (n k i v : Z) : Z :=
  match cnt with
  | O => v
  | S c => u_binom_loop c n k (i + 1) (u64 (v * u64 (u64 (n - k) + i)) / i)
  end.
(** integral binom, Utils.h:40-59.  The recursive call is not guarded by any decreasing quantity:
    fuel, Hang when exhausted. *)
Fixpoint u_binom (fuel : nat) (n k : Z) : res Z :=
  match fuel with
  | O => Hang
  | S f =>
      if k =? 0 then Ok 1
      else if u64 (2 * k) >? n then u_binom f n (u64 (n - k))
      else Ok (u_binom_loop (Z.to_nat (k - 1)) n k 2 (u64 (u64 (n - k) + 1)))
  end.

(** real binom, Utils.h:61-73; [inv] is computed in double and converted to T (the same for double) *)
Definition r_binom {N : Num} (n : N) (k : nat) : res N :=
  for_ 0 k (fun i v => let inv := (n1 / nofnat (i + 1))%num in
                       Ok (v * ((n - nofnat i) * inv))%num) n1.
