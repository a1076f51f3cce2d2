(** Property C85: the incomplete factorisation exists for M-matrices.
    [ilu_tables n n a l u] (DetSpec.v): l unit lower and u upper triangular, both zero where a is zero, and l*u = a on the
    pattern of a.  [neps] is the epsilon below which the library takes a pivot for zero. *)
From Coq Require Import List Arith Bool ZArith QArith Lia.
From Verif Require Import Base BaseProofs Num NumInst NumEps OrdField Spec SpecProofs VectorModel SparseModel SparseSpec DenseModel DenseSpec
  MatI MatIProofs MatOps MatOpsProofs ExampleBase DetSpec LUModel LUSolve LUResult ILUProofs ILUStable UtilsSpec GridModel GridSor ILUGrid PropLU.
Import ListNotations.
Local Open Scope nat_scope.
Open Scope res_scope.

(** Off-diagonal entries are not positive, row sums are not negative, and the row sum up to the diagonal exceeds epsilon. *)
Definition m_matrix {N : Num} (n : nat) (a : nat -> nat -> N) : Prop :=
  (forall i j, i < n -> j < n -> i <> j -> nleb (a i j) n0 = true) /\
  (forall i, i < n -> nleb n0 (bigsum n (a i)) = true) /\
  (forall i, i < n -> nltb neps (bigsum (S i) (a i)) = true).

(** The rows may also be multiplied by signs s(i) = +1 or -1: a library user may write the equations with either sign. *)
Theorem C85_m_matrix (N : Num) (HO : OrdFieldLaws N) : forall n a (s : nat -> N) (A L U : smat N), 0 < n ->
  @holds N (SparseI N) A n n a ->
  @holds N (SparseI N) L n n (fun _ _ => n0) -> @holds N (SparseI N) U n n (fun _ _ => n0) ->
  (forall i, i < n -> (s i * s i)%num = n1) -> m_matrix n (fun i j => s i * a i j)%num ->
  returns (ilu0 A L U) (fun LU => exists l u,
    @holds N (SparseI N) (fst LU) n n l /\ @holds N (SparseI N) (snd LU) n n u /\ ilu_tables n n a l u /\
    (* the factors are M-matrices again, with the same signs: off-diagonal entries, pivots and row sums *)
    (forall i k, i < n -> k < i -> nleb (s i * l i k * s k)%num n0 = true) /\
    (forall i j, i < j -> j < n -> nleb (s i * u i j)%num (s i * a i j)%num = true) /\
    (forall i, i < n -> nleb (bigsum (S i) (fun j => s i * a i j)%num) (s i * u i i)%num = true) /\
    (forall i, i < n -> nleb (bigsum n (fun j => s i * a i j)%num) (bigsum n (fun j => s i * u i j)%num) = true) /\
    (* what is dropped has the sign of the diagonal *)
    (forall i j, i < n -> j < n -> nleb (s i * a i j)%num (s i * bigsum n (fun k => l i k * u k j))%num = true)).
Proof.
  intros n a s A L U Hn HA HL HU Hs (H1 & H2 & H3).
  destruct (ilu0_signs HO n a s Hn Hs H1 H2 H3 A L U HA HL HU) as (LU & E & l & u & HLL & HUU & HT & HS).
  exists LU. split; [exact E|]. exists l, u. split; [exact HLL|]. split; [exact HUU|]. split; [exact HT|].
  split; [intros i k Hi Hk; now apply (HS i Hi)|]. split; [intros i j Hi Hj; apply (HS i); auto; lia|].
  split; [intros i Hi; apply (HS i Hi)|]. split; intros i; [intros Hi; apply (HS i Hi)|intros j Hi Hj].
  destruct (HS i Hi) as (_ & _ & _ & _ & H). specialize (H j Hj).
  replace (s i * bigsum n (fun k => l i k * u k j))%num with (bigsum n (fun k => s i * l i k * s k * (s k * u k j)))%num; [exact H|].
  rewrite <- (bigsum_mul_l (of_field N HO)). apply bigsum_ext. intros k Hk. exact (sign_product HO (s i) (l i k) (s k) (u k j) (Hs k Hk)).
Qed.
(** The factors can then be applied to every vector with solve(): the result solves L*U*x = b, and is not negative when the
    s(i)*b(i) are not. *)
Theorem C85_apply (N : Num) (HO : OrdFieldLaws N) : nltb (@neps N) n1 = true -> forall n a (s : nat -> N) (A L U : smat N) (b : list N), 0 < n ->
  @holds N (SparseI N) A n n a ->
  @holds N (SparseI N) L n n (fun _ _ => n0) -> @holds N (SparseI N) U n n (fun _ _ => n0) ->
  (forall i, i < n -> (s i * s i)%num = n1) -> m_matrix n (fun i j => s i * a i j)%num -> length b = n ->
  returns (let* LU := ilu0 A L U in solve_lu (M := SparseR N) (fst LU) (snd LU) b) (fun x => length x = n /\
    (exists l u, ilu_tables n n a l u /\
      forall i, i < n -> bigsum n (fun r => l i r * bigsum n (fun k => u r k * nth k x n0))%num = nth i b n0) /\
    ((forall i, i < n -> nleb n0 (s i * nth i b n0)%num = true) -> forall i, i < n -> nleb n0 (nth i x n0) = true)).
Proof.
  intros He n a s A L U b Hn HA HL HU Hs (H1 & H2 & H3). exact (ilu0_signs_apply HO n a s Hn Hs H1 H2 H3 A L U b He HA HL HU).
Qed.
(** In particular for the matrix and right-hand side of examples/poisson/fdm.cpp, on every grid. *)
Theorem C85_poisson (N : Num) (HO : OrdFieldLaws N) (HN : NatLaws N) : nltb (@neps N) n1 = true -> forall XC YC (H K : N) f b,
  0 < XC -> 0 < YC -> H <> n0 -> K <> n0 ->
  returns (let* AB := fdm_assemble XC YC H K f b in
           let* Z := s_new (N := N) (XC * YC) (XC * YC) in
           let* LU := ilu0 (fst AB) Z Z in
           solve_lu (M := SparseR N) (fst LU) (snd LU) (snd AB)) (fun x => length x = XC * YC).
Proof. intros He XC YC H K f b HX HY HH HK. exact (fdm_ilu HO HN XC YC H K f b HX HY HH HK He). Qed.

(** A weakly dominant matrix with a cyclic pattern (fill-in is dropped). *)
Definition ex85 : list (list Qe) :=
  [[qz 2; qz (-1); qz 0; qz (-1)]; [qz (-1); qz 2; qz (-1); qz 0]; [qz 0; qz (-1); qz 2; qz (-1)]; [qz (-1); qz 0; qz (-1); qz 3]].
Example C85_example :
  (let* A := s_of_list ex85 in let* Z := s_new 4 4 in let* r := ilu0 (N := Qe) A Z Z in
   let* x := solve_lu (M := SparseR Qe) (fst r) (snd r) [qz 1; qz 0; qz 0; qz 0] in
   Ok (show (sv (fst r)), show (sv (snd r)), show x)) =
  Ok ([1; -1 # 2; 1; -2 # 3; 1; -1 # 2; -3 # 4; 1]%Q, [2; -1; -1; 3 # 2; -1; 4 # 3; -1; 7 # 4]%Q,
      [15 # 14; 5 # 7; 4 # 7; 3 # 7]%Q).
Proof. vm_compute. reflexivity. Qed.
Example C85_example_hypotheses : nltb (@neps Qe) n1 = true /\ m_matrix 4 (fun i j => n1 * nth j (nth i ex85 []) n0)%num /\
  exists A : SparseI Qe, s_of_list ex85 = Ok A /\ holds A 4 4 (fun i j => nth j (nth i ex85 []) n0).
Proof.
  split; [vm_compute; reflexivity|]. split.
  - split; [|split].
    + intros i j Hi Hj Hne. destruct i as [|[|[|[|]]]]; try lia; destruct j as [|[|[|[|]]]]; try lia; vm_compute; reflexivity.
    + intros i Hi. destruct i as [|[|[|[|]]]]; try lia; vm_compute; reflexivity.
    + intros i Hi. destruct i as [|[|[|[|]]]]; try lia; vm_compute; reflexivity.
  - exists (get (mkS [] [] [] 0 n0 : smat Qe) (s_of_list ex85)). split; [apply ok_get; vm_compute; reflexivity|].
    apply (s_holds Qe). split; [apply b_list with (l := ex85); apply ok_get; vm_compute; reflexivity|].
    split; [vm_compute; reflexivity|]. split; [vm_compute; reflexivity|].
    intros i j Hi Hj. destruct i as [|[|[|[|]]]]; try lia; destruct j as [|[|[|[|]]]]; try lia; vm_compute; reflexivity.
Qed.
(** Without the third condition the elimination can meet a zero pivot. *)
Example C85_condition_needed :
  (let* A := s_of_list ([[qz 1; qz (-1); qz 0]; [qz (-1); qz 1; qz 0]; [qz 0; qz (-1); qz 1]] : list (list Qe)) in
   let* Z := s_new 3 3 in ilu0 (N := Qe) A Z Z) = Throw Singular.
Proof. vm_compute. reflexivity. Qed.
Example C85_poisson_example :
  (let* AB := fdm_assemble (N := Qe) 4 3 (qz 1) (qz 2) (fun _ _ => qz 1) (fun x _ => x) in
   let* Z := s_new (N := Qe) 12 12 in
   let* LU := ilu0 (fst AB) Z Z in
   let* x := solve_lu (M := SparseR Qe) (fst LU) (snd LU) (snd AB) in
   Ok (show (sv (fst LU)), show x)) =
  Ok ([1; 1; 1; 1; 1; 1; 4; 1; 1; -2 # 5; 1; 1; 1; 1; 1; 1]%Q, [0; 1; 2; 3; 0; 11 # 35; 9 # 7; 3; 0; 1; 2; 3]%Q).
Proof. vm_compute. reflexivity. Qed.
