(** Properties C28-C32: structured constructors, predicates, dense/sparse conversion.  Every statement
    is about both matrix types of the library ([library_matrix], [library_ops]); [holds m d1 d2 a] says
    that rows(), columns() and at(i,j) of m answer like the table a. *)
From Coq Require Import List Arith Bool ZArith QArith Lia.
From Verif Require Import Base Num NumInst NumC Spec VectorModel SparseModel SparseSpec DenseModel DenseSpec DenseProofs
  MatI MatOps MatOpsProofs UtilsSpec UtilsInst HilbertMath ConstructModel ConstructProofs ExampleBase.
Import ListNotations.
Local Open Scope nat_scope.
Open Scope res_scope.

(** The two template arguments M: DenseMatrix for any number type, SparseMatrix for exact arithmetic. *)
Inductive library_matrix (N : Num) : MatI N -> Prop :=
| lm_dense : library_matrix N (DenseI N)
| lm_sparse : FieldLaws N -> library_matrix N (SparseI N).
Inductive library_ops (N : Num) : MatOps N -> Prop :=
| lo_dense : FieldLaws N -> library_ops N (DenseOps N)
| lo_sparse : FieldLaws N -> library_ops N (SparseOps N).
Lemma lm_laws N I : library_matrix N I -> MatLaws I.
Proof. intros [|HF]; [exact dense_laws|exact (sparse_laws N HF)]. Qed.
Lemma lo_laws N M : library_ops N M -> OpLaws M.
Proof. intros [HF|HF]; [exact (dense_ops_laws N HF)|exact (sparse_ops_laws N HF)]. Qed.

Definition delta {N : Num} (i j : nat) : N := if i =? j then n1 else n0.

(** ** C28 *)
Theorem C28_eye (N : Num) : forall I, library_matrix N I -> forall d1 d2,
  (0 < d1 -> 0 < d2 -> returns (c_eye I d1 d2) (fun m => holds m d1 d2 delta)) /\
  (d1 = 0 \/ d2 = 0 -> c_eye I d1 d2 = Abort).
Proof. intros I HI d1 d2. apply lm_laws in HI. split; [exact (eye_ok HI d1 d2)|exact (eye_0 HI d1 d2)]. Qed.
Theorem C28_eye_fixed (N : Num) : forall k1 k2,
  returns (c_eye_fixed k1 k2) (fun m : DenseI N => holds m k1 k2 delta).
Proof. exact (@eye_fixed_ok N). Qed.
Theorem C28_diag (N : Num) : forall I, library_matrix N I -> forall v : list N, v <> [] ->
  returns (c_diag I v) (fun m => holds m (length v) (length v) (fun i j => if i =? j then nth i v n0 else n0)).
Proof. intros I HI. apply lm_laws in HI. exact (diag_ok HI). Qed.
Theorem C28_diag_of (N : Num) : forall I : MatI N, forall (m : I) d1 d2 a, holds m d1 d2 a ->
  c_diag_of I m = Ok (map (fun i => a i i) (seq 0 (Nat.min d1 d2))).
Proof. intros I. exact diag_of_ok. Qed.
Theorem C28_diag_round_trip (N : Num) : forall I, library_matrix N I -> forall v : list N, v <> [] ->
  (let* m := c_diag I v in c_diag_of I m) = Ok v.
Proof.
  intros I HI v Hv. apply lm_laws in HI. destruct (diag_ok HI v Hv) as (m & -> & Hm). cbn [bind].
  rewrite (diag_of_ok m _ _ _ Hm). rewrite Nat.min_id. f_equal. exact (diag_list v).
Qed.
Example C28_example :
  (let* m := c_diag (SparseI NumQc) [nofnat 3; n0; nofnat 5] in c_diag_of (SparseI NumQc) m)
  = Ok [nofnat 3; n0; nofnat 5].
Proof. apply C28_diag_round_trip; [apply lm_sparse; exact NumQc_field|discriminate]. Qed.

(** ** C29 *)
Theorem C29_tril (N : Num) : forall I, library_matrix N I -> forall (m : I) d1 d2 a (k : Z), 0 < d1 -> 0 < d2 ->
  holds m d1 d2 a ->
  returns (c_tril I m k) (fun r => holds r d1 d2 (fun i j => if (Z.of_nat j <=? Z.of_nat i + k)%Z then a i j else n0)).
Proof. intros I HI m d1 d2 a k. apply lm_laws in HI. exact (tril_ok HI m d1 d2 a k). Qed.
Theorem C29_triu (N : Num) : forall I, library_matrix N I -> forall (m : I) d1 d2 a (k : Z), 0 < d1 -> 0 < d2 ->
  holds m d1 d2 a ->
  returns (c_triu I m k) (fun r => holds r d1 d2 (fun i j => if (Z.of_nat i + k <=? Z.of_nat j)%Z then a i j else n0)).
Proof. intros I HI m d1 d2 a k. apply lm_laws in HI. exact (triu_ok HI m d1 d2 a k). Qed.
(** tril(m,k) and triu(m,k+1) split m: at every position one of them has m's entry, the other 0. *)
Theorem C29_split (N : Num) : forall I, library_matrix N I -> forall (m : I) d1 d2 a (k : Z), 0 < d1 -> 0 < d2 ->
  holds m d1 d2 a ->
  exists l u bl bu, c_tril I m k = Ok l /\ c_triu I m (k + 1) = Ok u /\ holds l d1 d2 bl /\ holds u d1 d2 bu /\
  forall i j, i < d1 -> j < d2 -> (bl i j = a i j /\ bu i j = n0) \/ (bl i j = n0 /\ bu i j = a i j).
Proof.
  intros I HI m d1 d2 a k H1 H2 Hm. apply lm_laws in HI.
  destruct (tril_ok HI m d1 d2 a k H1 H2 Hm) as (l & El & Hl). destruct (triu_ok HI m d1 d2 a (k + 1) H1 H2 Hm) as (u & Eu & Hu).
  exists l, u. do 2 eexists. split; [exact El|]. split; [exact Eu|]. split; [exact Hl|]. split; [exact Hu|].
  intros i j _ _. cbn beta. destruct (Z.leb_spec (Z.of_nat j) (Z.of_nat i + k)), (Z.leb_spec (Z.of_nat i + (k + 1)) (Z.of_nat j)); auto; lia.
Qed.
Example C29_example :
  (let* m := d_of_list [[fz 1; fz 2; fz 3]; [fz 4; fz 5; fz 6]] in
   let* l := c_tril (DenseI NumF64) m (-1) in Ok (dv l)) = Ok [fz 0; fz 0; fz 0; fz 4; fz 0; fz 0].
Proof. vm_compute. reflexivity. Qed.

(** ** C30 *)
Definition hilbert_entry {N : Num} (i j : nat) : N := (n1 / (nofnat (i + j) + n1))%num.
Theorem C30_hilbert (N : Num) : forall I, library_matrix N I -> forall d, 0 < d ->
  returns (c_hilbert I d) (fun m => holds m d d hilbert_entry).
Proof. intros I HI. apply lm_laws in HI. exact (hilbert_ok HI). Qed.
(** Up to dimension 14 inv_hilbert(d) is a two-sided inverse in exact arithmetic... *)
Theorem C30_inv_hilbert_partial (N : Num) (HF : FieldLaws N) (HN : NatLaws N) (H0 : forall n, @nofnat N (S n) <> n0) :
  forall I, library_matrix N I -> forall d, 0 < d -> d <= 14 ->
  returns (c_inv_hilbert I d) (fun m => exists b, holds m d d b /\ forall i j, i < d -> j < d ->
    bigsum d (fun k => b i k * hilbert_entry k j)%num = delta i j /\
    bigsum d (fun k => hilbert_entry i k * b k j)%num = delta i j).
Proof.
  intros I HI d H1 H2. apply lm_laws in HI.
  destruct (inv_hilbert_ok HI HF HN H0 d H1) as (m & E & Hm); [lia|exact (ih_fits_14 d H2)|].
  exists m. split; auto. exists (ih d). split; auto. intros i j Hi Hj. split.
  - exact (ih_left HF HN H0 d i j Hi Hj).
  - exact (ih_right HF HN H0 d i j Hi Hj).
Qed.
(** ... [BUG] at dimension 15 an entry no longer fits in size_t: the result is not an inverse. *)
Theorem C30_inv_hilbert_overflow_refuted (N : Num) (HF : FieldLaws N) (HN : NatLaws N)
  (H0 : forall n, @nofnat N (S n) <> n0) :
  forall I, library_matrix N I ->
  returns (c_inv_hilbert I 15) (fun m => exists b, holds m 15 15 b /\
    ~ (forall i j, i < 15 -> j < 15 -> bigsum 15 (fun k => b i k * hilbert_entry k j)%num = delta i j)).
Proof.
  intros I HI. apply lm_laws in HI.
  apply (inv_hilbert_wrong HI HF HN H0 15 10 10); try lia; [exact fits_15'|exact big_15].
Qed.
Example C30_example : FieldLaws NumQc /\ NatLaws NumQc /\ (forall n, @nofnat NumQc (S n) <> n0) /\
  (let* m := c_inv_hilbert (DenseI NumQc) 2 in Ok (map Qcanon.this (dv m))) =
  Ok [QArith_base.inject_Z 4; QArith_base.inject_Z (-6); QArith_base.inject_Z (-6); QArith_base.inject_Z 12].
Proof.
  split; [exact NumQc_field|]. split; [exact NumQc_nat|]. split; [exact NumQc_char0|]. vm_compute. reflexivity.
Qed.

(** ** C31: the predicates decide their definitions (exact arithmetic) *)
Theorem C31_orthogonal (N : Num) : forall M, library_ops N M -> forall (m : M) d1 d2 a, 0 < d1 -> 0 < d2 -> holds m d1 d2 a ->
  returns (ck_orthogonal M m) (fun r => r = true <-> d1 = d2 /\
    forall i j, i < d1 -> j < d1 -> bigsum d1 (fun k => a i k * a j k)%num = delta i j).
Proof. intros M HM. apply lo_laws in HM. exact (orth_ok HM). Qed.
Theorem C31_orthogonal_fixed (N : Num) : FieldLaws N -> forall (m : DenseI N) d a, holds m d d a ->
  returns (ck_orthogonal_fixed d m) (fun r => r = true <->
    forall i j, i < d -> j < d -> bigsum d (fun k => a i k * a j k)%num = delta i j).
Proof. exact orth_fixed_ok. Qed.
Theorem C31_unitary (N : Num) : ConjLaws N -> forall M, library_ops N M -> forall (m : M) d1 d2 a, 0 < d1 -> 0 < d2 -> holds m d1 d2 a ->
  returns (ck_unitary M m) (fun r => r = true <-> d1 = d2 /\
    forall i j, i < d1 -> j < d1 -> bigsum d1 (fun k => a i k * nconj (a j k))%num = delta i j).
Proof. intros HC M HM m d1 d2 a. apply lo_laws in HM. exact (unit_ok HM m d1 d2 a (cj_0 N HC)). Qed.
Theorem C31_projection (N : Num) : forall M, library_ops N M -> forall (m : M) d1 d2 a, 0 < d1 -> 0 < d2 -> holds m d1 d2 a ->
  returns (ck_projection M m) (fun r => r = true <-> d1 = d2 /\
    forall i j, i < d1 -> j < d1 -> bigsum d1 (fun k => a i k * a k j)%num = a i j).
Proof. intros M HM. apply lo_laws in HM. exact (proj_ok HM). Qed.
Theorem C31_symmetric (N : Num) : forall M, library_ops N M -> forall (m : M) d1 d2 a, 0 < d1 -> 0 < d2 -> holds m d1 d2 a ->
  returns (ck_symmetric M m) (fun r => r = true <-> d1 = d2 /\ forall i j, i < d1 -> j < d1 -> a j i = a i j).
Proof. intros M HM. apply lo_laws in HM. exact (symm_ok HM). Qed.
Theorem C31_hermitian (N : Num) : ConjLaws N -> forall M, library_ops N M -> forall (m : M) d1 d2 a, 0 < d1 -> 0 < d2 -> holds m d1 d2 a ->
  returns (ck_hermitian M m) (fun r => r = true <-> d1 = d2 /\ forall i j, i < d1 -> j < d1 -> nconj (a j i) = a i j).
Proof. intros HC M HM m d1 d2 a. apply lo_laws in HM. exact (herm_ok HM m d1 d2 a (cj_0 N HC)). Qed.
Theorem C31_skew_symmetric (N : Num) : forall M, library_ops N M -> forall (m : M) d1 d2 a, 0 < d1 -> 0 < d2 -> holds m d1 d2 a ->
  returns (ck_skewsymmetric M m) (fun r => r = true <-> d1 = d2 /\ forall i j, i < d1 -> j < d1 -> (- a j i)%num = a i j).
Proof. intros M HM. apply lo_laws in HM. exact (skew_ok HM). Qed.
Theorem C31_skew_hermitian (N : Num) : ConjLaws N -> forall M, library_ops N M -> forall (m : M) d1 d2 a, 0 < d1 -> 0 < d2 -> holds m d1 d2 a ->
  returns (ck_skewhermitian M m) (fun r => r = true <-> d1 = d2 /\ forall i j, i < d1 -> j < d1 -> (- nconj (a j i))%num = a i j).
Proof. intros HC M HM m d1 d2 a. apply lo_laws in HM. exact (skewh_ok HM m d1 d2 a (cj_0 N HC)). Qed.

(** A complex matrix that is hermitian and unitary but neither symmetric nor orthogonal: [[0,i],[-i,0]]. *)
Definition exY : dmat NumQi := mkD [(n0 : NumQi); (Qcanon.Q2Qc 0%Q, Qcanon.Q2Qc 1%Q); (Qcanon.Q2Qc 0%Q, Qcanon.Q2Qc (-1)%Q); (n0 : NumQi)] 2 2.
Example C31_example : FieldLaws NumQi /\ ConjLaws NumQi /\
  ck_hermitian (DenseOps NumQi) exY = Ok true /\ ck_symmetric (DenseOps NumQi) exY = Ok false /\
  ck_unitary (DenseOps NumQi) exY = Ok true /\ ck_orthogonal (DenseOps NumQi) exY = Ok false /\
  ck_skewsymmetric (DenseOps NumQi) exY = Ok true /\ ck_skewhermitian (DenseOps NumQi) exY = Ok false /\
  ck_projection (DenseOps NumQi) exY = Ok false.
Proof. split; [exact NumQi_field|]. split; [exact NumQi_conj|]. repeat split; vm_compute; reflexivity. Qed.

(** ** C32: conversion (IEEE doubles included; -0 becomes +0 in the sparse form) *)
Theorem C32_to_sparse (N : Num) : ZeroLaws N -> forall (m : DenseI N) d1 d2 a, 0 < d1 -> 0 < d2 -> holds m d1 d2 a ->
  returns (to_sparse m) (fun s => built s /\ reads s d1 d2 (fun i j => norm0 (a i j))).
Proof. exact to_sparse_ok. Qed.
Theorem C32_to_dense (N : Num) : ZeroLaws N -> forall (s : smat N) d1 d2 a, 0 < d1 -> 0 < d2 -> built s -> reads s d1 d2 a ->
  returns (to_dense s) (fun m : DenseI N => holds m d1 d2 a).
Proof. exact to_dense_ok. Qed.
Theorem C32_round_trips (N : Num) : FieldLaws N -> forall d1 d2 a, 0 < d1 -> 0 < d2 ->
  (forall m : DenseI N, holds m d1 d2 a -> returns (let* s := to_sparse m in to_dense s) (fun m' : DenseI N => holds m' d1 d2 a)) /\
  (forall s : SparseI N, holds s d1 d2 a -> returns (let* m := to_dense s in to_sparse m) (fun s' => @holds N (SparseI N) s' d1 d2 a)).
Proof. exact convert_round. Qed.
Example C32_example :
  (let* m := d_of_list [[fz 1; fz 0]; [fz 0; fz 4]] in let* s := @to_sparse NumF64 m in
   let* m' := to_dense s in Ok (s_filled s, dv m')) = Ok (2, [fz 1; fz 0; fz 0; fz 4]).
Proof. vm_compute. reflexivity. Qed.
