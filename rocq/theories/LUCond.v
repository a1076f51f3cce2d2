(** A matrix with an inverse that is not too large is not near a singular one. *)
From Coq Require Import List Arith Bool Lia Ring Field.
From Verif Require Import Base Num OrdField Spec SpecProofs DenseSpec DetSpec DetProofs LUModel LUProofs DetMult LUNear IterResult.
Import ListNotations.
Local Open Scope nat_scope.

Section Unique.
Context {N : Num} (HF : FieldLaws N).
Add Field lucfld0 : (fl_field N HF).
Implicit Types (a x : nat -> nat -> N).
Lemma inverse_unique n a x (y : nat -> nat -> N) :
  (forall i j, i < n -> j < n -> bigsum n (fun k => a i k * x k j)%num = if i =? j then n1 else n0) ->
  (forall i j, i < n -> j < n -> bigsum n (fun k => y i k * a k j)%num = if i =? j then n1 else n0) ->
  forall i j, i < n -> j < n -> y i j = x i j.
Proof.
  intros Hx Hy i j Hi Hj.
  assert (E : bigsum n (fun k => y i k * bigsum n (fun t => a k t * x t j))%num = y i j).
  { rewrite (bigsum_single HF n j); auto.
    - rewrite Hx by auto. rewrite Nat.eqb_refl. ring.
    - intros k Hk Hne. rewrite Hx by auto. apply Nat.eqb_neq in Hne. rewrite Hne. ring. }
  rewrite <- E. rewrite (bigsum_ext n _ (fun k => bigsum n (fun t => y i k * (a k t * x t j)))%num) by (intros; now rewrite (bigsum_mul_l HF)).
  rewrite (bigsum_swap HF). rewrite (bigsum_ext n _ (fun t => (if i =? t then n1 else n0) * x t j)%num).
  - rewrite (bigsum_single HF n i); auto; [rewrite Nat.eqb_refl; ring|].
    intros k Hk Hne. apply not_eq_sym, Nat.eqb_neq in Hne. rewrite Hne. ring.
  - intros t Ht. rewrite <- Hy by auto. rewrite <- (bigsum_mul_r HF). apply bigsum_ext. intros k Hk. ring.
Qed.
End Unique.

Section LUCond.
Context {N : Num} (HO : OrdFieldLaws N).
Let HF : FieldLaws N := of_field N HO.
Add Field lucfld : (fl_field N HF).
Notation le x y := (nleb x y = true).
Notation lt x y := (nltb x y = true).
Implicit Types (a x : nat -> nat -> N).

(** A table with a right inverse has a determinant that is not 0. *)
Lemma right_inverse_det n a x : (forall i j, i < n -> j < n -> bigsum n (fun k => a i k * x k j)%num = if i =? j then n1 else n0) -> det n a <> n0.
Proof.
  intros H E. assert (D : det n (prod2 n a x) = n1).
  { rewrite <- (det_id HF n). apply det_ext. intros i j Hi Hj. now apply H. }
  rewrite (det_mult HF), E in D. apply (one_neq_zero HO). rewrite <- D. ring.
Qed.
Lemma shifted_identity n (v : nat -> N) c : c < n -> (n1 + v c)%num <> n0 ->
  det n (fun i j => if j =? c then ((if i =? j then n1 else n0) + v i)%num else if i =? j then n1 else n0) <> n0.
Proof.
  intros Hc Hv. apply (right_inverse_det n _ (fun i j => if j =? c then ((if i =? j then n1 else n0) - v i / (n1 + v c))%num else if i =? j then n1 else n0)).
  intros i j Hi Hj.
  transitivity (bigsum n (fun k => (if i =? k then (if j =? c then ((if k =? j then n1 else n0) - v k / (n1 + v c))%num else if k =? j then n1 else n0) else n0)
     + (if k =? c then (v i * (if j =? c then ((if k =? j then n1 else n0) - v k / (n1 + v c))%num else if k =? j then n1 else n0))%num else n0))%num).
  { apply bigsum_ext. intros k Hk. destruct (k =? c), (i =? k); ring. }
  rewrite (bigsum_plus HF). rewrite (bigsum_single HF n i); auto; [|intros k Hk Hne; bcase; auto].
  rewrite (bigsum_single HF n c); auto; [|intros k Hk Hne; bcase; auto]. rewrite !Nat.eqb_refl.
  destruct (Nat.eqb_spec j c) as [->|Hj'].
  - rewrite Nat.eqb_refl. destruct (Nat.eqb_spec i c) as [->|]; field; auto.
  - replace (c =? j) with false by (symmetry; apply Nat.eqb_neq; lia). destruct (i =? j); ring.
Qed.
Lemma well_conditioned n a x : (forall i j, i < n -> j < n -> bigsum n (fun k => a i k * x k j)%num = if i =? j then n1 else n0) ->
  (forall i, i < n -> lt (neps * bigsum n (fun k => nabs (x i k)))%num n1) -> ~ near_singular n a.
Proof.
  intros Hx Hb (c & d & Hc & Hd & Hz). set (v := fun i => bigsum n (fun k => x i k * d k)%num).
  assert (V : lt (nabs (v c)) n1).
  { eapply (ole_lt_trans HO); [|apply (Hb c Hc)]. unfold v. eapply (ole_trans HO); [apply (bigsum_abs HO)|].
    rewrite <- (bigsum_mul_l HF). apply (bigsum_le HO). intros k Hk. rewrite (oabs_mul HO).
    replace (neps * nabs (x c k))%num with (nabs (x c k) * neps)%num by ring. apply (ole_mul_l HO); auto. apply (oabs_nonneg HO). }
  assert (V0 : (n1 + v c)%num <> n0).
  { intros E. assert (Ev : v c = (- n1)%num) by (transitivity ((n1 + v c) - n1)%num; [ring|]; rewrite E; ring).
    rewrite Ev, (oabs_opp HO) in V. rewrite (of_abs_pos N HO) in V by apply (olt_le HO), (olt_0_1 HO). now apply (olt_irrefl HO) in V. }
  apply (right_inverse_det n a x Hx). 
  pose proof (shifted_identity n v c Hc V0) as B.
  set (b := fun i j => if j =? c then ((if i =? j then n1 else n0) + v i)%num else if i =? j then n1 else n0) in *.
  assert (D : det n (prod2 n a b) = n0).
  { rewrite <- Hz. apply det_ext. intros i j Hi Hj. unfold prod2, b.
    assert (S1 : bigsum n (fun k => a i k * (if k =? j then n1 else n0))%num = a i j).
    { rewrite (bigsum_single HF n j); auto; [rewrite Nat.eqb_refl; ring|]. intros k Hk Hne. bcase. ring. }
    destruct (Nat.eqb_spec j c) as [->|Hne]; [|exact S1].
    transitivity (bigsum n (fun k => a i k * (if k =? c then n1 else n0) + a i k * v k)%num); [apply bigsum_ext; intros; ring|].
    rewrite (bigsum_plus HF), S1. f_equal. unfold v.
    transitivity (bigsum n (fun k => bigsum n (fun t => a i k * x k t * d t)))%num.
    { apply bigsum_ext. intros k Hk. rewrite <- (bigsum_mul_l HF). apply bigsum_ext. intros; ring. }
    rewrite (bigsum_swap HF). rewrite (bigsum_ext n _ (fun t => (if i =? t then n1 else n0) * d t)%num).
    - rewrite (bigsum_single HF n i); auto; [rewrite Nat.eqb_refl; ring|]. intros k Hk Hn. bcase. ring.
    - intros t Ht. rewrite (bigsum_mul_r HF). now rewrite Hx. }
  rewrite (det_mult HF) in D. transitivity (det n a * det n b / det n b)%num; [field; exact B|]. rewrite D. field. exact B.
Qed.
End LUCond.
Lemma post_returns {A} (r : res A) Q E : post r Q E -> (forall e, ~ E e) -> returns r Q.
Proof. destruct r as [x|e| | | |]; cbn [post]; try contradiction; intros H He; [exists x; auto|]. now apply He in H. Qed.
