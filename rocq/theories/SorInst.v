(** The Archimedean property of the exact number systems, and single-level matrices for the block theorem. *)
From Coq Require Import List Arith Bool ZArith QArith Qround Qcanon Reals Lra Lia Ring Field.
From Verif Require Import Base BaseProofs Num NumInst NumEps OrdField UtilsSpec Spec SpecProofs VectorModel MatI MatIProofs MatOps DetSpec LUModel LUSolve CholProofs
  CGMath IterModel CGProofs CGResult IterProofs IterResult LinAlg SorConv SorBlock.
Import ListNotations.
Local Open Scope nat_scope.

Lemma arch_Qc : archimedean NumQc.
Proof.
  intros x. exists (Z.to_nat (Qceiling (this x))). 
  assert (H : (this x <= this (Q2Qc (inject_Z (Z.of_nat (Z.to_nat (Qceiling (this x)))))))%Q).
  { unfold Q2Qc, this at 2. rewrite Qred_correct. eapply Qle_trans; [apply Qle_ceiling|]. rewrite <- Zle_Qle. lia. }
  cbn [nleb NumQc nofnat]. apply Qle_bool_iff. exact H.
Qed.
Lemma arch_R : archimedean NumR.
Proof.
  intros x. exists (Z.to_nat (up (Rabs x))). assert (H : (x <= INR (Z.to_nat (up (Rabs x))))%R).
  { destruct (archimed (Rabs x)) as [H _]. pose proof (Rabs_pos x) as P. pose proof (Rle_abs x) as Q.
    assert (Hu : (0 <= up (Rabs x))%Z) by (apply le_IZR; lra). rewrite INR_IZR_INZ, Z2Nat.id by auto. lra. }
  apply Rle_bool_iff. exact H.
Qed.
Section OneLevel.
Context {N : Num} (HO : OrdFieldLaws N).
Let HF : FieldLaws N := of_field N HO.
Add Field olfld : (fl_field N HF).
Lemma one_level n (a : nat -> nat -> N) : symmetric2 n a -> pos_def n a -> levels n a (fun _ => 0) (fun _ => n1).
Proof.
  intros Hs Hp. split; [intros; lia|]. intros [|L].
  - assert (E : forall i j, cut a (fun _ => 0) (fun _ => n1) 0 i j = a i j) by (intros; unfold cut; cbn [Nat.eqb andb]; ring).
    split; [intros i j Hi Hj; rewrite !E; auto|]. intros x Hx. specialize (Hp x Hx).
    erewrite bigsum_ext; [exact Hp|]. intros i Hi. apply bigsum_ext. intros j Hj. now rewrite E.
  - assert (E : forall i j, cut a (fun _ => 0) (fun _ => n1) (S L) i j = if i =? j then n1 else n0) by (intros; unfold cut; cbn [Nat.eqb andb]; reflexivity).
    split; [intros i j Hi Hj; now rewrite !E, Nat.eqb_sym|]. intros x (i0 & Hi0 & Hx).
    rewrite (bigsum_ext n _ (fun i => x i * x i)%num).
    + apply (olt_le_trans HO) with (x i0 * x i0)%num; [now apply (olt_0_sqr HO)|]. apply (term_le_sum HO n (fun i => x i * x i)%num i0); auto. intros; apply (ole_0_sqr HO).
    + intros i Hi. rewrite (bigsum_single HF n i) by (auto; intros j Hj Hne; rewrite E, (proj2 (Nat.eqb_neq _ _)) by auto; ring). rewrite E, Nat.eqb_refl. ring.
Qed.
End OneLevel.
