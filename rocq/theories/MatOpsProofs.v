(** DenseMatrix and SparseMatrix satisfy the interface laws (over a field). *)
From Coq Require Import List Arith Bool Lia Ring Field Field_theory.
From Verif Require Import Base BaseProofs Num Spec SpecProofs VectorModel VectorProofs SparseModel SparseSpec SparseProofs SparseOps
  SparseOps3 SparseFacts SparseFacts2 SparsePropProofs DenseModel DenseSpec DenseProofs DensePropProofs MatI MatIProofs MatOps.
Import ListNotations.
Local Open Scope nat_scope.
Open Scope res_scope.

Section MatOpsProofs.
Variable N : Num.
Variable HF : FieldLaws N.
Let HZ := field_zero_laws N HF.
Add Field NFmo : (fl_field N HF).

Lemma s_holds (m : smat N) d1 d2 a : @holds N (SparseI N) m d1 d2 a <-> built m /\ reads m d1 d2 a.
Proof. unfold holds, reads. cbn. tauto. Qed.
Lemma sparse_laws : MatLaws (SparseI N).
Proof.
  constructor; cbn.
  - intros m i j Hb Hi Hj. destruct (built_reads N HZ m Hb) as (a & _ & _ & H). eauto.
  - intros m i j H. now apply at_out.
  - intros m i j v Hb Hi Hj. destruct (built_reads N HZ m Hb) as (a & Hr).
    destruct (fact_set HZ m _ _ a i j v (built_inv HZ m Hb) Hr Hi Hj) as (m' & E & _ & (R1 & R2 & R3)).
    exists m'. split; auto. split; [eapply b_set; eauto|]. split; auto. split; auto.
    intros i' j' Hi' Hj'. rewrite R3 by auto. destruct Hr as (_ & _ & Hr). rewrite Hr by auto.
    unfold put. rewrite (norm0_id HF). destruct (_ && _); auto.
  - intros m i j v H. now apply set_out.
  - intros d1 d2 H1 H2. destruct (srep_new (N := N) d1 d2 H1 H2) as (m & E & _). exists m. split; auto.
    apply s_holds. split; [eapply b_new; eauto|]. now apply (new_inv HZ) in E.
  - intros d1 d2 H. unfold s_new. destruct (Nat.ltb_spec 0 d1); [|reflexivity].
    destruct (Nat.ltb_spec 0 d2); [|reflexivity]. lia.
Qed.
Lemma sparse_ops_laws : OpLaws (SparseOps N).
Proof.
  constructor; cbn.
  - exact sparse_laws.
  - intros A B d1 d2 d3 a b _ _ _ HA HB. apply s_holds in HA, HB. destruct HA, HB.
    destruct (mul_field N HF d1 d2 d3 a b A B) as (C & E & Hb & Hr); auto. exists C. split; auto. apply s_holds. auto.
  - intros A d1 d2 a v HA Hl. apply s_holds in HA. destruct HA. now apply (mulv_field N HF).
  - intros A v. apply SparseFacts2.mulv_mismatch.
  - intros A d1 d2 a _ _ HA. apply s_holds in HA. destruct HA as (HA & RA).
    destruct (transpose_entries N HZ d1 d2 a A HA RA) as (t & E & Hb & Hr & _). exists t. split; auto. apply s_holds. auto.
  - intros H0 A d1 d2 a _ _ HA. apply s_holds in HA. destruct HA as (HA & RA).
    destruct (fact_adjugate HZ A d1 d2 a (built_inv HZ _ HA) RA) as (t & E & _ & Hr).
    exists t. split; auto. apply s_holds. split; [eapply b_adjugate; eauto|].
    eapply reads_ext; [exact Hr|]. intros i j Hi Hj. unfold cj0. rewrite (norm0_id HF). destruct (is0 (a j i)) eqn:E0; auto.
    apply (is0_iff HF) in E0. now rewrite E0, H0.
  - intros A d1 d2 a HA. apply s_holds in HA. destruct HA as (HA & RA).
    destruct (scale_field N HF d1 d2 a A n0 HA RA) as (_ & C & E & Hb & Hr). exists C. split; auto. apply s_holds. auto.
  - intros A B d1 d2 a b HA HB. apply s_holds in HA, HB. destruct HA as (HA & RA), HB as (HB & RB).
    destruct (eq_entries N HZ d1 d2 d1 d2 a b A B HA HB RA RB) as (r & E & _ & H). exists r. split; auto. rewrite H. split.
    + intros (_ & _ & H1) i j Hi Hj. apply (fl_eqb N HF). auto.
    + intros H1. repeat split; auto. intros i j Hi Hj. apply (fl_eqb N HF). auto.
Qed.
Lemma dense_ops_laws : OpLaws (DenseOps N).
Proof.
  constructor; cbn.
  - exact dense_laws.
  - intros A B d1 d2 d3 a b H1 H2 H3 HA HB. apply holds_dreads in HA, HB. destruct HA as (_ & RA), HB as (_ & RB).
    destruct (mul_ok A B d1 d2 d3 a b RA RB) as (H & E). rewrite E by auto. exact H.
  - intros A d1 d2 a v HA Hl. apply holds_dreads in HA. destruct HA. now apply mulv_ok.
  - intros A v. apply DenseProofs.mulv_mismatch.
  - intros A d1 d2 a H1 H2 HA. apply holds_dreads in HA. destruct HA as (WA & RA).
    destruct (transpose_ok A d1 d2 a WA RA) as (H & E). rewrite E by auto. exact H.
  - intros _ A d1 d2 a H1 H2 HA. apply holds_dreads in HA. destruct HA as (WA & RA).
    exact (adjugate_ok A d1 d2 a WA RA H1 H2).
  - intros A d1 d2 a HA. apply holds_dreads in HA. destruct HA as (WA & RA). unfold d_neg. rewrite dscale_ok by auto.
    eexists. split; [reflexivity|]. destruct (dreads_tab _ _ _ _ WA RA) as (-> & -> & Ht).
    eapply holds_ext; [apply flat_holds|]. intros i j Hi Hj. cbn beta. rewrite Ht by auto. unfold tab. ring.
  - intros A B d1 d2 a b HA HB. apply holds_dreads in HA, HB. destruct HA as (WA & RA), HB as (WB & RB).
    destruct (dreads_tab _ _ _ _ WA RA) as (A1 & A2 & TA), (dreads_tab _ _ _ _ WB RB) as (B1 & B2 & TB).
    assert (E : d_eq A B = Ok (forallb (fun k => neqb (nth k (dv A) n0) (nth k (dv B) n0)) (seq 0 (d_size A)))).
    { unfold d_eq, d_rows, d_cols. rewrite <- A1, <- A2, <- B1, <- B2, !Nat.eqb_refl. cbn [negb orb].
      apply deq_loop; auto; unfold d_size, d_rows, d_cols; try lia; rewrite <- A1, <- A2, <- B1, <- B2; lia. }
    eexists. split; [exact E|]. rewrite forallb_forall. unfold d_size, d_rows, d_cols. rewrite <- A1, <- A2. split.
    + intros H i j Hi Hj. rewrite TA, TB by auto. unfold tab. rewrite <- A2, <- B2. apply (fl_eqb N HF). apply H.
      apply in_seq. pose proof (idx_lt _ _ _ _ Hi Hj). lia.
    + intros H k Hk. apply in_seq in Hk. destruct (idx_split k d1 d2) as (i & j & -> & Hi & Hj); [lia|].
      apply (fl_eqb N HF). specialize (H i j Hi Hj). rewrite TA, TB in H by auto. unfold tab in H. now rewrite <- A2, <- B2 in H.
Qed.
End MatOpsProofs.
