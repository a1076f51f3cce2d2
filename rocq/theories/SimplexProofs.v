(** Evaluation of the Simplex functions on explicit coordinates, and the algebra of triangles. *)
From Coq Require Import List Arith Bool Lia Ring Field ZArith.
From Verif Require Import Base BaseProofs Num OrdField Spec VectorModel VectorProofs DenseModel MatI DenseSpec MatOps LUModel UtilsModel UtilsSpec SimplexModel.
Import ListNotations.
Local Open Scope nat_scope.
Open Scope res_scope.

Section Shape.
Context {N : Num}.
Definition tri (p : nat -> nat -> N) : list (list N) := [[p 0 0; p 0 1]; [p 1 0; p 1 1]; [p 2 0; p 2 1]].
(** Shape of all objects. *)
Definition sx_shape (s : simplex N) : Prop :=
  (exists p, sx_v s = tri p) /\ (exists a b c d, sx_m s = mkD [a; b; c; d] 2 2) /\
  (exists a b c d, sx_inv s = mkD [a; b; c; d] 2 2).

Lemma list2 (v : list N) : length v = 2 -> exists a b, v = [a; b].
Proof. destruct v as [|a [|b [|]]]; try discriminate. eauto. Qed.
Lemma put_shape s i v s' : sx_shape s -> length v = 2 -> sx_put s i v = Ok s' ->
  sx_shape s' /\ sx_v s' = upd (sx_v s) i v /\ i < 3 /\ sx_prep s' = sx_prep s.
Proof.
  intros ((p & Hp) & Hm & Hi) Hv. apply list2 in Hv as (a & b & ->). unfold sx_put, vset. rewrite Hp. cbn [length tri].
  destruct i as [|[|[|i]]]; cbn; intros E; inversion E; subst; (split; [split; [|split; assumption]|cbn; repeat split; auto; lia]); cbn [sx_v].
  - exists (fun j k => match j, k with 0, 0 => a | 0, _ => b | _, _ => p j k end). reflexivity.
  - exists (fun j k => match j, k with 1, 0 => a | 1, _ => b | _, _ => p j k end). reflexivity.
  - exists (fun j k => match j, k with 2, 0 => a | 2, _ => b | _, _ => p j k end). reflexivity.
Qed.
Lemma new_shape : sx_shape sx_new.
Proof. split; [exists (fun _ _ => n0); reflexivity|]. split; exists n0, n0, n0, n0; reflexivity. Qed.
Lemma fixed_len (l : list N) w : v_of_list_fixed 2 l = Ok w -> length w = 2.
Proof.
  unfold v_of_list_fixed, v_fill_from. intros E.
  assert (H : forall (l : list N) k u st, length u = 2 -> foreach l (fun x st => let '(i, v) := st in let* v' := v_set v i x in Ok (S i, v')) (k, u) = Ok st -> length (snd st) = 2).
  { clear. induction l as [|x l IH]; intros k u st Hu; cbn [foreach].
    - intros E. inversion E; subst. assumption.
    - unfold v_set, assert_, v_size, vset. destruct (k <? length u); cbn [bind]; [|discriminate]. apply IH. now rewrite upd_length. }
  destruct (foreach _ _ _) eqn:F; cbn in E; try discriminate. inversion E; subst. eapply H; [|exact F]. reflexivity.
Qed.
Lemma of_list_shape l s : sx_of_list l = Ok s -> sx_shape s /\ sx_prep s = false.
Proof.
  unfold sx_of_list, assert_. destruct (length l =? 2 + 1); cbn [bind]; [|discriminate].
  assert (H : forall (l : list (list N)) k (u : simplex N) st, sx_shape u /\ sx_prep u = false -> foreach l (fun v st => let '(i, s) := st in
                         let* w := v_of_list_fixed 2 v in
                         let* s := sx_put s i w in Ok (S i, s)) (k, u) = Ok st -> sx_shape (snd st) /\ sx_prep (snd st) = false).
  { clear. induction l as [|x l IH]; intros k u st Hu; cbn [foreach].
    - intros E. inversion E; subst. assumption.
    - destruct (v_of_list_fixed 2 x) eqn:F; cbn [bind]; try discriminate.
      destruct (sx_put u k a) eqn:G; cbn [bind]; try discriminate. apply IH.
      eapply put_shape in G as (H1 & _ & _ & H2); [| apply Hu | eapply fixed_len; exact F]. destruct Hu as (_ & Hp). split; congruence. }
  destruct (foreach _ _ _) eqn:F; cbn [bind]; try discriminate. intros E. inversion E; subst. eapply H; [|exact F].
  split; [exact new_shape|reflexivity].
Qed.
(** The matrix and its adjugate as prepare() computes them. *)
Definition pmat (p : nat -> nat -> N) : dmat N :=
  mkD [p 1 0 - p 0 0; p 2 0 - p 0 0; p 1 1 - p 0 1; p 2 1 - p 0 1]%num 2 2.
Definition pinv (p : nat -> nat -> N) (d : N) : dmat N :=
  mkD [(p 2 1 - p 0 1) * (n1 / d); - (p 2 0 - p 0 0) * (n1 / d); - (p 1 1 - p 0 1) * (n1 / d); (p 1 0 - p 0 0) * (n1 / d)]%num 2 2.
Lemma prepare_eq s p : sx_shape s -> sx_v s = tri p ->
  sx_prepare s = (let* d := det_fixed (pmat p) in Ok (mkSx (tri p) true (pmat p) (pinv p d) d)).
Proof.
  intros (_ & (a & b & c & d & Hm) & (a' & b' & c' & d' & Hi)) Hv. unfold sx_prepare, sx_get. rewrite Hv, Hm, Hi.
  unfold tri. cbn -[det_fixed]. fold (pmat p). destruct (det_fixed (pmat p)); reflexivity.
Qed.
End Shape.

Section Det.
Context {N : Num} (HO : OrdFieldLaws N).
Let HF : FieldLaws N := of_field N HO.
Add Field sfld : (fl_field N HF).
Notation le x y := (nleb x y = true).
Open Scope num_scope.

Lemma det1 (x : N) : det_fixed (mkD [x] 1 1) = Ok x.
Proof. cbn. f_equal. ring. Qed.

Lemma tiny_ne (x : N) : tiny x = false -> x <> n0.
Proof.
  unfold tiny. intros H ->. rewrite (proj2 (oabs_0_iff HO n0) eq_refl) in H. rewrite (of_eps N HO) in H. discriminate.
Qed.
Lemma tiny_le (x y : N) : le (nabs x) (nabs y) -> tiny y = true -> tiny x = true.
Proof. unfold tiny. intros. eapply (ole_trans HO); eauto. Qed.
Lemma det2 (a b c d : N) : det_fixed (mkD [a; b; c; d] 2 2) = Ok (if tiny a && tiny c then n0 else a * d - b * c).
Proof.
  unfold det_fixed, doolittle_dense, lu_main, lu_column, lu_pivot. cbn -[tiny].
  destruct (nleb (nabs a) (nabs c)) eqn:E; cbn -[tiny].
  - destruct (tiny c) eqn:Tc; cbn -[tiny].
    + rewrite (tiny_le a c E Tc). reflexivity.
    + rewrite andb_false_r. pose proof (tiny_ne c Tc). f_equal. field. assumption.
  - assert (E2 : le (nabs c) (nabs a)). { destruct (of_le_total N HO (nabs a) (nabs c)); auto. congruence. }
    destruct (tiny a) eqn:Ta; cbn -[tiny].
    + rewrite (tiny_le c a E2 Ta). reflexivity.
    + pose proof (tiny_ne a Ta). f_equal. field. assumption.
Qed.
End Det.
