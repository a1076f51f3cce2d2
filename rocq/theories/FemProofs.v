(** The assembly loops of the finite element example. *)
From Coq Require Import List Arith Bool ZArith Lia Ring Field.
From Verif Require Import Base BaseProofs Num OrdField UtilsModel UtilsSpec Spec SpecProofs VectorModel VectorProofs SparseModel DenseModel DenseSpec DenseProofs MatI MatIProofs
  MatOps MatOpsProofs LUModel DetSpec LUSolve SimplexModel SimplexSpec SimplexProofs SimplexResult MeshModel MeshSpec MeshDofSpec
  MeshDofResult ShapeModel ShapeSpec ShapeProofs QuadModel QuadSpec QuadProofs FemModel FemSpec.
Import ListNotations.
Local Open Scope nat_scope.
Open Scope res_scope.

Section Fem.
Context {N : Num} (HO : OrdFieldLaws N) (HN : NatLaws N).
Let HF : FieldLaws N := of_field N HO.
Add Field femfld : (fl_field N HF).

(** *** Shape functions *)
Ltac lit := cbv [Pos.to_nat Pos.iter_op Nat.add]; rewrite ?(nl_S N HN), ?(nl_0 N HN).
Lemma ok_cons' (a b : N) (l m : list N) : a = b -> Ok l = Ok m -> Ok (a :: l) = Ok (b :: m). Proof. congruence. Qed.
Definition low (o : nat) : Prop := o = 1 \/ o = 2.
Lemma grad_ok o k (x y : N) : low o -> k < 3 * o -> sf_gradient 2 o k [x; y] = Ok [dshape o k 0 x y; dshape o k 1 x y].
Proof.
  intros [-> | ->] Hk; unfold sf_gradient; rewrite ones_is; cbn [bind]; cbn in Hk; repeat (destruct k as [|k]; [|try lia]); try lia;
  (cbn; repeat (apply ok_cons'; [lit; ring|]); reflexivity).
Qed.
Lemma ok_val' (a b : N) : a = b -> Ok a = Ok b. Proof. congruence. Qed.
Lemma value_ok o k (x y : N) : low o -> k < 3 * o -> sf_value 2 o k [x; y] = Ok (shape o k x y).
Proof.
  intros [-> | ->] Hk; unfold sf_value; rewrite ones_is; cbn [bind]; cbn in Hk; repeat (destruct k as [|k]; [|try lia]); try lia;
  (cbn; apply ok_val'; lit; ring).
Qed.
(** *** Quadrature *)
Lemma half_vol (w : N) : (w * unit_volume 2)%num = (w / (n1 + n1))%num.
Proof. unfold unit_volume. change (Z.to_nat (u_factorial 2)) with 2. rewrite (nat2 HF HN). field. exact (two_nz' HO). Qed.
Lemma rule_sum o (h : N -> N -> N) : low o ->
  wsum (nweights 2 (o + 1)) (map (fun p => h (nth 0 p n0) (nth 1 p n0)) (gl_points 2 (o + 1))) = rule o h.
Proof.
  intros Ho. assert (L : length (nweights 2 (o + 1)) = length (@gl_points N 2 (o + 1))) by (symmetry; apply rule_len; destruct Ho as [-> | ->]; cbn; auto 10).
  rewrite (wsum_nth HF) by (rewrite map_length; exact L). unfold rule. rewrite L. apply bigsum_ext. intros q Hq. f_equal.
  - unfold nweights, qw in *. rewrite map_length in L. rewrite (nth_indep _ n0 (n0 * unit_volume 2)%num) by (rewrite map_length; lia).
    rewrite (map_nth (fun w => w * unit_volume 2)%num). apply half_vol.
  - rewrite (nth_indep _ n0 (h (nth 0 [] n0) (nth 1 [] n0))) by (rewrite map_length; auto). rewrite (map_nth (fun p => h (nth 0 p n0) (nth 1 p n0))). reflexivity.
Qed.
Lemma points2 o p : low o -> In p (@gl_points N 2 (o + 1)) -> exists x y, p = [x; y].
Proof. intros [-> | ->] H; cbn [gl_points gl_table fst Nat.add In] in H; repeat (destruct H as [<-|H]; [eauto|]); destruct H. Qed.
Lemma in_rules o : low o -> In (2, o + 1) rules.
Proof. intros [-> | ->]; cbn; auto 10. Qed.
Lemma quad_ok o (F : list N -> res N) (h : N -> N -> N) : low o -> (forall x y, F [x; y] = Ok (h x y)) -> q_eval 2 (o + 1) F n0 = Ok (rule o h).
Proof.
  intros Ho H. rewrite eval_is_index, (eval_index_is HF 2 (o + 1) (fun _ => F) (map (fun p => h (nth 0 p n0) (nth 1 p n0)) (gl_points 2 (o + 1)))).
  - rewrite rule_sum by auto. f_equal. ring.
  - now apply in_rules.
  - apply map_length.
  - intros i Hi. rewrite (nth_indep _ n0 (h (nth 0 [] n0) (nth 1 [] n0))) by (rewrite map_length; auto). rewrite (map_nth (fun p => h (nth 0 p n0) (nth 1 p n0))).
    destruct (points2 o (nth i (gl_points 2 (o + 1)) []) Ho) as (x & y & ->); [now apply nth_In|]. cbn [nth]. apply H.
Qed.
(** *** One element *)
Lemma pull_ok p (a b : N) : proper p -> d_mulv (pinv p (dval p)) [a; b] = Ok [pull p (fun c => match c with 0 => a | _ => b end) 0; pull p (fun c => match c with 0 => a | _ => b end) 1].
Proof.
  intros Hp. rewrite (dval_proper _ Hp). unfold pull. cbn. destruct Hp as (Hp & _). repeat (apply ok_cons'; [field; auto|]). reflexivity.
Qed.
Lemma dot2 (a b c d : N) : v_dot [a; b] [c; d] = Ok (a * c + b * d)%num.
Proof. cbn. apply ok_val'. ring. Qed.
Lemma rule_ext o (h k : N -> N -> N) : (forall x y, h x y = k x y) -> rule o h = rule o k.
Proof. intros H. unfold rule. apply bigsum_ext. intros q _. now rewrite H. Qed.
Definition stiff_q (o : nat) (p : nat -> nat -> N) (k l : nat) : N :=
  rule o (fun x y => pull p (fun c => dshape o k c x y) 0 * pull p (fun c => dshape o l c x y) 0 +
                     pull p (fun c => dshape o k c x y) 1 * pull p (fun c => dshape o l c x y) 1)%num.
Lemma stiff_ok o p k l : low o -> proper p -> k < 3 * o -> l < 3 * o -> fem_stiff o (pinv p (dval p)) k l = Ok (stiff_q o p k l).
Proof.
  intros Ho Hp Hk Hl. unfold fem_stiff, stiff_q. apply quad_ok; auto. intros x y. rewrite !grad_ok by auto. cbn [bind]. rewrite !pull_ok by auto. cbn [bind].
  rewrite dot2. reflexivity.
Qed.
Lemma load_ok o (f : list N -> N) (p : nat -> nat -> N) k : low o -> k < 3 * o -> fem_load o f (prep p) k = Ok (rule o (fun x y => shape o k x y * f (place p x y)))%num.
Proof.
  intros Ho Hk. unfold fem_load. apply quad_ok; auto. intros x y. rewrite value_ok by auto. cbn [bind]. rewrite global_eq. cbn [bind].
  apply ok_val'. f_equal. f_equal. unfold place. cbn [map]. apply list2_eq; ring.
Qed.
Lemma upd_same {A} (l : list A) i d : upd l i (nth i l d) = l.
Proof. revert i. induction l as [|x l IH]; intros [|i]; cbn; auto. now rewrite IH. Qed.
Let dl : MatLaws (DenseI N) := dense_laws.
Lemma put_keep (em : DenseI N) nd a i j drop v : holds em nd nd a -> i < nd -> j < nd -> a i j = n0 ->
  returns (if fem_keeps drop v then d_set em i j v else Ok em) (fun em' => holds (em' : DenseI N) nd nd (put2 a i j (kept drop v))).
Proof.
  intros H Hi Hj Ha. unfold kept, fem_keeps. destruct (nltb drop (nabs v)).
  - destruct (holds_set dl em nd nd a i j v H Hi Hj) as (m' & E & H'). exists m'. split; [exact E|exact H'].
  - apply returns_ok. eapply holds_ext; [exact H|]. intros r c _ _. unfold put2. destruct (Nat.eqb_spec r i), (Nat.eqb_spec c j); cbn; congruence.
Qed.
Lemma element_ok drop o (f : list N -> N) (p : nat -> nat -> N) : low o -> proper p ->
  returns (fem_element drop o f (prep p)) (fun r =>
    holds (fst r : DenseI N) (3 * o) (3 * o) (fun k l => kept drop (stiff o p k l)) /\
    snd r = map (fun k => kept drop (loadv o f p k)) (seq 0 (3 * o))).
Proof.
  intros Ho Hp. unfold fem_element. cbn [sx_determinant sx_inverseMatrix prep sx_prep sx_det sx_inv assert_ bind]. rewrite (dval_proper p Hp).
  change (sf_dof 2 o) with (3 * o). set (nd := 3 * o).
  eapply returns_mono; [apply (for_returns (fun i st => holds (fst st : DenseI N) nd nd (fun k l => if k <? i then kept drop (stiff o p k l) else n0) /\
     length (snd st) = nd /\ forall k, k < nd -> nth k (snd st) n0 = if k <? i then kept drop (loadv o f p k) else n0))|].
  - lia.
  - cbn [fst snd]. split; [|split; [apply repeat_length|]].
    + exact (holds_fixed nd nd).
    + intros k Hk. unfold v_new. now rewrite nth_repeat.
  - intros i [em ev] Hi (H1 & H2 & H3). cbn [fst snd] in *.
    apply returns_bind. eapply returns_mono; [apply (for_returns (fun j em => holds (em : DenseI N) nd nd (fun k l => if k <? i then kept drop (stiff o p k l) else
       if (k =? i) && (l <? j) then kept drop (stiff o p k l) else n0)))|].
    + lia.
    + eapply holds_ext; [exact H1|]. intros r c _ _. cbn. rewrite andb_false_r. reflexivity.
    + intros j em' Hj H. replace (pinv p (area2 p)) with (pinv p (dval p)) by now rewrite (dval_proper p Hp). rewrite stiff_ok by (auto; lia). cbn [bind].
      eapply returns_mono; [eapply (put_keep em' nd); [exact H|lia|lia|]|].
      * cbn beta. rewrite Nat.eqb_refl. replace (i <? i) with false by (symmetry; apply Nat.ltb_ge; lia). replace (j <? j) with false by (symmetry; apply Nat.ltb_ge; lia). reflexivity.
      * intros em2 H2'. eapply holds_ext; [exact H2'|]. intros r c _ _. unfold put2. cbn beta.
        change (nabs (area2 p) * stiff_q o p i j)%num with (stiff o p i j).
        destruct (Nat.eqb_spec r i) as [->|]; cbn [andb].
        -- replace (i <? i) with false by (symmetry; apply Nat.ltb_ge; lia). destruct (Nat.eqb_spec c j) as [->|]; cbn [andb].
           ++ replace (j <? S j) with true by (symmetry; apply Nat.ltb_lt; lia). reflexivity.
           ++ destruct (Nat.ltb_spec c j), (Nat.ltb_spec c (S j)); auto; lia.
        -- reflexivity.
    + intros em' He. cbn beta in He. rewrite load_ok by (auto; lia). cbn [bind].
      change (nabs (area2 p) * rule o (fun x y => shape o i x y * f (place p x y)))%num with (loadv o f p i).
      apply returns_bind. assert (E : (if fem_keeps drop (loadv o f p i) then v_set ev i (loadv o f p i) else Ok ev) = Ok (upd ev i (kept drop (loadv o f p i)))).
      { unfold kept, fem_keeps. destruct (nltb drop (nabs (loadv o f p i))); [apply v_set_ok; lia|]. f_equal. symmetry.
        replace (@n0 N) with (nth i ev n0) at 1; [apply upd_same|]. rewrite H3 by lia. replace (i <? i) with false by (symmetry; apply Nat.ltb_ge; lia). reflexivity. }
      rewrite E. apply returns_ok, returns_ok. cbn [fst snd]. split; [|split].
      * eapply holds_ext; [exact He|]. intros r c Hr Hc. cbn beta. destruct (Nat.eqb_spec r i) as [->|]; cbn [andb].
        -- replace (i <? i) with false by (symmetry; apply Nat.ltb_ge; lia). replace (i <? S i) with true by (symmetry; apply Nat.ltb_lt; lia).
           replace (c <? nd) with true by (symmetry; apply Nat.ltb_lt; lia). reflexivity.
        -- destruct (Nat.ltb_spec r i), (Nat.ltb_spec r (S i)); auto; lia.
      * now rewrite upd_length.
      * intros k Hk. rewrite nth_upd. destruct (Nat.eqb_spec k i) as [->|]; cbn [andb].
        -- replace (i <? length ev) with true by (symmetry; apply Nat.ltb_lt; lia). replace (i <? S i) with true by (symmetry; apply Nat.ltb_lt; lia). reflexivity.
        -- rewrite H3 by lia. destruct (Nat.ltb_spec k i), (Nat.ltb_spec k (S i)); auto; lia.
  - intros [em ev] (H1 & H2 & H3). cbn [fst snd] in *. split.
    + eapply holds_ext; [exact H1|]. intros r c Hr Hc. cbn beta. now replace (r <? nd) with true by (symmetry; apply Nat.ltb_lt; lia).
    + apply (list_eq_nth _ _ n0); [now rewrite map_length, seq_length|]. intros k Hk. rewrite H2 in Hk. rewrite H3 by auto.
      replace (k <? nd) with true by (symmetry; apply Nat.ltb_lt; lia). rewrite (nth_indep _ n0 (kept drop (loadv o f p 0))) by (rewrite map_length, seq_length; auto).
      rewrite (map_nth (fun k => kept drop (loadv o f p k))), seq_nth by auto. reflexivity.
Qed.
End Fem.
