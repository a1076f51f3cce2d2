(** Shape functions: closed forms, nodal basis, interpolation. *)
From Coq Require Import List Arith Bool ZArith Lia Ring Field.
From Verif Require Import Base BaseProofs Num OrdField UtilsSpec VectorModel ShapeModel ShapeSpec.
Import ListNotations.
Local Open Scope nat_scope.
Open Scope res_scope.

Section Shape.
Context {N : Num} (HO : OrdFieldLaws N) (HN : NatLaws N).
Let HF : FieldLaws N := of_field N HO.
Add Field sfld : (fl_field N HF).

Lemma cz_0 : cz 0 = n0 :> N. Proof. apply (nl_0 N HN). Qed.
Lemma two_nz' : (n1 + n1)%num <> n0 :> N.
Proof.
  intros E. apply (olt_irrefl HO (@n0 N)). rewrite <- E at 2. apply (olt_0_add HO); [apply (olt_0_1 HO)|apply (olt_le HO), (olt_0_1 HO)].
Qed.
Lemma ones_is k o : sf_ones k o = Ok (repeat (n1 : N) (sf_dof k o)).
Proof.
  unfold sf_ones. set (n := sf_dof k o).
  assert (R : returns (for_ 0 n (fun i nv => v_set nv i n1) (v_new n)) (fun nv => length nv = n /\ forall i, i < n -> nth i nv n0 = n1 :> N)).
  { apply (for_returns (fun j nv => length nv = n /\ forall i, i < j -> nth i nv n0 = n1 :> N)).
    - lia.
    - split; [apply repeat_length|]. intros; lia.
    - intros j nv Hj (L & H). unfold v_set, v_size. replace (j <? length nv) with true by (symmetry; apply Nat.ltb_lt; lia). cbn [assert_ bind].
      rewrite vset_ok by lia. apply returns_ok. split; [now rewrite upd_length|]. intros i Hi. destruct (Nat.eq_dec i j) as [->|]; [apply nth_upd_eq; lia|].
      rewrite nth_upd_ne by auto. apply H. lia. }
  destruct R as (nv & -> & L & H). f_equal. apply (list_eq_nth _ _ n0); [now rewrite repeat_length|]. intros i Hi. rewrite H by lia.
  symmetry. assert (G : forall m j, j < m -> nth j (repeat (n1 : N) m) n0 = n1) by (induction m; intros [|j] Hj; cbn; auto; try (apply IHm); lia). apply G. lia.
Qed.
Lemma abort_range k o i v nv : In (k, o) [(1,1);(1,2);(2,1);(2,2);(2,3);(3,1);(3,2)] ->
  (match (k, o) with (1,1) => 2 | (1,2) => 3 | (2,1) => 3 | (2,2) => 6 | (3,1) => 4 | _ => 10 end <= i) ->
  sf_value_nv k o i v nv = Abort (A := N) /\ sf_gradient_nv k o i v nv = Abort (A := list N) /\ sf_gradient2_nv k o i v nv = Abort (A := list N).
Proof.
  intros H Hi. cbn [In] in H. repeat (destruct H as [H|H]; [inversion H; subst; unfold sf_value_nv, sf_gradient_nv, sf_gradient2_nv;
    rewrite (proj2 (Nat.ltb_ge _ _) Hi); cbn; auto|]). destruct H.
Qed.

Ltac lit := rewrite ?(nl_S N HN), ?(nl_0 N HN).
Ltac caseIn H := cbn [In] in H; repeat (destruct H as [H|H]; [injection H as <- <-|]); [..|destruct H].
Ltac nums i Hi := repeat (destruct i as [|i]; [|]); try (exfalso; cbn in Hi; lia).
Ltac go := cbv [sf_value sf_dof sf_value_nv sf_sum sf_term bind assert_ foreach vget nth_error coeff_1D_1 coeff_1D_2 coeff_2D_1 coeff_2D_2 coeff_3D_1 map cz Pos.to_nat Pos.iter_op
   v_at v_size length repeat Nat.ltb Nat.leb Nat.eqb Nat.add Nat.mul nodes nth one_half].
Lemma nodal_ok k o i j : In (k, o) nodal -> i < sf_dof k o -> j < sf_dof k o ->
  sf_value k o i (nth j (nodes k o) []) = Ok (if i =? j then n1 else n0 : N).
Proof.
  intros H Hi Hj. unfold sf_value. rewrite ones_is. cbn [bind]. pose proof two_nz' as Tw. unfold nodal in H. caseIn H;
  (unfold sf_dof in Hi, Hj; cbn in Hi, Hj;
   repeat (destruct i as [|i]; [|try lia]); try lia; repeat (destruct j as [|j]; [|try lia]); try lia;
   go; f_equal; lit; field; auto).
Qed.

Lemma len1 (x : list N) : length x = 1 -> exists a, x = [a].
Proof. destruct x as [|a [|]]; try discriminate. eauto. Qed.
Lemma len2 (x : list N) : length x = 2 -> exists a b, x = [a; b].
Proof. destruct x as [|a [|b [|]]]; try discriminate. eauto. Qed.
Lemma len3 (x : list N) : length x = 3 -> exists a b c, x = [a; b; c].
Proof. destruct x as [|a [|b [|c [|]]]]; try discriminate. eauto. Qed.
(** the functions sum to 1 *)
Lemma partition k o x : In (k, o) usable -> length x = k ->
  returns (foreach (seq 0 (length (@nodes N k o))) (fun i l => let* a := sf_value k o i x in Ok (l ++ [a])) []) (fun l => total l = n1 :> N).
Proof.
  intros H Hx. unfold sf_value. rewrite ones_is. unfold usable in H. caseIn H.
  - apply len1 in Hx as (a & ->). go. cbv [seq app]. eexists. split; [reflexivity|]. cbn [total]. lit. ring.
  - apply len1 in Hx as (a & ->). go. cbv [seq app]. eexists. split; [reflexivity|]. cbn [total]. lit. ring.
  - apply len2 in Hx as (a & b & ->). go. cbv [seq app]. eexists. split; [reflexivity|]. cbn [total]. lit. ring.
  - apply len2 in Hx as (a & b & ->). go. cbv [seq app]. eexists. split; [reflexivity|]. cbn [total]. lit. ring.
  - apply len3 in Hx as (a & b & c & ->). go. cbv [seq app]. eexists. split; [reflexivity|]. cbn [total]. lit. ring.
Qed.
(** interpolation with the node values of a polynomial reproduces it *)
Lemma interpolates k o x c : In (k, o) nodal -> length x = k -> length c = length (exponents k o) ->
  returns (foreach (seq 0 (sf_dof k o)) (fun i l => let* a := sf_value k o i x in Ok (l ++ [poly k o c (nth i (nodes k o) []) * a]))%num [])
    (fun l => total l = poly k o c x :> N).
Proof.
  intros H Hx Hc. unfold sf_value. rewrite ones_is. pose proof two_nz' as Tw. unfold nodal in H. caseIn H; cbn in Hc.
  - destruct c as [|c0 [|c1 [|]]]; try discriminate. apply len1 in Hx as (a & ->). go. cbv [seq app poly combine exponents flat_map map seq Nat.sub app fold_right fst snd monomial npow].
    eexists. split; [reflexivity|]. cbn [total]. lit. ring.
  - destruct c as [|c0 [|c1 [|c2 [|]]]]; try discriminate. apply len2 in Hx as (a & b & ->). go. cbv [seq app poly combine exponents flat_map map seq Nat.sub app fold_right fst snd monomial npow].
    eexists. split; [reflexivity|]. cbn [total]. lit. ring.
  - destruct c as [|c0 [|c1 [|c2 [|c3 [|c4 [|c5 [|]]]]]]]; try discriminate. apply len2 in Hx as (a & b & ->). go.
    cbv [seq app poly combine exponents flat_map map seq Nat.sub app fold_right fst snd monomial npow].
    eexists. split; [reflexivity|]. cbn [total]. lit. field. auto.
  - destruct c as [|c0 [|c1 [|c2 [|c3 [|]]]]]; try discriminate. apply len3 in Hx as (a & b & d & ->). go.
    cbv [seq app poly combine exponents flat_map map seq Nat.sub app fold_right fst snd monomial npow].
    eexists. split; [reflexivity|]. cbn [total]. lit. ring.
Qed.
(** too few node values *)
Ltac quick := cbv [sf_dof sf_value_nv sf_gradient_nv sf_gradient2_nv sf_sum sf_term sf_fill v_set vset bind assert_ foreach vget nth_error coeff_2D_3 coeff_3D_2 map
   v_at v_size v_new upd length repeat Nat.ltb Nat.leb Nat.eqb Nat.add Nat.mul].
Lemma cubic_aborts i x : length x = 2 -> sf_value 2 3 i x = Abort (A := N) /\ sf_gradient 2 3 i x = Abort (A := list N) /\ sf_gradient2 2 3 i x = Abort (A := list N).
Proof.
  intros Hx. unfold sf_value, sf_gradient, sf_gradient2. rewrite ones_is. cbn [bind]. destruct (le_lt_dec 10 i) as [Hi|Hi].
  - apply abort_range; auto. cbn. tauto.
  - apply len2 in Hx as (a & b & ->). do 10 (destruct i as [|i]; [quick; auto|]). lia.
Qed.
Lemma tetra_aborts i x : length x = 3 -> sf_value 3 2 i x = Abort (A := N) /\ sf_gradient 3 2 i x = Abort (A := list N) /\ sf_gradient2 3 2 i x = Abort (A := list N).
Proof.
  intros Hx. unfold sf_value, sf_gradient, sf_gradient2. rewrite ones_is. cbn [bind]. destruct (le_lt_dec 10 i) as [Hi|Hi].
  - apply abort_range; auto. cbn. tauto.
  - apply len3 in Hx as (a & b & c & ->). do 10 (destruct i as [|i]; [quick; auto|]). lia.
Qed.
(** constant node values *)
Lemma ok_cons (a b : N) (l m : list N) : a = b -> Ok l = Ok m -> Ok (a :: l) = Ok (b :: m).
Proof. congruence. Qed.
Lemma ok_val (a b : N) : a = b -> Ok a = Ok b.
Proof. congruence. Qed.
Ltac okeq := first [apply ok_cons; [|okeq] | apply ok_val | reflexivity].

Lemma uniform k o i x (u : N) nv : In (k, o) usable -> length x = k -> i < length (@nodes N k o) -> nv = repeat u (sf_dof k o) ->
  returns (sf_value k o i x) (fun a => sf_value_nv k o i x nv = Ok (u * a)%num) /\
  returns (sf_gradient k o i x) (fun g => sf_gradient_nv k o i x nv = Ok (map (fun a => if (k =? 2) && (o =? 1) then u * u * a else u * a)%num g)) /\
  returns (sf_gradient2 k o i x) (fun g => sf_gradient2_nv k o i x nv = Ok (map (fun a => u * a)%num g)).
Proof.
  intros H Hx Hi ->. unfold sf_value, sf_gradient, sf_gradient2. rewrite ones_is. cbn [bind]. unfold usable in H.
  caseIn H; cbn in Hi.
  - apply len1 in Hx as (a & ->). repeat (destruct i as [|i]; [|try lia]); try lia;
      (split; [|split]; (eexists; split; [reflexivity|]); cbn; okeq; lit; ring).
  - apply len1 in Hx as (a & ->). repeat (destruct i as [|i]; [|try lia]); try lia;
      (split; [|split]; (eexists; split; [reflexivity|]); cbn; okeq; lit; ring).
  - apply len2 in Hx as (a & b & ->). repeat (destruct i as [|i]; [|try lia]); try lia;
      (split; [|split]; (eexists; split; [reflexivity|]); cbn; okeq; lit; ring).
  - apply len2 in Hx as (a & b & ->). repeat (destruct i as [|i]; [|try lia]); try lia;
      (split; [|split]; (eexists; split; [reflexivity|]); cbn; okeq; lit; ring).
  - apply len3 in Hx as (a & b & c & ->). repeat (destruct i as [|i]; [|try lia]); try lia;
      (split; [|split]; (eexists; split; [reflexivity|]); cbn; okeq; lit; ring).
Qed.

Lemma line_wrong : sf_value 1 2 1 (nth 1 (@nodes N 1 2) []) = Ok n0 /\ sf_value 1 2 1 (nth 2 (@nodes N 1 2) []) = Ok n1 /\ sf_value 1 2 2 (nth 1 (@nodes N 1 2) []) = Ok n1 /\
  sf_dof 1 2 = 4 /\ forall x : list N, sf_value 1 2 3 x = Abort.
Proof.
  unfold sf_value. rewrite ones_is. cbn [bind]. pose proof two_nz' as Tw.
  split; [|split; [|split; [|split; [reflexivity|intros x; reflexivity]]]]; go; apply ok_val; lit; field; auto.
Qed.
Lemma combo_wrong (x : N) : sf_value 1 1 0 [x] = Ok (n1 - x)%num /\ sf_value_nv 1 1 0 [x] [n1; n0] = Ok n1 /\ sf_value_nv 1 1 1 [x] [n1; n0] = Ok n0.
Proof. unfold sf_value. rewrite ones_is. cbn [bind]. split; [|split]; go; apply ok_val; lit; ring. Qed.
End Shape.
