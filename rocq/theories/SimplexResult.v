(** The Simplex theorems. *)
From Coq Require Import List Arith Bool Lia Ring Field ZArith.
From Verif Require Import Base BaseProofs Num OrdField Spec VectorModel VectorProofs DenseModel MatI DenseSpec MatOps LUModel UtilsModel UtilsSpec
  SimplexModel SimplexSpec SimplexProofs.
Import ListNotations.
Local Open Scope nat_scope.
Open Scope res_scope.

Section Result.
Context {N : Num} (HO : OrdFieldLaws N).
Let HF : FieldLaws N := of_field N HO.
Add Field sfld : (fl_field N HF).
Notation le x y := (nleb x y = true).
Notation lt x y := (nltb x y = true).
Implicit Types (p q : nat -> nat -> N) (s : simplex N).

Lemma made_shape s : sx_made s -> sx_shape s.
Proof.
  induction 1.
  - exact new_shape.
  - now apply (of_list_shape l s).
  - eapply put_shape; eauto.
  - destruct IHsx_made as ((p & Hp) & H2). assert (Hs : sx_shape s) by (split; eauto).
    rewrite (prepare_eq s p Hs Hp) in H0. unfold pmat in H0. rewrite (det2 HO) in H0. cbn [bind] in H0. inversion H0; subst.
    split; [exists p; reflexivity|]. split; do 4 eexists; reflexivity.
Qed.
Lemma corners_tri s p : corners s p -> sx_shape s /\ sx_v s = tri p.
Proof.
  intros (Hm & Hg). apply made_shape in Hm. split; auto. destruct Hm as ((q & Hq) & _). unfold sx_get in Hg. rewrite Hq in *.
  pose proof (Hg 0 ltac:(lia)) as H0. pose proof (Hg 1 ltac:(lia)) as H1. pose proof (Hg 2 ltac:(lia)) as H2.
  unfold tri, vget in *. cbn in *. congruence.
Qed.
Lemma made_corners s : sx_made s -> exists p, corners s p.
Proof.
  intros H. destruct (made_shape s H) as ((p & Hp) & _). exists p. split; auto. intros i Hi. unfold sx_get. rewrite Hp.
  destruct i as [|[|[|]]]; try lia; reflexivity.
Qed.
Definition dval p : N := if flat p then n0 else area2 p.
Definition prep p : simplex N := mkSx (tri p) true (pmat p) (pinv p (dval p)) (dval p).
Lemma prepare_is s p : corners s p -> sx_prepare s = Ok (prep p).
Proof.
  intros H. apply corners_tri in H as (H1 & H2). rewrite (prepare_eq s p H1 H2). unfold pmat. rewrite (det2 HO). cbn [bind].
  reflexivity.
Qed.
Lemma prepared s s' p : corners s p -> sx_prepare s = Ok s' -> s' = prep p.
Proof. intros H E. rewrite (prepare_is s p H) in E. congruence. Qed.
Lemma prep_made s p : corners s p -> corners (prep p) p.
Proof.
  intros H. split; [eapply sm_prepare; [apply H|now apply prepare_is]|]. intros i Hi.
  destruct i as [|[|[|]]]; try lia; reflexivity.
Qed.
Lemma prepare_ok s p : corners s p -> returns (sx_prepare s) (fun s' => corners s' p /\ sx_determinant s' = Ok (if flat p then n0 else area2 p)).
Proof.
  intros H. exists (prep p). split; [now apply prepare_is|]. split; [now apply (prep_made s)|]. reflexivity.
Qed.
Lemma dval_proper p : proper p -> dval p = area2 p.
Proof. unfold dval. intros (_ & ->). reflexivity. Qed.

Open Scope num_scope.
Lemma matrices_ok s s' p : corners s p -> proper p -> sx_prepare s = Ok s' ->
  exists M I, sx_matrix s' = Ok M /\ sx_inverseMatrix s' = Ok I /\
    holds (M : DenseI N) 2 2 (fun i j => p (S j) i - p 0%nat i) /\
    exists x, holds (I : DenseI N) 2 2 x /\
    (forall i j, (i < 2)%nat -> (j < 2)%nat -> bigsum 2 (fun k => (p (S k) i - p 0%nat i) * x k j) = if (i =? j)%nat then n1 else n0) /\
    (forall i j, (i < 2)%nat -> (j < 2)%nat -> bigsum 2 (fun k => x i k * (p (S j) k - p 0%nat k)) = if (i =? j)%nat then n1 else n0).
Proof.
  intros H Hp E. rewrite (prepared _ _ _ H E). pose proof (dval_proper p Hp) as Ed. destruct Hp as (Ha & _).
  exists (pmat p), (pinv p (dval p)). split; [reflexivity|]. split; [reflexivity|].
  assert (Hh : forall a b c d : N, holds (mkD [a; b; c; d] 2 2 : DenseI N) 2 2 (fun i j => match i, j with 0, 0 => a | 0, _ => b | _, 0 => c | _, _ => d end%nat)).
  { intros. split; [split; cbn; auto; lia|]. split; [reflexivity|]. split; [reflexivity|].
    intros i j Hi Hj. destruct i as [|[|]]; try lia; destruct j as [|[|]]; try lia; reflexivity. }
  split.
  - destruct (Hh (p 1%nat 0%nat - p 0%nat 0%nat) (p 2%nat 0%nat - p 0%nat 0%nat) (p 1%nat 1%nat - p 0%nat 1%nat) (p 2%nat 1%nat - p 0%nat 1%nat)) as (H1 & H2 & H3 & H4).
    split; auto. split; auto. split; auto. intros i j Hi Hj. unfold pmat. rewrite H4 by auto.
    destruct i as [|[|]]; try lia; destruct j as [|[|]]; try lia; reflexivity.
  - eexists. split; [apply Hh|]. rewrite Ed. unfold area2 in *.
    split; intros i j Hi Hj; destruct i as [|[|]]; try lia; destruct j as [|[|]]; try lia; cbn [bigsum Nat.eqb]; field; assumption.
Qed.

Lemma local_eq p x y : sx_toLocal (prep p) [x; y] =
  Ok [n0 + (p 2%nat 1%nat - p 0%nat 1%nat) * (n1 / dval p) * (x - p 0%nat 0%nat) + - (p 2%nat 0%nat - p 0%nat 0%nat) * (n1 / dval p) * (y - p 0%nat 1%nat);
      n0 + - (p 1%nat 1%nat - p 0%nat 1%nat) * (n1 / dval p) * (x - p 0%nat 0%nat) + (p 1%nat 0%nat - p 0%nat 0%nat) * (n1 / dval p) * (y - p 0%nat 1%nat)].
Proof. reflexivity. Qed.
Lemma global_eq p x y : sx_toGlobal (prep p) [x; y] =
  Ok [n0 + (p 1%nat 0%nat - p 0%nat 0%nat) * x + (p 2%nat 0%nat - p 0%nat 0%nat) * y + p 0%nat 0%nat;
      n0 + (p 1%nat 1%nat - p 0%nat 1%nat) * x + (p 2%nat 1%nat - p 0%nat 1%nat) * y + p 0%nat 1%nat].
Proof. reflexivity. Qed.
Lemma list2_eq (a b c d : N) : a = c -> b = d -> [a; b] = [c; d].
Proof. congruence. Qed.
Lemma roundtrip s s' p : corners s p -> proper p -> sx_prepare s = Ok s' -> forall x, length x = 2%nat ->
  returns (sx_toGlobal s' x) (fun g => sx_toLocal s' g = Ok x) /\
  returns (sx_toLocal s' x) (fun l => sx_toGlobal s' l = Ok x).
Proof.
  intros H Hp E x Hx. apply list2 in Hx as (u & v & ->). rewrite (prepared _ _ _ H E). pose proof (dval_proper p Hp) as Ed. destruct Hp as (Ha & _).
  split; eexists; (split; [first [rewrite global_eq | rewrite local_eq]; reflexivity|]); first [rewrite global_eq | rewrite local_eq]; rewrite Ed;
  f_equal; unfold area2 in *; apply list2_eq; field; assumption.
Qed.
Lemma global_bary s s' p : corners s p -> sx_prepare s = Ok s' -> forall l1 l2,
  returns (sx_toGlobal s' [l1; l2]) (fun g => exists x, g = vec2 x /\ barycentric p l1 l2 x).
Proof.
  intros H E l1 l2. rewrite (prepared _ _ _ H E), global_eq. eexists. split; [reflexivity|].
  exists (fun k => (n1 - l1 - l2) * p 0%nat k + l1 * p 1%nat k + l2 * p 2%nat k). split; [|intros k Hk; reflexivity].
  apply list2_eq; ring.
Qed.
Lemma bary_unique p l1 l2 m1 m2 x : area2 p <> n0 -> barycentric p l1 l2 x -> barycentric p m1 m2 x -> l1 = m1 /\ l2 = m2.
Proof.
  intros Ha H1 H2.
  pose proof (H1 0%nat ltac:(lia)) as A0. pose proof (H1 1%nat ltac:(lia)) as A1. pose proof (H2 0%nat ltac:(lia)) as B0. pose proof (H2 1%nat ltac:(lia)) as B1.
  rewrite A0 in B0. rewrite A1 in B1. clear A0 A1.
  assert (E0 : (p 1%nat 0%nat - p 0%nat 0%nat) * (l1 - m1) + (p 2%nat 0%nat - p 0%nat 0%nat) * (l2 - m2) = n0).
  { match type of B0 with ?u = ?v => transitivity (u - v); [ring|rewrite B0; ring] end. }
  assert (E1 : (p 1%nat 1%nat - p 0%nat 1%nat) * (l1 - m1) + (p 2%nat 1%nat - p 0%nat 1%nat) * (l2 - m2) = n0).
  { match type of B1 with ?u = ?v => transitivity (u - v); [ring|rewrite B1; ring] end. }
  assert (D1 : area2 p * (l1 - m1) = n0).
  { unfold area2. transitivity ((p 2%nat 1%nat - p 0%nat 1%nat) * ((p 1%nat 0%nat - p 0%nat 0%nat) * (l1 - m1) + (p 2%nat 0%nat - p 0%nat 0%nat) * (l2 - m2))
      - (p 2%nat 0%nat - p 0%nat 0%nat) * ((p 1%nat 1%nat - p 0%nat 1%nat) * (l1 - m1) + (p 2%nat 1%nat - p 0%nat 1%nat) * (l2 - m2))); [ring|].
    rewrite E0, E1. ring. }
  assert (D2 : area2 p * (l2 - m2) = n0).
  { unfold area2. transitivity ((p 1%nat 0%nat - p 0%nat 0%nat) * ((p 1%nat 1%nat - p 0%nat 1%nat) * (l1 - m1) + (p 2%nat 1%nat - p 0%nat 1%nat) * (l2 - m2))
      - (p 1%nat 1%nat - p 0%nat 1%nat) * ((p 1%nat 0%nat - p 0%nat 0%nat) * (l1 - m1) + (p 2%nat 0%nat - p 0%nat 0%nat) * (l2 - m2))); [ring|].
    rewrite E0, E1. ring. }
  apply (mul_0 HO) in D1 as [D1|D1]; [contradiction|]. apply (mul_0 HO) in D2 as [D2|D2]; [contradiction|].
  split.
  - transitivity (l1 - m1 + m1); [ring|]. rewrite D1. ring.
  - transitivity (l2 - m2 + m2); [ring|]. rewrite D2. ring.
Qed.
Lemma local_bary s s' p : corners s p -> proper p -> sx_prepare s = Ok s' -> forall x,
  returns (sx_toLocal s' (vec2 x)) (fun l => exists l1 l2, l = [l1; l2] /\ barycentric p l1 l2 x /\
     forall m1 m2, barycentric p m1 m2 x -> m1 = l1 /\ m2 = l2).
Proof.
  intros H Hp E x. rewrite (prepared _ _ _ H E). unfold vec2. rewrite local_eq. rewrite (dval_proper p Hp). destruct Hp as (Ha & _).
  eexists. split; [reflexivity|]. do 2 eexists. split; [reflexivity|].
  match goal with |- ?A /\ _ => assert (HA : A) end.
  { intros k Hk. unfold area2 in *. destruct k as [|[|]]; try lia; field; assumption. }
  split; [exact HA|]. intros m1 m2 Hm. eapply bary_unique; eauto.
Qed.
Lemma vertices_local s s' p : corners s p -> proper p -> sx_prepare s = Ok s' ->
  sx_toLocal s' (vec2 (p 0%nat)) = Ok [n0; n0] /\ sx_toLocal s' (vec2 (p 1%nat)) = Ok [n1; n0] /\ sx_toLocal s' (vec2 (p 2%nat)) = Ok [n0; n1].
Proof.
  intros H Hp E. rewrite (prepared _ _ _ H E). unfold vec2. rewrite !local_eq. rewrite (dval_proper p Hp). destruct Hp as (Ha & _).
  unfold area2 in *. split; [|split]; f_equal; apply list2_eq; field; assumption.
Qed.

Variable HN : NatLaws N.
Lemma two_nz : n1 + n1 <> (@n0 N).
Proof.
  apply not_eq_sym. apply (olt_ne HO). apply (olt_0_add HO); [apply (olt_0_1 HO)|apply (olt_le HO), (olt_0_1 HO)].
Qed.
Lemma nofnat2 : @nofnat N 2 = n1 + n1.
Proof. rewrite !(nl_S N HN), (nl_0 N HN). ring. Qed.
Lemma inv_fact_half : @inv_fact N = n1 / (n1 + n1).
Proof. unfold inv_fact. change (Z.to_nat (u_factorial 2)) with 2%nat. now rewrite nofnat2. Qed.
Lemma volume_ok s s' p : corners s p -> sx_prepare s = Ok s' ->
  sx_volume s' = Ok (if flat p then n0 else nabs (area2 p) / (n1 + n1)).
Proof.
  intros H E. rewrite (prepared _ _ _ H E). unfold sx_volume, prep, dval. cbn [assert_ sx_prep bind sx_det]. f_equal.
  rewrite inv_fact_half. pose proof two_nz as H2.
  assert (Hh : nabs (n1 / (n1 + n1)) = n1 / (n1 + n1) :> N).
  { apply (of_abs_pos N HO). apply (olt_le HO), (olt_0_inv HO). apply (olt_0_add HO); [apply (olt_0_1 HO)|apply (olt_le HO), (olt_0_1 HO)]. }
  rewrite (oabs_mul HO), Hh. destruct (flat p).
  - rewrite (proj2 (oabs_0_iff HO n0) eq_refl). field. assumption.
  - field. assumption.
Qed.
Lemma unit_volume_ok : (@sx_unitVolume N + sx_unitVolume = n1) /\ forall s s' p, corners s p -> sx_prepare s = Ok s' ->
  exists d, sx_determinant s' = Ok d /\ sx_volume s' = Ok (nabs d * sx_unitVolume).
Proof.
  pose proof two_nz as H2. unfold sx_unitVolume. rewrite inv_fact_half. split; [field; assumption|]. intros s s' p H E.
  exists (if flat p then n0 else area2 p). split.
  - destruct (prepare_ok s p H) as (t & Et & _ & Ed). congruence.
  - rewrite (volume_ok s s' p H E). f_equal. destruct (flat p); [rewrite (proj2 (oabs_0_iff HO n0) eq_refl)|]; field; assumption.
Qed.
(** Permuting the corners and translating. *)
Definition moved p q : Prop := exists (sg : nat -> nat) (t : nat -> N),
  (forall i, (i < 3)%nat -> (sg i < 3)%nat) /\ (forall i j, (i < 3)%nat -> (j < 3)%nat -> sg i = sg j -> i = j) /\
  forall i k, (i < 3)%nat -> (k < 2)%nat -> q i k = p (sg i) k + t k.
Lemma moved_area p q : moved p q -> nabs (area2 q) = nabs (area2 p).
Proof.
  intros (sg & t & Hr & Hi & Hq). unfold area2.
  rewrite !Hq by lia.
  pose proof (Hr 0 ltac:(lia))%nat as R0. pose proof (Hr 1 ltac:(lia))%nat as R1. pose proof (Hr 2 ltac:(lia))%nat as R2.
  assert (sg 0 <> sg 1)%nat by (intros E; apply Hi in E; lia). assert (sg 0 <> sg 2)%nat by (intros E; apply Hi in E; lia).
  assert (sg 1 <> sg 2)%nat by (intros E; apply Hi in E; lia).
  assert (Hs : forall x y : N, x = y \/ x = - y -> nabs x = nabs y). { intros x y [->| ->]; auto. apply (oabs_opp HO). }
  destruct (sg 0%nat) as [|[|[|]]]; try lia; destruct (sg 1%nat) as [|[|[|]]]; try lia; destruct (sg 2%nat) as [|[|[|]]]; try lia; apply Hs; first [left; ring | right; ring].
Qed.
Lemma tiny_0 (x : N) : @neps N = n0 -> tiny x = true -> x = n0.
Proof.
  unfold tiny. intros -> H. apply (oabs_0_iff HO). apply (ole_antisym HO); auto. apply (oabs_nonneg HO).
Qed.
Lemma flat_exact p : @neps N = n0 -> flat p = true -> area2 p = n0.
Proof.
  intros He H. apply andb_true_iff in H as (H1 & H2). apply tiny_0 in H1, H2; auto. unfold area2. rewrite H1, H2. ring.
Qed.
Lemma volume_moved s s' s2 s2' p q : corners s p -> sx_prepare s = Ok s' -> corners s2 q -> sx_prepare s2 = Ok s2' -> moved p q ->
  @neps N = n0 \/ (flat p = false /\ flat q = false) -> sx_volume s2' = sx_volume s'.
Proof.
  intros H1 E1 H2 E2 Hm Hf. rewrite (volume_ok _ _ _ H1 E1), (volume_ok _ _ _ H2 E2). f_equal.
  assert (Hz : forall r : nat -> nat -> N, (@neps N = n0 \/ flat r = false) -> (if flat r then n0 else nabs (area2 r) / (n1 + n1)) = nabs (area2 r) / (n1 + n1)).
  { intros r Hr. destruct (flat r) eqn:E; auto. destruct Hr as [Hr|Hr]; [|discriminate]. rewrite (flat_exact r Hr E).
    rewrite (proj2 (oabs_0_iff HO n0) eq_refl). field. apply two_nz. }
  rewrite !Hz by tauto. now rewrite (moved_area p q Hm).
Qed.

Lemma gradient_ok s s' p c : corners s p -> proper p -> sx_prepare s = Ok s' -> (c < 3)%nat ->
  exists g, sx_gradient s' c = Ok (vec2 g) /\
  forall x y l1 l2 m1 m2, barycentric p l1 l2 x -> barycentric p m1 m2 y ->
    (match c with 0%nat => (n1 - m1 - m2) - (n1 - l1 - l2) | 1%nat => m1 - l1 | _ => m2 - l2 end) =
    g 0%nat * (y 0%nat - x 0%nat) + g 1%nat * (y 1%nat - x 1%nat).
Proof.
  intros H Hp E Hc. rewrite (prepared _ _ _ H E). pose proof (dval_proper p Hp) as Ed. destruct Hp as (Ha & _).
  destruct c as [|[|[|]]]; try lia.
  all: eexists (fun k => match k with 0%nat => _ | _ => _ end).
  all: split; [cbn; rewrite Ed; reflexivity|].
  all: intros x y l1 l2 m1 m2 Hx Hy; rewrite !(Hx 0%nat), !(Hx 1%nat), !(Hy 0%nat), !(Hy 1%nat) by lia; unfold area2 in *; field; assumption.
Qed.
Lemma gradient_bad s s' p c : corners s p -> sx_prepare s = Ok s' -> (3 <= c)%nat -> sx_gradient s' c = Abort.
Proof.
  intros H E Hc. rewrite (prepared _ _ _ H E). unfold sx_gradient. cbn [assert_ sx_prep prep bind].
  destruct (Nat.ltb_spec c (2 + 1)); [lia|]. reflexivity.
Qed.

Lemma faceCenter_ok s p i : corners s p -> (i < 3)%nat ->
  exists c, sx_faceCenter s i = Ok (vec2 c) /\
  forall j l k, (j < 3)%nat -> (l < 3)%nat -> j <> i -> l <> i -> j <> l -> (k < 2)%nat -> (n1 + n1) * c k = p j k + p l k.
Proof.
  intros H Hi. apply corners_tri in H as (_ & Hv). unfold sx_faceCenter, sx_get. rewrite Hv. pose proof two_nz as H2.
  destruct i as [|[|[|]]]; try lia.
  all: eexists (fun k => match k with 0%nat => _ | _ => _ end).
  all: split; [cbn; rewrite nofnat2; reflexivity|].
  all: intros j l k Hj Hl Hji Hli Hjl Hk; destruct k as [|[|]]; try lia; destruct j as [|[|[|]]]; try lia; destruct l as [|[|[|]]]; try lia; field; assumption.
Qed.

Lemma diameter_ok (HS : SqrtLaws N) s p : corners s p ->
  exists d, sx_diameter s = Ok d /\ le n0 d /\
    (exists i j, (i < 3)%nat /\ (j < 3)%nat /\ i <> j /\ d * d = dist2 (p i) (p j)) /\
    forall i j, (i < 3)%nat -> (j < 3)%nat -> le (dist2 (p i) (p j)) (d * d).
Proof.
  intros H. apply corners_tri in H as (_ & Hv). unfold sx_diameter, sx_get. rewrite Hv.
  set (l := [dist2 (p 0) (p 1); dist2 (p 0) (p 2); dist2 (p 1) (p 0); dist2 (p 1) (p 2); dist2 (p 2) (p 0); dist2 (p 2) (p 1)]%nat).
  assert (Hz : forall x : N, n0 + x = x) by (intros; ring).
  match goal with |- exists d, bind ?r _ = _ /\ _ => assert (Er : r = Ok (fold_left std_max l n0)) end.
  { unfold l, dist2. cbn. rewrite !Hz. reflexivity. }
  rewrite Er. cbn [bind].
  assert (Hnn : forall u v : nat -> N, le n0 (dist2 u v)). { intros u v. unfold dist2. apply (ole_0_add HO); apply (ole_0_sqr HO). }
  assert (HM : forall (l : list N) m, (le m (fold_left std_max l m)) /\ (fold_left std_max l m = m \/ In (fold_left std_max l m) l) /\ forall x : N, In x l -> le x (fold_left std_max l m)).
  { clear -HO. induction l as [|x l IH]; intros m; cbn [fold_left].
    - split; [apply (ole_refl HO)|]. split; [auto|intros x []].
    - destruct (IH (std_max m x)) as (I1 & I2 & I3).
      assert (M1 : le m (std_max m x) /\ le x (std_max m x) /\ (std_max m x = m \/ std_max m x = x)).
      { unfold std_max. destruct (nltb m x) eqn:E.
        - split; [now apply (olt_le HO)|]. split; [apply (ole_refl HO)|auto].
        - split; [apply (ole_refl HO)|]. split; [now apply (onlt_le HO)|auto]. }
      destruct M1 as (M1 & M2 & M3).
      split; [eapply (ole_trans HO); eauto|]. split.
      + destruct I2 as [I2|I2].
        * rewrite I2. destruct M3 as [M3|M3]; rewrite M3; [left; reflexivity|right; left; reflexivity].
        * right. right. assumption.
      + intros y [<-|Hy]; [eapply (ole_trans HO); eauto|auto]. }
  destruct (HM l n0) as (M1 & M2 & M3). set (r := fold_left std_max l n0) in *.
  exists (nsqrt r). split; [reflexivity|]. split; [apply (sq_nonneg N HS); auto|]. rewrite (sq_sqr N HS) by auto. split.
  - destruct M2 as [M2|M2].
    + exists 0%nat, 1%nat. repeat split; try lia. apply (ole_antisym HO).
      * rewrite M2. apply Hnn.
      * apply M3. unfold l. cbn. auto.
    + unfold l in M2. cbn [In] in M2. destruct M2 as [M|[M|[M|[M|[M|[M|[]]]]]]]; rewrite <- M;
      [exists 0%nat,1%nat|exists 0%nat,2%nat|exists 1%nat,0%nat|exists 1%nat,2%nat|exists 2%nat,0%nat|exists 2%nat,1%nat]; repeat split; auto; lia.
  - intros i j Hi Hj.
    destruct (Nat.eq_dec i j) as [->|Hne].
    + replace (dist2 (p j) (p j)) with (@n0 N) by (unfold dist2; ring). auto.
    + apply M3. unfold l. cbn [In]. destruct i as [|[|[|]]]; try lia; destruct j as [|[|[|]]]; try lia; tauto.
Qed.

(** What center() computes: D^2 times the vector from corner 0 to the circumcentre. *)
Lemma center_ok s s' p : corners s p -> proper p -> sx_prepare s = Ok s' ->
  exists c, sx_center s' = Ok (vec2 c) /\
   let z := fun k => p 0%nat k + c k / (area2 p * area2 p) in
   dist2 z (p 0%nat) = dist2 z (p 1%nat) /\ dist2 z (p 0%nat) = dist2 z (p 2%nat).
Proof.
  intros H Hp E. rewrite (prepared _ _ _ H E). pose proof (dval_proper p Hp) as Ed. destruct Hp as (Ha & _). pose proof two_nz as H2.
  eexists (fun k => match k with 0%nat => _ | _ => _ end).
  split; [cbn; rewrite Ed, nofnat2; reflexivity|]. cbn beta iota zeta. unfold dist2, area2 in *. split; field; auto.
Qed.
Lemma radius_ok (HS : SqrtLaws N) s c : (exists p, corners s p) -> sx_center s = Ok (vec2 c) ->
  exists r v0, sx_outerRadius s = Ok r /\ sx_get s 0 = Ok (vec2 v0) /\ le n0 r /\ r * r = dist2 c v0.
Proof.
  intros (p & H) Ec. pose proof (proj2 H 0%nat ltac:(lia)) as H0. unfold sx_outerRadius. rewrite Ec, H0. cbn [bind].
  eexists _, (p 0%nat). split; [reflexivity|]. split; [reflexivity|].
  match goal with |- le n0 (nsqrt ?x) /\ _ => assert (Hx : x = dist2 c (p 0%nat)) by (unfold dist2; ring) end. rewrite Hx.
  assert (le n0 (dist2 c (p 0%nat))). { unfold dist2. apply (ole_0_add HO); apply (ole_0_sqr HO). }
  split; [now apply (sq_nonneg N HS)|now apply (sq_sqr N HS)].
Qed.

(** faceNormal *)
Lemma normal2 (e0 e1 : N) : nm_normal 2 [[e0; e1]] = v_normalized [e1; - e0].
Proof. unfold nm_normal, nm_sub. cbn -[det_fixed v_normalized]. rewrite (det1 HO). cbn -[det_fixed v_normalized]. rewrite (det1 HO). reflexivity. Qed.
Lemma normalized2 (a b : N) : v_normalized [a; b] = Ok [a * (n1 / nsqrt (a * a + b * b)); b * (n1 / nsqrt (a * a + b * b))].
Proof. cbn. replace (n0 + a * a + b * b) with (a * a + b * b) by ring. reflexivity. Qed.
(** Orientation step on one face: opposite corner c, other corners a, b. *)
Lemma normal_face (HS : SqrtLaws N) (a b c : nat -> N) :
  (b 0%nat - a 0%nat) * (c 1%nat - a 1%nat) - (c 0%nat - a 0%nat) * (b 1%nat - a 1%nat) <> n0 ->
  let e0 := b 0%nat - a 0%nat in let e1 := b 1%nat - a 1%nat in
  let f := fun k => (n0 + a k + b k) * (n1 / (n1 + n1)) in
  forall r, (let* res := nm_normal 2 [[e0; e1]] in
   let* d := v_dot [f 0%nat - c 0%nat; f 1%nat - c 1%nat] res in
   if nltb d n0 then v_neg res else Ok res) = r ->
  exists n, r = Ok (vec2 n) /\ n 0%nat * n 0%nat + n 1%nat * n 1%nat = n1 /\
   n 0%nat * (b 0%nat - a 0%nat) + n 1%nat * (b 1%nat - a 1%nat) = n0 /\
   lt n0 (n 0%nat * (a 0%nat - c 0%nat) + n 1%nat * (a 1%nat - c 1%nat)) /\
   lt n0 (n 0%nat * (b 0%nat - c 0%nat) + n 1%nat * (b 1%nat - c 1%nat)).
Proof.
  intros Ha e0 e1 f r. rewrite normal2, normalized2. cbn [bind].
  set (L2 := e1 * e1 + - e0 * - e0). set (L := nsqrt L2). intros <-.
  assert (HL2 : le n0 L2). { unfold L2. apply (ole_0_add HO); apply (ole_0_sqr HO). }
  assert (HL : L * L = L2) by now apply (sq_sqr N HS).
  assert (HLnz : L <> n0).
  { intros E. assert (E2 : L2 = n0) by (rewrite <- HL, E; ring).
    assert (Z1 : e1 * e1 = n0). { apply (ole_antisym HO); [|apply (ole_0_sqr HO)]. rewrite <- E2. unfold L2.
      apply (proj2 (ole_sub HO _ _)). replace (e1 * e1 + - e0 * - e0 - e1 * e1) with (- e0 * - e0) by ring. apply (ole_0_sqr HO). }
    assert (Z0 : e0 * e0 = n0). { transitivity (L2 - e1 * e1); [unfold L2; ring|]. rewrite E2, Z1. ring. }
    assert (e1 = n0) by (apply (mul_0 HO) in Z1; tauto). assert (e0 = n0) by (apply (mul_0 HO) in Z0; tauto).
    apply Ha. change (e0 * (c 1%nat - a 1%nat) - (c 0%nat - a 0%nat) * e1 = n0). rewrite H, H0. ring. }
  pose proof two_nz as H2.
  set (A := e0 * (c 1%nat - a 1%nat) - (c 0%nat - a 0%nat) * e1) in *.
  assert (Hu : (e1 * (n1 / L)) * (e1 * (n1 / L)) + (- e0 * (n1 / L)) * (- e0 * (n1 / L)) = n1).
  { transitivity (L2 / (L * L)); [unfold L2; field; auto|]. rewrite HL. field. rewrite <- HL. now apply (mul_neq_0 HO). }
  assert (Hn : forall h k, h = e1 * (n1 / L) -> k = - e0 * (n1 / L) ->
      h * e0 + k * e1 = n0 /\ h * (a 0%nat - c 0%nat) + k * (a 1%nat - c 1%nat) = A * (n1 / L) /\
      h * (b 0%nat - c 0%nat) + k * (b 1%nat - c 1%nat) = A * (n1 / L)).
  { intros h k -> ->. unfold A, e0, e1. repeat split; field; auto. }
  destruct (Hn _ _ eq_refl eq_refl) as (N1 & N2 & N3).
  rewrite dot_ok by reflexivity. cbn [length bigsum nth bind].
  match goal with |- exists n, (if nltb ?q n0 then _ else _) = _ /\ _ => assert (Hq : q = A * (n1 / L)) end.
  { unfold A, f, e0, e1. field. auto. }
  rewrite Hq.
  assert (Hnz : A * (n1 / L) <> n0). { apply (mul_neq_0 HO); auto. intros E. apply (one_neq_zero HO). transitivity (L * (n1 / L)); [field; auto|]. rewrite E. ring. }
  destruct (nltb (A * (n1 / L)) n0) eqn:E.
  - exists (fun k => match k with 0%nat => e1 * (n1 / L) * - n1 | _ => - e0 * (n1 / L) * - n1 end).
    split; [reflexivity|]. cbn beta iota.
    assert (Hp : lt n0 (- (A * (n1 / L)))).
    { apply (olt_sub HO) in E. replace (- (A * (n1 / L))) with (n0 - A * (n1 / L)) by ring. exact E. }
    repeat split.
    + etransitivity; [|exact Hu]. ring.
    + transitivity (- (e1 * (n1 / L) * e0 + - e0 * (n1 / L) * e1)); [unfold e0, e1; ring|]. rewrite N1. ring.
    + match goal with |- lt n0 ?g => replace g with (- (A * (n1 / L))); auto end. rewrite <- N2. ring.
    + match goal with |- lt n0 ?g => replace g with (- (A * (n1 / L))); auto end. rewrite <- N3. ring.
  - exists (fun k => match k with 0%nat => e1 * (n1 / L) | _ => - e0 * (n1 / L) end).
    split; [reflexivity|]. cbn beta iota.
    assert (Hp : lt n0 (A * (n1 / L))). { apply (olt_iff_ne HO). split; auto. now apply (onlt_le HO). }
    repeat split; auto; [rewrite N2|rewrite N3]; assumption.
Qed.
Lemma faceNormal_ok (HS : SqrtLaws N) s p i : corners s p -> area2 p <> n0 -> (i < 3)%nat ->
  exists n, sx_faceNormal s i = Ok (vec2 n) /\ n 0%nat * n 0%nat + n 1%nat * n 1%nat = n1 /\
  (forall j l, (j < 3)%nat -> (l < 3)%nat -> j <> i -> l <> i -> n 0%nat * (p j 0%nat - p l 0%nat) + n 1%nat * (p j 1%nat - p l 1%nat) = n0) /\
  forall j, (j < 3)%nat -> j <> i -> lt n0 (n 0%nat * (p j 0%nat - p i 0%nat) + n 1%nat * (p j 1%nat - p i 1%nat)).
Proof.
  intros H Ha Hi. apply corners_tri in H as (_ & Hv). unfold sx_faceNormal, sx_faceCenter, sx_get. rewrite Hv.
  assert (HC : forall a b c, (a < 3 /\ b < 3 /\ c < 3 /\ a <> b /\ b <> c /\ a <> c)%nat ->
     (p b 0%nat - p a 0%nat) * (p c 1%nat - p a 1%nat) - (p c 0%nat - p a 0%nat) * (p b 1%nat - p a 1%nat) <> n0).
  { intros a b c Hd E. apply Ha.  unfold area2 in *.
    assert (Ho : forall x y : N, x = n0 -> (y = x \/ y = - x) -> y = n0). { intros x y -> [->| ->]; ring. }
    apply (Ho _ _ E). destruct a as [|[|[|]]]; try lia; destruct b as [|[|[|]]]; try lia; destruct c as [|[|[|]]]; try lia; first [left; ring|right; ring]. }
  assert (HG : forall (a b : nat), (a < b)%nat -> (b < 3)%nat -> a <> i -> b <> i ->
    forall n, n 0%nat * n 0%nat + n 1%nat * n 1%nat = n1 ->
    n 0%nat * (p b 0%nat - p a 0%nat) + n 1%nat * (p b 1%nat - p a 1%nat) = n0 ->
    lt n0 (n 0%nat * (p a 0%nat - p i 0%nat) + n 1%nat * (p a 1%nat - p i 1%nat)) ->
    lt n0 (n 0%nat * (p b 0%nat - p i 0%nat) + n 1%nat * (p b 1%nat - p i 1%nat)) ->
   (n 0%nat * n 0%nat + n 1%nat * n 1%nat = n1 /\
    (forall j l, (j < 3)%nat -> (l < 3)%nat -> j <> i -> l <> i -> n 0%nat * (p j 0%nat - p l 0%nat) + n 1%nat * (p j 1%nat - p l 1%nat) = n0) /\
    forall j, (j < 3)%nat -> j <> i -> lt n0 (n 0%nat * (p j 0%nat - p i 0%nat) + n 1%nat * (p j 1%nat - p i 1%nat)))).
  { intros a b Hab Hb Hai Hbi n H1 H2 H3 H4. split; auto. split.
    - intros j l Hj Hl Hji Hli. assert (j = a \/ j = b) as [->| ->] by lia; assert (l = a \/ l = b) as [->| ->] by lia; try ring; auto.
      transitivity (- (n 0%nat * (p b 0%nat - p a 0%nat) + n 1%nat * (p b 1%nat - p a 1%nat))); [ring|]. rewrite H2. ring.
    - intros j Hj Hji. assert (j = a \/ j = b) as [->| ->] by lia; auto. }
  destruct i as [|[|[|]]]; try lia.
  - destruct (normal_face HS (p 1%nat) (p 2%nat) (p 0%nat) (HC 1%nat 2%nat 0%nat ltac:(lia)) _ eq_refl) as (n & E & H1 & H2 & H3 & H4).
    exists n. split; [|apply (HG 1%nat 2%nat); auto; lia].
    rewrite <- E. cbn -[nm_normal v_dot v_neg]. rewrite !nofnat2. reflexivity.
  - destruct (normal_face HS (p 0%nat) (p 2%nat) (p 1%nat) (HC 0%nat 2%nat 1%nat ltac:(lia)) _ eq_refl) as (n & E & H1 & H2 & H3 & H4).
    exists n. split; [|apply (HG 0%nat 2%nat); auto; lia].
    rewrite <- E. cbn -[nm_normal v_dot v_neg]. rewrite !nofnat2. reflexivity.
  - destruct (normal_face HS (p 0%nat) (p 1%nat) (p 2%nat) (HC 0%nat 1%nat 2%nat ltac:(lia)) _ eq_refl) as (n & E & H1 & H2 & H3 & H4).
    exists n. split; [|apply (HG 0%nat 1%nat); auto; lia].
    rewrite <- E. cbn -[nm_normal v_dot v_neg]. rewrite !nofnat2. reflexivity.
Qed.
Lemma face_bad s p i : corners s p -> (3 <= i)%nat -> sx_faceNormal s i = UB.
Proof.
  intros H Hi. apply corners_tri in H as (_ & Hv). unfold sx_faceNormal, sx_get. rewrite Hv.
  destruct i as [|[|[|i]]]; try lia. reflexivity.
Qed.
End Result.
