(** The grid: which elements share a face, and which vertices lie on outer faces. *)
From Coq Require Import List Arith Bool Lia.
From Verif Require Import Base BaseProofs Num MeshModel MeshSpec MeshPool MeshProofs HyperProofs.
Import ListNotations.
Local Open Scope nat_scope.

Section Grid.
Variables (e0 e1 : nat).
Hypothesis H0 : 1 <= e0.
Hypothesis H1 : 1 <= e1.
Notation w := (e1 + 1).
Notation gcell := (gcell e1).
Notation gtri := (gtri e1).
Notation T := (map gtri (seq 0 (2 * (e0 * e1)))).
Notation rim := (rim e0 e1).

Lemma gT_length : length T = 2 * (e0 * e1). Proof. now rewrite map_length, seq_length. Qed.
Lemma gT_nth e : e < 2 * (e0 * e1) -> nth e T [] = gtri e.
Proof. intros H. rewrite (nth_indep _ [] (gtri 0)) by (rewrite gT_length; auto). rewrite map_nth, seq_nth by auto. reflexivity. Qed.
Lemma gdiv i j : j < w -> (i * w + j) / w = i.
Proof. intros H. symmetry. apply (Nat.div_unique _ _ _ j); lia. Qed.
Lemma gmod i j : j < w -> (i * w + j) mod w = j.
Proof. intros H. symmetry. apply (Nat.mod_unique _ _ i); lia. Qed.
(** elements as row, column and half *)
Inductive half := Upper | Lower.
Definition gel (i j : nat) (h : half) : nat := 2 * (i * e1 + j) + match h with Upper => 0 | Lower => 1 end.
Definition gvs (a : nat) (h : half) : list nat := match h with Upper => [a; a + w; a + w + 1] | Lower => [a; a + w + 1; a + 1] end.
Lemma gel_lt i j h : i < e0 -> j < e1 -> gel i j h < 2 * (e0 * e1).
Proof. intros. unfold gel. assert (i * e1 + j + 1 <= e0 * e1) by nia. destruct h; lia. Qed.
Lemma gel_tri i j h : j < e1 -> gtri (gel i j h) = gvs (i * w + j) h.
Proof.
  intros Hj. unfold gel, gvs. destruct h.
  - rewrite Nat.add_0_r, (gtri_even e0), (gcell_at e0) by auto. reflexivity.
  - rewrite (gtri_odd e0), (gcell_at e0) by auto. reflexivity.
Qed.
Lemma gel_all e : e < 2 * (e0 * e1) -> exists i j h, i < e0 /\ j < e1 /\ e = gel i j h.
Proof.
  intros He. assert (Hc : e / 2 < e0 * e1) by (apply Nat.div_lt_upper_bound; lia). pose proof (Nat.div_mod e 2 ltac:(lia)) as D.
  pose proof (Nat.mod_upper_bound e 2 ltac:(lia)) as M. set (c := e / 2) in *.
  pose proof (Nat.div_mod c e1 ltac:(lia)) as D1. pose proof (Nat.mod_upper_bound c e1 ltac:(lia)) as M1.
  exists (c / e1), (c mod e1), (if e mod 2 =? 0 then Upper else Lower). split; [apply Nat.div_lt_upper_bound; lia|]. split; auto. unfold gel.
  destruct (e mod 2 =? 0) eqn:E; [apply Nat.eqb_eq in E|apply Nat.eqb_neq in E]; lia.
Qed.
Lemma gel_inj i j h i' j' h' : j < e1 -> j' < e1 -> gel i j h = gel i' j' h' -> i = i' /\ j = j' /\ h = h'.
Proof.
  intros Hj Hj' E. unfold gel in E. assert (C : i * e1 + j = i' * e1 + j' /\ h = h') by (destruct h, h'; split; auto; lia).
  destruct C as (C & ->). assert (i = i') by nia. subst. split; [auto|]. split; [lia|auto].
Qed.
Lemma face_gel i j h x y : i < e0 -> j < e1 -> has_face T (gel i j h) x y <-> In x (gvs (i * w + j) h) /\ In y (gvs (i * w + j) h).
Proof. intros Hi Hj. unfold has_face. rewrite gT_length, gT_nth, gel_tri by (auto using gel_lt). pose proof (gel_lt i j h Hi Hj). tauto. Qed.
Lemma at_inj i j i' j' : j < e1 -> j' < e1 -> i * w + j = i' * w + j' -> i = i' /\ j = j'.
Proof. intros Hj Hj' E. assert (i = i') by nia. subst. lia. Qed.
(** a face and the half determine the cell *)
Lemma half_once i j i' j' h x y : j < e1 -> j' < e1 -> x <> y -> In x (gvs (i * w + j) h) -> In y (gvs (i * w + j) h) ->
  In x (gvs (i' * w + j') h) -> In y (gvs (i' * w + j') h) -> i = i' /\ j = j'.
Proof.
  intros Hj Hj' Hn A B C D. apply at_inj; auto. set (a := i * w + j) in *. set (b := i' * w + j') in *. clearbody a b.
  destruct h; cbn in A, B, C, D; intuition lia.
Qed.
Theorem no_three : ~ three_share_a_face T.
Proof.
  intros (x & y & e & f & g & Hn & A & B & C & He & Hf & Hg).
  assert (P : forall e, has_face T e x y -> exists i j h, i < e0 /\ j < e1 /\ e = gel i j h /\ In x (gvs (i * w + j) h) /\ In y (gvs (i * w + j) h)).
  { intros k Hk. pose proof Hk as (Hl & _). rewrite gT_length in Hl. apply gel_all in Hl as (i & j & h & Hi & Hj & ->). apply face_gel in Hk; auto. exists i, j, h. tauto. }
  destruct (P _ He) as (i & j & h & Hi & Hj & -> & X & Y). destruct (P _ Hf) as (i1 & j1 & h1 & Hi1 & Hj1 & -> & X1 & Y1).
  destruct (P _ Hg) as (i2 & j2 & h2 & Hi2 & Hj2 & -> & X2 & Y2).
  assert (Q : forall i j i' j' h h', j < e1 -> j' < e1 -> In x (gvs (i * w + j) h) -> In y (gvs (i * w + j) h) -> In x (gvs (i' * w + j') h') -> In y (gvs (i' * w + j') h') ->
     gel i j h <> gel i' j' h' -> h <> h').
  { intros a b a' b' k k' ? ? ? ? ? ? Hd ->. apply Hd. destruct (half_once a b a' b' k' x y) as (-> & ->); auto. }
  assert (h <> h1) by (eapply Q; [exact Hj|exact Hj1|..]; eauto). assert (h <> h2) by (eapply Q; [exact Hj|exact Hj2|..]; eauto).
  assert (h1 <> h2) by (eapply Q; [exact Hj1|exact Hj2|..]; eauto). destruct h, h1, h2; congruence.
Qed.

(** outer faces *)
Lemma outer_gel i j h x y : i < e0 -> j < e1 -> x <> y -> In x (gvs (i * w + j) h) -> In y (gvs (i * w + j) h) ->
  (forall i' j' h', i' < e0 -> j' < e1 -> In x (gvs (i' * w + j') h') -> In y (gvs (i' * w + j') h') -> h' = h) -> outer_face T x y.
Proof.
  intros Hi Hj Hn X Y U. split; auto. exists (gel i j h). split; [apply face_gel; auto|]. intros f Hf. pose proof Hf as (Hl & _). rewrite gT_length in Hl.
  apply gel_all in Hl as (i' & j' & h' & Hi' & Hj' & ->). apply face_gel in Hf as (X' & Y'); auto.
  pose proof (U i' j' h' Hi' Hj' X' Y') as ->. destruct (half_once i j i' j' h x y) as (-> & ->); auto.
Qed.
Lemma outer_sym x y : outer_face T x y -> outer_face T y x.
Proof. intros (Hn & e & (A & B & C) & U). split; auto. exists e. split; [split; auto|]. intros f (F1 & F2 & F3). apply U. split; auto. Qed.
(** the four sides *)
Lemma left_side i : i < e0 -> outer_face T (i * w) (i * w + w).
Proof.
  intros Hi. apply (outer_gel i 0 Upper); try lia; try (cbn; lia). intros i' j' h' Hi' Hj' X Y. destruct h'; auto. exfalso. cbn in X, Y.
  assert (E : i * w = i' * w + (j' + 1)) by lia. assert (j' + 1 = 0); [|lia]. assert (j' + 1 < w) by lia.
  pose proof (gmod i' (j' + 1) ltac:(lia)). rewrite <- E in H2. rewrite Nat.mod_mul in H2 by lia. lia.
Qed.
Lemma right_side i : i < e0 -> outer_face T (i * w + e1) (i * w + e1 + w).
Proof.
  intros Hi. apply (outer_gel i (e1 - 1) Lower); try lia; try (cbn; lia). intros i' j' h' Hi' Hj' X Y. destruct h'; auto. exfalso. cbn in X, Y.
  assert (E : i * w + e1 = i' * w + j') by lia. pose proof (gmod i e1 ltac:(lia)). rewrite E, gmod in H by lia. lia.
Qed.
Lemma bottom_side j : j < e1 -> outer_face T j (j + 1).
Proof.
  intros Hj. apply (outer_gel 0 j Lower); try lia; try (cbn; lia). intros i' j' h' Hi' Hj' X Y. destruct h'; auto. exfalso. cbn in X, Y. nia.
Qed.
Lemma top_side j : j < e1 -> outer_face T (e0 * w + j) (e0 * w + j + 1).
Proof.
  intros Hj. apply (outer_gel (e0 - 1) j Upper); try lia; try (cbn; nia). intros i' j' h' Hi' Hj' X Y. destruct h'; auto. exfalso. cbn in X, Y. nia.
Qed.
Lemma rim_at i j : i <= e0 -> j <= e1 -> rim (i * w + j) <-> (j = 0 \/ j = e1 \/ i = 0 \/ i = e0).
Proof. intros Hi Hj. unfold HyperProofs.rim. rewrite gmod, gdiv by lia. assert (i * w + j < (e0 + 1) * w) by nia. tauto. Qed.
Lemma rim_outer k : rim k -> exists y, outer_face T k y.
Proof.
  intros R. pose proof R as (Hk & _). set (i := k / w). set (j := k mod w). assert (Ek : k = i * w + j) by (pose proof (Nat.div_mod k w ltac:(lia)); unfold i, j; lia).
  assert (Hj : j <= e1) by (pose proof (Nat.mod_upper_bound k w ltac:(lia)); unfold j; lia). assert (Hi : i <= e0) by (unfold i; pose proof (Nat.div_lt_upper_bound k w (e0 + 1)); lia).
  rewrite Ek in R. apply rim_at in R; auto. rewrite Ek. clearbody i j. clear Ek Hk k.
  assert (L : forall i j, i <= e0 -> j = 0 -> exists y, outer_face T (i * w + j) y).
  { intros i' j' Hi' ->. rewrite Nat.add_0_r. destruct (lt_dec i' e0) as [H|H]; [eexists; now apply left_side|].
    exists ((i' - 1) * w). apply outer_sym. replace (i' * w) with ((i' - 1) * w + w) by nia. apply left_side. lia. }
  assert (Rt : forall i j, i <= e0 -> j = e1 -> exists y, outer_face T (i * w + j) y).
  { intros i' j' Hi' ->. destruct (lt_dec i' e0) as [H|H]; [eexists; now apply right_side|].
    exists ((i' - 1) * w + e1). apply outer_sym. replace (i' * w + e1) with ((i' - 1) * w + e1 + w) by nia. apply right_side. lia. }
  destruct (Nat.eq_dec j 0) as [|Z]; [now apply L|]. destruct (Nat.eq_dec j e1) as [|Z1]; [now apply Rt|].
  destruct R as [R|[R|[->| ->]]]; try lia.
  - eexists. apply bottom_side. lia.
  - eexists. apply top_side. lia.
Qed.
Lemma outer_rim k y : outer_face T k y -> rim k.
Proof.
  intros (Hn & e & He & U). pose proof He as (Hl & _). rewrite gT_length in Hl. apply gel_all in Hl as (i & j & h & Hi & Hj & ->). apply face_gel in He as (X & Y); auto.
  assert (O : forall i' j' h', i' < e0 -> j' < e1 -> h' <> h -> In k (gvs (i' * w + j') h') -> In y (gvs (i' * w + j') h') -> False).
  { intros i' j' h' Hi' Hj' Hh X' Y'. assert (E : gel i' j' h' = gel i j h) by (apply U; apply face_gel; auto). apply gel_inj in E as (_ & _ & E); auto. }
  assert (Rm : forall r c, r <= e0 -> c <= e1 -> k = r * w + c -> (c = 0 \/ c = e1 \/ r = 0 \/ r = e0) -> rim k) by (intros r c Hr Hc -> D; apply rim_at; auto).
  destruct h; cbn in X, Y.
  - (* the diagonal is shared with the other half of the cell *)
    assert (D : ~ ((k = i * w + j /\ y = i * w + j + w + 1) \/ (y = i * w + j /\ k = i * w + j + w + 1))).
    { intros D. apply (O i j Lower Hi Hj); [discriminate| |]; cbn; lia. }
    assert (C1 : j = 0 \/ ~ ((k = i * w + j /\ y = i * w + j + w) \/ (y = i * w + j /\ k = i * w + j + w))).
    { destruct j as [|j']; auto. right. intros C. apply (O i j' Lower Hi); [lia|discriminate| |]; cbn; lia. }
    assert (C2 : i + 1 = e0 \/ ~ ((k = i * w + j + w /\ y = i * w + j + w + 1) \/ (y = i * w + j + w /\ k = i * w + j + w + 1))).
    { destruct (Nat.eq_dec (i + 1) e0); auto. right. intros C. apply (O (i + 1) j Lower); [lia|auto|discriminate| |]; cbn; nia. }
    destruct X as [X|[X|[X|[]]]], Y as [Y|[Y|[Y|[]]]]; subst k y; try lia.
    + destruct C1 as [->|C1]; [|lia]. apply (Rm i 0); lia.
    + destruct C1 as [->|C1]; [|lia]. apply (Rm (i + 1) 0); lia.
    + destruct C2 as [C2|C2]; [|lia]. apply (Rm (i + 1) j); lia.
    + destruct C2 as [C2|C2]; [|lia]. apply (Rm (i + 1) (j + 1)); lia.
  - assert (D : ~ ((k = i * w + j /\ y = i * w + j + w + 1) \/ (y = i * w + j /\ k = i * w + j + w + 1))).
    { intros D. apply (O i j Upper Hi Hj); [discriminate| |]; cbn; lia. }
    assert (C1 : j + 1 = e1 \/ ~ ((k = i * w + j + 1 /\ y = i * w + j + w + 1) \/ (y = i * w + j + 1 /\ k = i * w + j + w + 1))).
    { destruct (Nat.eq_dec (j + 1) e1); auto. right. intros C. apply (O i (j + 1) Upper Hi); [lia|discriminate| |]; cbn; lia. }
    assert (C2 : i = 0 \/ ~ ((k = i * w + j /\ y = i * w + j + 1) \/ (y = i * w + j /\ k = i * w + j + 1))).
    { destruct i as [|i']; auto. right. intros C. apply (O i' j Upper); [lia|auto|discriminate| |]; cbn; nia. }
    destruct X as [X|[X|[X|[]]]], Y as [Y|[Y|[Y|[]]]]; subst k y; try lia.
    + destruct C2 as [->|C2]; [|lia]. apply (Rm 0 j); lia.
    + destruct C1 as [C1|C1]; [|lia]. apply (Rm (i + 1) (j + 1)); lia.
    + destruct C2 as [->|C2]; [|lia]. apply (Rm 0 (j + 1)); lia.
    + destruct C1 as [C1|C1]; [|lia]. apply (Rm i (j + 1)); lia.
Qed.
Theorem rim_iff k : rim k <-> exists y, outer_face T k y.
Proof. split; [apply rim_outer|intros (y & H); eapply outer_rim; eauto]. Qed.
End Grid.
