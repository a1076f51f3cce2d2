(** Lemmas about Base.v. *)
From Coq Require Import List Arith Lia Bool.
From Verif Require Import Base.
Import ListNotations.
Open Scope res_scope.

Lemma post_bind {A B} (r : res A) (f : A -> res B) Q E :
  post r (fun a => post (f a) Q E) E -> post (bind r f) Q E.
Proof. destruct r; simpl; auto. Qed.

Lemma post_mono {A} (r : res A) (Q Q' : A -> Prop) (E E' : exn -> Prop) :
  post r Q E -> (forall a, Q a -> Q' a) -> (forall e, E e -> E' e) -> post r Q' E'.
Proof. destruct r; simpl; auto. Qed.

Lemma returns_post {A} (r : res A) Q : returns r Q <-> post r Q (fun _ => False).
Proof.
  unfold returns; split.
  - intros (a & -> & H); exact H.
  - destruct r; simpl; intros H; try contradiction. eauto.
Qed.

Lemma returns_bind {A B} (r : res A) (f : A -> res B) Q :
  returns r (fun a => returns (f a) Q) -> returns (bind r f) Q.
Proof. intros (a & -> & H). exact H. Qed.

Lemma returns_ok {A} (a : A) (Q : A -> Prop) : Q a -> returns (Ok a) Q.
Proof. intros; exists a; auto. Qed.

Lemma returns_mono {A} (r : res A) (Q Q' : A -> Prop) :
  returns r Q -> (forall a, Q a -> Q' a) -> returns r Q'.
Proof. intros (a & H1 & H2) H; exists a; auto. Qed.

Lemma bind_ok {A B} (r : res A) (f : A -> res B) b :
  bind r f = Ok b -> exists a, r = Ok a /\ f a = Ok b.
Proof. destruct r; simpl; try discriminate. eauto. Qed.

Lemma bind_ok_r {A} (r : res A) : bind r Ok = r.
Proof. destruct r; reflexivity. Qed.

Lemma bind_assoc {A B C} (r : res A) (f : A -> res B) (g : B -> res C) :
  bind (bind r f) g = bind r (fun a => bind (f a) g).
Proof. destruct r; reflexivity. Qed.

(** Loop rules. *)
Lemma for_n_post {S} (P : nat -> S -> Prop) E n : forall lo f s,
  P lo s ->
  (forall i s, lo <= i < lo + n -> P i s -> post (f i s) (P (Datatypes.S i)) E) ->
  post (for_n n lo f s) (P (lo + n)) E.
Proof.
  induction n as [|n IH]; intros lo f s H0 Hs; simpl.
  - now rewrite Nat.add_0_r.
  - apply post_bind. eapply post_mono; [apply Hs; [lia|exact H0] | | auto].
    intros s1 H1. replace (lo + Datatypes.S n) with (Datatypes.S lo + n) by lia.
    apply IH; auto. intros i s2 Hi. apply Hs; lia.
Qed.

Lemma for_post {S} (P : nat -> S -> Prop) E lo hi f s :
  lo <= hi -> P lo s ->
  (forall i s, lo <= i < hi -> P i s -> post (f i s) (P (Datatypes.S i)) E) ->
  post (for_ lo hi f s) (P hi) E.
Proof.
  intros Hle H0 Hs. unfold for_.
  replace hi with (lo + (hi - lo)) at 2 by lia.
  apply for_n_post; auto. intros; apply Hs; auto; lia.
Qed.

Lemma for_returns {S} (P : nat -> S -> Prop) lo hi f s :
  lo <= hi -> P lo s ->
  (forall i s, lo <= i < hi -> P i s -> returns (f i s) (P (Datatypes.S i))) ->
  returns (for_ lo hi f s) (P hi).
Proof.
  intros Hle H0 Hs. apply returns_post. apply for_post; auto.
  intros; apply returns_post; auto.
Qed.

Lemma for_empty {S} lo hi (f : nat -> S -> res S) s : hi <= lo -> for_ lo hi f s = Ok s.
Proof. intros H. unfold for_. replace (hi - lo) with 0 by lia. reflexivity. Qed.

Lemma for_step {S} lo hi (f : nat -> S -> res S) s :
  lo < hi -> for_ lo hi f s = bind (f lo s) (for_ (Datatypes.S lo) hi f).
Proof.
  intros H. unfold for_. replace (hi - lo) with (Datatypes.S (hi - Datatypes.S lo)) by lia.
  reflexivity.
Qed.

Lemma for_n_S {S} n lo (f : nat -> S -> res S) s :
  for_n (Datatypes.S n) lo f s = bind (f lo s) (fun s1 => for_n n (Datatypes.S lo) f s1).
Proof. reflexivity. Qed.

Lemma for_n_last {S} n : forall lo (f : nat -> S -> res S) s,
  for_n (Datatypes.S n) lo f s = bind (for_n n lo f s) (f (lo + n)).
Proof.
  induction n as [|n IH]; intros lo f s.
  - simpl. rewrite Nat.add_0_r. now rewrite bind_ok_r.
  - rewrite (for_n_S (Datatypes.S n)), (for_n_S n lo f s), bind_assoc.
    destruct (f lo s) as [a| | | | |]; cbn [bind]; auto.
    rewrite IH. f_equal. f_equal. lia.
Qed.

Lemma for_n_ext {S} n : forall lo (f g : nat -> S -> res S) s,
  (forall i s, lo <= i < lo + n -> f i s = g i s) -> for_n n lo f s = for_n n lo g s.
Proof.
  induction n as [|n IH]; intros lo f g s H; simpl; auto.
  rewrite H by lia. destruct (g lo s); simpl; auto. apply IH. intros; apply H; lia.
Qed.

Lemma down_n_post {S} (P : nat -> S -> Prop) E n : forall lo f s,
  P (lo + n) s ->
  (forall i s, lo <= i < lo + n -> P (Datatypes.S i) s -> post (f i s) (P i) E) ->
  post (down_n n lo f s) (P lo) E.
Proof.
  induction n as [|n IH]; intros lo f s H0 Hs; simpl.
  - now rewrite Nat.add_0_r in H0.
  - apply post_bind. eapply post_mono; [apply Hs; [lia|] | | auto].
    + now replace (Datatypes.S (lo + n)) with (lo + Datatypes.S n) by lia.
    + intros s1 H1. apply IH; auto. intros i s2 Hi. apply Hs; lia.
Qed.

Lemma down_n_returns {S} (P : nat -> S -> Prop) n lo f s :
  P (lo + n) s ->
  (forall i s, lo <= i < lo + n -> P (Datatypes.S i) s -> returns (f i s) (P i)) ->
  returns (down_n n lo f s) (P lo).
Proof.
  intros H0 Hs. apply returns_post. apply down_n_post; auto.
  intros; apply returns_post; auto.
Qed.

Lemma foreach_post {X S} (P : list X -> S -> Prop) E (f : X -> S -> res S) :
  forall l done s,
  P done s ->
  (forall x d s, In x l -> P d s -> post (f x s) (P (d ++ [x])) E) ->
  post (foreach l f s) (P (done ++ l)) E.
Proof.
  induction l as [|x l IH]; intros done s H0 Hs; simpl.
  - now rewrite app_nil_r.
  - apply post_bind. eapply post_mono; [apply Hs; [now left|exact H0] | | auto].
    intros s1 H1. replace (done ++ x :: l) with ((done ++ [x]) ++ l) by now rewrite <- app_assoc.
    apply IH; auto. intros; apply Hs; auto. now right.
Qed.

Lemma foreach_app {X S} (f : X -> S -> res S) l1 : forall l2 s,
  foreach (l1 ++ l2) f s = bind (foreach l1 f s) (foreach l2 f).
Proof.
  induction l1 as [|x l1 IH]; intros l2 s; simpl; auto.
  destruct (f x s); simpl; auto.
Qed.

(** Vector element access. *)
Lemma upd_length {A} (l : list A) : forall i v, length (upd l i v) = length l.
Proof. induction l as [|x l IH]; intros [|i] v; simpl; auto. Qed.

Lemma nth_upd {A} (l : list A) : forall i j v d,
  nth j (upd l i v) d = if (j =? i) && (i <? length l) then v else nth j l d.
Proof.
  induction l as [|x l IH]; intros i j v d.
  - simpl. destruct i, j; simpl; rewrite ?andb_false_r; auto.
  - destruct i as [|i], j as [|j]; simpl; auto.
    rewrite IH. reflexivity.
Qed.

Lemma nth_upd_eq {A} (l : list A) i v d : i < length l -> nth i (upd l i v) d = v.
Proof.
  intros H. rewrite nth_upd, Nat.eqb_refl. apply Nat.ltb_lt in H. now rewrite H.
Qed.

Lemma nth_upd_ne {A} (l : list A) i j v d : j <> i -> nth j (upd l i v) d = nth j l d.
Proof. intros H. rewrite nth_upd. apply Nat.eqb_neq in H. now rewrite H. Qed.

Lemma vget_ok {A} (l : list A) i d : i < length l -> vget l i = Ok (nth i l d).
Proof.
  intros H. unfold vget. rewrite (nth_error_nth' l d H). reflexivity.
Qed.

Lemma vset_ok {A} (l : list A) i v : i < length l -> vset l i v = Ok (upd l i v).
Proof. intros H. unfold vset. apply Nat.ltb_lt in H. now rewrite H. Qed.

Lemma assert_true b : b = true -> assert_ b = Ok tt.
Proof. now intros ->. Qed.

Lemma list_eq_nth {A} (l1 l2 : list A) d :
  length l1 = length l2 -> (forall i, i < length l1 -> nth i l1 d = nth i l2 d) -> l1 = l2.
Proof.
  revert l2; induction l1 as [|x l1 IH]; intros [|y l2] Hl H; simpl in *; try discriminate; auto.
  f_equal.
  - apply (H 0); lia.
  - apply IH; [lia|]. intros i Hi. apply (H (S i)); lia.
Qed.

(** Decide one boolean comparison of naturals in the goal from the context. *)
Ltac bdec1 :=
  match goal with
  | |- context [?a =? ?b] =>
      first [ replace (a =? b) with true by (symmetry; apply Nat.eqb_eq; simpl; lia)
            | replace (a =? b) with false by (symmetry; apply Nat.eqb_neq; simpl; lia) ]
  | |- context [?a <? ?b] =>
      first [ replace (a <? b) with true by (symmetry; apply Nat.ltb_lt; simpl; lia)
            | replace (a <? b) with false by (symmetry; apply Nat.ltb_ge; simpl; lia) ]
  | |- context [?a <=? ?b] =>
      first [ replace (a <=? b) with true by (symmetry; apply Nat.leb_le; simpl; lia)
            | replace (a <=? b) with false by (symmetry; apply Nat.leb_gt; simpl; lia) ]
  end.
Ltac bdec := repeat (bdec1; cbn [negb andb orb bind assert_]).
