(** Facts about [det]: linear and alternating in the rows, product of the diagonal for triangular tables. *)
From Coq Require Import List Arith Bool Lia Ring Field.
From Verif Require Import Base BaseProofs Num Spec SpecProofs DetSpec.

Section DetProofs.
Context {N : Num} (HF : FieldLaws N).
Add Field detfld : (fl_field N HF).
Implicit Types (a b : nat -> nat -> N) (u w : nat -> N).
Open Scope num_scope.

Lemma det_ext n : forall a b, (forall i j, i < n -> j < n -> a i j = b i j)%nat -> det n a = det n b.
Proof.
  induction n as [|n IH]; intros a b H; [reflexivity|]. cbn [det].
  apply bigsum_ext. intros i Hi. rewrite (H i 0%nat) by lia. f_equal. apply IH. intros r c Hr Hc. unfold minor.
  apply H; [|lia]. unfold skip. destruct (Nat.ltb_spec r i); lia.
Qed.

Definition setrow a (p : nat) u : nat -> nat -> N := fun r c => if (r =? p)%nat then u c else a r c.
Definition unskip (i p : nat) : nat := if (p <? i)%nat then p else (p - 1)%nat.
Lemma skip_unskip i p r : p <> i -> (skip i r =? p)%nat = (r =? unskip i p)%nat.
Proof.
  intros H. unfold skip, unskip.
  destruct (Nat.ltb_spec r i), (Nat.ltb_spec p i), (Nat.eqb_spec r p), (Nat.eqb_spec r (p - 1)), (Nat.eqb_spec (S r) p); auto; lia.
Qed.
Lemma skip_ne i r : skip i r <> i.
Proof. unfold skip. destruct (Nat.ltb_spec r i); lia. Qed.
Lemma skip_lt i r n : (i < S n -> r < n -> skip i r < S n)%nat.
Proof. unfold skip. destruct (Nat.ltb_spec r i); lia. Qed.

Lemma minor_setrow_ne i a p u r c : p <> i ->
  minor i (setrow a p u) r c = setrow (minor i a) (unskip i p) (fun c => u (S c)) r c.
Proof. intros H. unfold minor, setrow. rewrite skip_unskip by auto. reflexivity. Qed.
Lemma minor_setrow_eq i a u r c : minor i (setrow a i u) r c = minor i a r c.
Proof. unfold minor, setrow. destruct (Nat.eqb_spec (skip i r) i); auto. now destruct (skip_ne i r). Qed.

Lemma det_linear n : forall a p u w x y, (p < n)%nat ->
  det n (setrow a p (fun c => x * u c + y * w c)) = x * det n (setrow a p u) + y * det n (setrow a p w).
Proof.
  induction n as [|n IH]; intros a p u w x y Hp; [lia|]. cbn [det].
  rewrite <- (bigsum_mul_l HF), <- (bigsum_mul_l HF), <- (bigsum_plus HF). apply bigsum_ext. intros i Hi.
  destruct (Nat.eq_dec i p) as [->|Hne].
  - unfold setrow at 1 3 5. rewrite Nat.eqb_refl.
    rewrite !(det_ext n (minor p (setrow a p _)) (minor p a)) by (intros; apply minor_setrow_eq). ring.
  - assert (E0 : forall v, setrow a p v i 0%nat = a i 0%nat) by (intros v; unfold setrow; destruct (Nat.eqb_spec i p); congruence).
    rewrite !E0.
    rewrite !(fun v => det_ext n (minor i (setrow a p v)) (setrow (minor i a) (unskip i p) (fun c => v (S c))))
      by (intros; apply minor_setrow_ne; auto).
    rewrite (IH (minor i a) (unskip i p) (fun c => u (S c)) (fun c => w (S c)) x y); [ring|].
    unfold unskip. destruct (Nat.ltb_spec p i); lia.
Qed.

Lemma sgn_S k : sgn (S k) = - sgn k :> N.
Proof. reflexivity. Qed.

(** Two adjacent equal rows. *)
Lemma det_adj_eq n : forall a p, (S p < n)%nat -> (forall c, (c < n)%nat -> a p c = a (S p) c) -> det n a = n0.
Proof.
  induction n as [|n IH]; intros a p Hp He; [lia|]. cbn [det].
  rewrite (bigsum_split HF (S n) p) by lia.
  rewrite (bigsum_0 HF p).
  - replace (S n - p)%nat with (S (S (n - p - 1))) by lia.
    assert (Z : forall i, (i < n - p - 1)%nat -> sgn (p + S (S i)) * a (p + S (S i))%nat 0%nat * det n (minor (p + S (S i)) a) = n0).
    { intros i Hi. rewrite (IH (minor (p + S (S i)) a) p); [ring|lia|]. intros c Hc. unfold minor, skip. bdec. apply He. lia. }
    assert (G : forall k (f : nat -> N), bigsum (S (S k)) f = f 0%nat + f 1%nat + bigsum k (fun i => f (S (S i)))).
    { intros k f. rewrite (bigsum_split HF (S (S k)) 2) by lia. cbn [bigsum]. replace (S (S k) - 2)%nat with k by lia.
      cbn [plus]. ring. }
    rewrite G. rewrite (bigsum_0 HF (n - p - 1)) by (intros i Hi; apply Z; auto).
    rewrite Nat.add_0_r. replace (p + 1)%nat with (S p) by lia. rewrite sgn_S, (He 0%nat) by lia.
    rewrite (det_ext n (minor (S p) a) (minor p a)); [ring|].
    intros r c Hr Hc. unfold minor, skip. destruct (Nat.ltb_spec r (S p)), (Nat.ltb_spec r p); auto; try lia.
    replace r with p by lia. apply He. lia.
  - intros i Hi. rewrite (IH (minor i a) (p - 1)%nat); [ring|lia|]. intros c Hc. unfold minor, skip. bdec.
    replace (S (p - 1)) with p by lia. apply He. lia.
Qed.

(** Exchanging adjacent rows. *)
Lemma det_adj_swap n a p : (S p < n)%nat -> det n (swap_rows p (S p) a) = - det n a.
Proof.
  intros Hp.
  set (D := fun u w => det n (setrow (setrow a p u) (S p) w)).
  assert (comm : forall u w, det n (setrow (setrow a p u) (S p) w) = det n (setrow (setrow a (S p) w) p u)).
  { intros u w. apply det_ext. intros i j Hi Hj. unfold setrow. destruct (Nat.eqb_spec i (S p)), (Nat.eqb_spec i p); auto; lia. }
  assert (L1 : forall u u' w, D (fun c => u c + u' c) w = D u w + D u' w).
  { intros u u' w. unfold D. rewrite !comm.
    transitivity (det n (setrow (setrow a (S p) w) p (fun c => n1 * u c + n1 * u' c))).
    { apply det_ext. intros i j _ _. unfold setrow. destruct (i =? p)%nat; auto. ring. }
    rewrite det_linear by lia. ring. }
  assert (L2 : forall u w w', D u (fun c => w c + w' c) = D u w + D u w').
  { intros u w w'. unfold D.
    transitivity (det n (setrow (setrow a p u) (S p) (fun c => n1 * w c + n1 * w' c))).
    { apply det_ext. intros i j _ _. unfold setrow. destruct (i =? S p)%nat; auto. ring. }
    rewrite det_linear by lia. ring. }
  assert (Al : forall u, D u u = n0).
  { intros u. unfold D. apply (det_adj_eq n _ p); auto. intros c _. unfold setrow. bdec. reflexivity. }
  pose proof (Al (fun c => a p c + a (S p) c)) as H0. rewrite L1, !L2, !Al in H0.
  assert (E1 : D (a p) (a (S p)) = det n a).
  { unfold D. apply det_ext. intros i j _ _. unfold setrow.
    destruct (Nat.eqb_spec i (S p)); [congruence|]. destruct (Nat.eqb_spec i p); congruence. }
  assert (E2 : D (a (S p)) (a p) = det n (swap_rows p (S p) a)).
  { unfold D. apply det_ext. intros i j _ _. unfold setrow, swap_rows.
    destruct (Nat.eqb_spec i (S p)), (Nat.eqb_spec i p); auto; lia. }
  rewrite E1, E2 in H0.
  transitivity ((n0 + det n a + (det n (swap_rows p (S p) a) + n0)) - det n a); [ring|]. rewrite H0. ring.
Qed.

Lemma det_swap n : forall d a p, (p + S d < n)%nat -> det n (swap_rows p (p + S d) a) = - det n a.
Proof.
  induction d as [|d IH]; intros a p Hp.
  - replace (p + 1)%nat with (S p) by lia. apply det_adj_swap. lia.
  - transitivity (det n (swap_rows p (S p) (swap_rows (S p) (S p + S d) (swap_rows p (S p) a)))).
    + apply det_ext. intros i j _ _. unfold swap_rows.
      repeat match goal with |- context [(?x =? ?y)%nat] => destruct (Nat.eqb_spec x y); try lia end; subst; auto; f_equal; lia.
    + rewrite det_adj_swap, IH, det_adj_swap by lia. ring.
Qed.
Lemma det_swap_rows n a p q : (p < n -> q < n -> p <> q -> det n (swap_rows p q a) = - det n a)%nat.
Proof.
  intros Hp Hq Hne. destruct (Nat.lt_ge_cases p q).
  - replace q with (p + S (q - p - 1))%nat by lia. apply det_swap. lia.
  - transitivity (det n (swap_rows q p a)).
    + apply det_ext. intros i j _ _. unfold swap_rows. destruct (Nat.eqb_spec i p), (Nat.eqb_spec i q); auto; congruence.
    + replace p with (q + S (p - q - 1))%nat by lia. apply det_swap. lia.
Qed.

Lemma det_eq_rows n a p q : (p < q -> q < n -> (forall c, c < n -> a p c = a q c) -> det n a = n0)%nat.
Proof.
  intros Hp Hq He. destruct (Nat.eq_dec q (S p)) as [->|Hne].
  - apply (det_adj_eq n a p); auto.
  - assert (H : det n (swap_rows (S p) q a) = n0).
    { apply (det_adj_eq n _ p); [lia|]. intros c Hc. unfold swap_rows.
      destruct (Nat.eqb_spec p (S p)), (Nat.eqb_spec p q), (Nat.eqb_spec (S p) (S p)); try lia. now apply He. }
    rewrite det_swap_rows in H by lia. transitivity (- - det n a); [ring|]. rewrite H. ring.
Qed.

(** Adding a multiple of another row. *)
Lemma det_add_row n a p q x : (p < n)%nat -> (q < n)%nat -> p <> q ->
  det n (setrow a p (fun c => a p c + x * a q c)) = det n a.
Proof.
  intros Hp Hq Hne.
  transitivity (det n (setrow a p (fun c => n1 * a p c + x * a q c))).
  { apply det_ext. intros i j _ _. unfold setrow. destruct (i =? p)%nat; auto. ring. }
  rewrite det_linear by auto.
  rewrite (det_ext n (setrow a p (a p)) a) by (intros i j _ _; unfold setrow; destruct (Nat.eqb_spec i p); congruence).
  assert (Z : det n (setrow a p (a q)) = n0).
  { destruct (Nat.lt_ge_cases p q).
    - apply (det_eq_rows n _ p q); auto. intros c _. unfold setrow. rewrite Nat.eqb_refl. bdec. reflexivity.
    - apply (det_eq_rows n _ q p); auto; try lia. intros c _. unfold setrow. rewrite Nat.eqb_refl. bdec. reflexivity. }
  rewrite Z. ring.
Qed.

(** Products f 0 * ... * f (n-1). *)
Fixpoint bigprod (n : nat) (f : nat -> N) : N := match n with O => n1 | S k => bigprod k f * f k end.
Lemma bigprod_ext n f g : (forall i, i < n -> f i = g i)%nat -> bigprod n f = bigprod n g.
Proof. induction n; intros H; cbn [bigprod]; auto. rewrite IHn, (H n) by auto. auto. Qed.
Lemma bigprod_first n f : bigprod (S n) f = f 0%nat * bigprod n (fun i => f (S i)).
Proof. induction n; cbn [bigprod] in *; [ring|]. rewrite IHn. ring. Qed.
Lemma bigprod_0 n f i : (i < n)%nat -> f i = n0 -> bigprod n f = n0.
Proof.
  induction n as [|n IH]; intros Hi Hf; [lia|]. cbn [bigprod]. destruct (Nat.eq_dec i n) as [->|Hne].
  - rewrite Hf. ring.
  - rewrite IH; auto; [ring|lia].
Qed.
Lemma bigprod_nz n f : (forall x y : N, x <> n0 -> y <> n0 -> x * y <> n0) -> (n1 : N) <> n0 ->
  (forall i, i < n -> f i <> n0)%nat -> bigprod n f <> n0.
Proof. intros Hm H1. induction n; intros H; cbn [bigprod]; auto. apply Hm; auto. Qed.

Lemma det_upper n : forall a, (forall i j, i < n -> j < i -> a i j = n0)%nat -> det n a = bigprod n (fun i => a i i).
Proof.
  induction n as [|n IH]; intros a H; [reflexivity|]. rewrite bigprod_first. cbn [det].
  rewrite (bigsum_single HF (S n) 0) by (try lia; intros k Hk Hne; rewrite (H k 0%nat) by lia; ring).
  rewrite IH.
  - cbn [sgn]. unfold minor, skip. cbn [Nat.ltb Nat.leb]. ring.
  - intros i j Hi Hj. unfold minor, skip. cbn [Nat.ltb Nat.leb]. apply H; lia.
Qed.
Lemma det_zero_row n a p : (p < n)%nat -> (forall c, c < n -> a p c = n0)%nat -> det n a = n0.
Proof.
  intros Hp Hz.
  transitivity (det n (setrow a p (fun c => n0 * a p c + n0 * a p c))).
  { apply det_ext. intros i j Hi Hj. unfold setrow. destruct (Nat.eqb_spec i p); auto. subst. rewrite Hz by auto. ring. }
  rewrite det_linear by auto. ring.
Qed.
Lemma det_lower n : forall a, (forall i j, i < j -> j < n -> a i j = n0)%nat -> det n a = bigprod n (fun i => a i i).
Proof.
  induction n as [|n IH]; intros a H; [reflexivity|]. rewrite bigprod_first. cbn [det].
  rewrite (bigsum_single HF (S n) 0); try lia.
  - rewrite IH.
    + cbn [sgn]. unfold minor, skip. cbn [Nat.ltb Nat.leb]. ring.
    + intros i j Hi Hj. unfold minor, skip. cbn [Nat.ltb Nat.leb]. apply H; lia.
  - intros k Hk Hne. rewrite (det_zero_row n (minor k a) 0); [ring|lia|].
    intros c Hc. unfold minor, skip. bdec. apply H; lia.
Qed.
(** Elimination got stuck: columns 0..k-1 are zero below the diagonal and column k is zero from row k on. *)
Lemma det_stuck n : forall a k, (k < n)%nat -> (forall i j, j < k -> j < i -> i < n -> a i j = n0)%nat ->
  (forall i, k <= i -> i < n -> a i k = n0)%nat -> det n a = n0.
Proof.
  induction n as [|n IH]; intros a k Hk H1 H2; [lia|]. cbn [det]. destruct k as [|k].
  - apply (bigsum_0 HF). intros i Hi. rewrite H2 by lia. ring.
  - rewrite (bigsum_single HF (S n) 0); [|lia|].
    + rewrite (IH (minor 0 a) k); [ring|lia| |].
      * intros i j Hj Hij Hi. unfold minor, skip. cbn [Nat.ltb Nat.leb]. apply H1; lia.
      * intros i Hi1 Hi. unfold minor, skip. cbn [Nat.ltb Nat.leb]. apply H2; lia.
    + intros i Hi Hne. rewrite H1 by lia. ring.
Qed.
Lemma bigsum_trunc n m (f : nat -> N) : (m <= n)%nat -> (forall i, m <= i < n -> f i = n0)%nat -> bigsum n f = bigsum m f.
Proof.
  intros Hm Hz. rewrite (bigsum_split HF n m) by auto. rewrite (bigsum_0 HF (n - m)); [ring|]. intros i Hi. apply Hz. lia.
Qed.
End DetProofs.
