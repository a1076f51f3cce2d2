(** The determinant of a product; uniqueness of the determinant. *)
From Coq Require Import List Arith Bool Lia Ring Field.
From Verif Require Import Base BaseProofs Num Spec SpecProofs DenseSpec DetSpec DetProofs LUModel LUProofs.
Import ListNotations.
Local Open Scope nat_scope.

Section DetMult.
Context {N : Num} (HF : FieldLaws N).
Add Field detmfld : (fl_field N HF).
Implicit Types (a b : nat -> nat -> N).

Lemma nz_dec (f : nat -> N) lo hi : (exists r, lo <= r < hi /\ f r <> n0) \/ (forall r, lo <= r < hi -> f r = n0).
Proof.
  induction hi as [|h IH]; [right; lia|]. destruct IH as [(r & Hr & Hf)|H]; [left; exists r; split; auto; lia|].
  destruct (is0 (f h)) eqn:E.
  - apply (is0_iff HF) in E. right. intros r Hr. destruct (Nat.eq_dec r h) as [->|Hne]; auto. apply H. lia.
  - destruct (Nat.le_gt_cases lo h).
    + left. exists h. split; [lia|]. intros X. apply (is0_iff HF) in X. congruence.
    + right. intros r Hr. lia.
Qed.

(** A function of the rows that is multilinear, alternating and 0 on the identity is 0. *)
Section Zero.
Variable n : nat.
Variable G : (nat -> nat -> N) -> N.
Hypothesis Gext : forall a b, (forall i j, i < n -> j < n -> a i j = b i j) -> G a = G b.
Hypothesis Glin : forall a p u w x y, p < n ->
  G (setrow a p (fun c => x * u c + y * w c)%num) = (x * G (setrow a p u) + y * G (setrow a p w))%num.
Hypothesis Galt : forall a p q, p < n -> q < n -> p <> q -> (forall c, c < n -> a p c = a q c) -> G a = n0.
Hypothesis Gid : G (fun i j => if i =? j then n1 else n0) = n0.

Lemma Gadd a p q x : p < n -> q < n -> p <> q -> G (setrow a p (fun c => a p c + x * a q c)%num) = G a.
Proof.
  intros Hp Hq Hne. transitivity (G (setrow a p (fun c => n1 * a p c + x * a q c)%num)).
  { apply Gext. intros i j Hi Hj. unfold setrow. bcase; ring. }
  rewrite Glin by auto. rewrite (Galt (setrow a p (a q)) p q); auto.
  - rewrite (Gext (setrow a p (a p)) a); [ring|]. intros i j Hi Hj. unfold setrow. bcase; subst; auto.
  - intros c Hc. unfold setrow. bcase; auto.
Qed.
Lemma Gscale a p x : p < n -> G (setrow a p (fun c => x * a p c)%num) = (x * G a)%num.
Proof.
  intros Hp. transitivity (G (setrow a p (fun c => x * a p c + n0 * a p c)%num)).
  { apply Gext. intros i j Hi Hj. unfold setrow. bcase; ring. }
  rewrite Glin by auto. rewrite (Gext (setrow a p (a p)) a); [ring|]. intros i j Hi Hj. unfold setrow. bcase; subst; auto.
Qed.
Lemma Gzero a p : p < n -> (forall c, c < n -> a p c = n0) -> G a = n0.
Proof.
  intros Hp Hz. transitivity (n0 * G a)%num; [|ring]. rewrite <- (Gscale a p) by auto. apply Gext. intros i j Hi Hj.
  unfold setrow. bcase; auto. subst. rewrite Hz by auto. ring.
Qed.
Lemma Gelim a q (c : nat -> N) : q < n -> G (fun i j => if i =? q then a i j else (a i j - c i * a q j)%num) = G a.
Proof.
  intros Hq.
  assert (H : forall h, h <= n -> G (fun i j => if i =? q then a i j else if i <? h then (a i j - c i * a q j)%num else a i j) = G a).
  { induction h as [|h IH]; intros Hh.
    - apply Gext. intros i j Hi Hj. bcase; auto.
    - rewrite <- IH by lia. destruct (Nat.eq_dec h q) as [->|Hne].
      + apply Gext. intros i j Hi Hj. bcase; auto.
      + set (b := fun i j => if i =? q then a i j else if i <? h then (a i j - c i * a q j)%num else a i j).
        rewrite <- (Gadd b h q (- c h)%num) by (auto; lia). apply Gext. intros i j Hi Hj. unfold setrow, b. bcase; subst; auto. ring. }
  rewrite <- (H n) by auto. apply Gext. intros i j Hi Hj. bcase; auto.
Qed.

(** More rows than columns to spare. *)
Lemma Grank m : forall a k, k + S m <= n ->
  (forall i j, k <= i <= k + m -> j < n -> j <= k \/ k + m < j -> a i j = n0) -> G a = n0.
Proof.
  induction m as [|m IH]; intros a k Hk Hz.
  - apply (Gzero a k); [lia|]. intros c Hc. apply Hz; lia.
  - assert (Main : forall b, b (k + S m) (k + S m) <> n0 ->
      (forall i j, k <= i <= k + S m -> j < n -> j <= k \/ k + S m < j -> b i j = n0) -> G b = n0).
    { intros b Hp Hb. rewrite <- (Gelim b (k + S m) (fun i => b i (k + S m)%nat / b (k + S m)%nat (k + S m)%nat)%num) by lia.
      apply (IH _ k); [lia|]. intros i j Hi Hj Hc. bcase. destruct (Nat.eq_dec j (k + S m)) as [->|Hne].
      - field. auto.
      - rewrite (Hb i j), (Hb (k + S m) j) by lia. field. auto. }
    destruct (nz_dec (fun r => a r (k + S m)) k (k + S (S m))) as [(r & Hr & Hf)|H].
    + destruct (is0 (a (k + S m) (k + S m))) eqn:E.
      * apply (is0_iff HF) in E. assert (r <> k + S m) by (intros ->; auto).
        rewrite <- (Gadd a (k + S m) r n1) by lia. apply Main.
        -- unfold setrow. rewrite Nat.eqb_refl, E. intros X. apply Hf. rewrite <- X. ring.
        -- intros i j Hi Hj Hc. unfold setrow. bcase; [|apply Hz; lia]. rewrite !Hz by lia. ring.
      * apply Main; auto. intros X. apply (is0_iff HF) in X. congruence.
    + apply (IH a k); [lia|]. intros i j Hi Hj Hc. destruct (Nat.eq_dec j (k + S m)) as [->|]; [apply H; lia|apply Hz; lia].
Qed.
Lemma G_zero_from d : forall k a, k + d = n -> (forall i j, i < n -> j < k -> a i j = if i =? j then n1 else n0) -> G a = n0.
Proof.
  induction d as [|d IH]; intros k a Hk Ha.
  - rewrite <- Gid. apply Gext. intros. apply Ha; lia.
  - assert (Main : forall b, b k k <> n0 -> (forall i j, i < n -> j < k -> b i j = if i =? j then n1 else n0) -> G b = n0).
    { intros b Hp Hb. assert (E : G b = (b k k * G (setrow b k (fun c => n1 / b k k * b k c)))%num).
      { rewrite Gscale by lia. field. auto. }
      rewrite E. set (b1 := setrow b k (fun c => n1 / b k k * b k c)%num).
      rewrite <- (Gelim b1 k (fun i => b1 i k)) by lia. rewrite (IH (S k)); [ring|lia|].
      intros i j Hi Hj. destruct (Nat.eq_dec j k) as [->|Hne].
      - unfold b1, setrow. rewrite Nat.eqb_refl. bcase; field; auto.
      - unfold b1, setrow. rewrite Nat.eqb_refl. destruct (Nat.eqb_spec i k).
        + subst. rewrite (Hb k j) by lia. bcase. field. auto.
        + rewrite (Hb i j), (Hb k j) by lia. bcase; field; auto. }
    destruct (nz_dec (fun r => a r k) k n) as [(r & Hr & Hf)|H].
    + destruct (is0 (a k k)) eqn:E.
      * apply (is0_iff HF) in E. assert (r <> k) by (intros ->; auto).
        rewrite <- (Gadd a k r n1) by lia. apply Main.
        -- unfold setrow. rewrite Nat.eqb_refl, E. intros X. apply Hf. rewrite <- X. ring.
        -- intros i j Hi Hj. unfold setrow. destruct (Nat.eqb_spec i k); [|apply Ha; lia]. subst. rewrite !Ha by lia. bcase. ring.
      * apply Main; auto. intros X. apply (is0_iff HF) in X. congruence.
    + apply (Grank d a k); [lia|]. intros i j Hi Hj Hc. destruct (Nat.eq_dec j k) as [->|]; [apply H; lia|]. rewrite Ha by lia. bcase. auto.
Qed.
Lemma G_zero a : G a = n0.
Proof. apply (G_zero_from n 0); auto. intros. lia. Qed.
End Zero.

Lemma det_id n : det n (fun i j => if i =? j then n1 else n0) = n1 :> N.
Proof.
  rewrite (det_upper HF) by (intros; bcase; auto). induction n as [|n IH]; [reflexivity|]. cbn [bigprod].
  rewrite IH, Nat.eqb_refl. ring.
Qed.

Theorem det_mult n a b : det n (prod2 n a b) = (det n a * det n b)%num.
Proof.
  assert (H : (det n (prod2 n a b) - det n a * det n b)%num = n0).
  { apply (G_zero n (fun a => det n (prod2 n a b) - det n a * det n b)%num).
    - intros a1 a2 H. rewrite (det_ext n (prod2 n a1 b) (prod2 n a2 b)), (det_ext n a1 a2); auto.
      intros i j Hi Hj. unfold prod2. apply bigsum_ext. intros k Hk. now rewrite H.
    - intros a1 p u w x y Hp. rewrite (det_linear HF) by auto.
      assert (Q : forall v, det n (prod2 n (setrow a1 p v) b) = det n (setrow (prod2 n a1 b) p (fun c => bigsum n (fun k => v k * b k c)%num))).
      { intros v. apply det_ext. intros i j Hi Hj. unfold prod2, setrow. bcase; auto. }
      rewrite !Q.
      rewrite (det_ext n _ (setrow (prod2 n a1 b) p (fun c => x * bigsum n (fun k => u k * b k c) + y * bigsum n (fun k => w k * b k c))%num)).
      + rewrite (det_linear HF) by auto. ring.
      + intros i j Hi Hj. unfold setrow. bcase; auto. rewrite <- !(bigsum_mul_l HF), <- (bigsum_plus HF). apply bigsum_ext. intros; ring.
    - intros a1 p q Hp Hq Hne He.
      assert (E0 : forall c : nat -> nat -> N, (forall j, j < n -> c p j = c q j) -> det n c = n0).
      { intros c Hc. destruct (Nat.lt_gt_cases p q) as [Hlt _]. destruct (Hlt Hne).
        - apply (det_eq_rows HF n c p q); auto.
        - apply (det_eq_rows HF n c q p); auto. intros; symmetry; auto. }
      rewrite (E0 a1 He), (E0 (prod2 n a1 b)); [ring|]. intros j Hj. unfold prod2. apply bigsum_ext. intros k Hk. now rewrite He.
    - rewrite det_id. rewrite (det_ext n _ b); [ring|]. intros i j Hi Hj. unfold prod2.
      rewrite (bigsum_single HF n i); auto; [rewrite Nat.eqb_refl; ring|]. intros k Hk Hne. bcase. ring. }
  transitivity (det n (prod2 n a b) - det n a * det n b + det n a * det n b)%num; [ring|]. rewrite H. ring.
Qed.
End DetMult.
