(** Square linear systems over a field: if the homogeneous system has only the trivial solution, every right-hand side
    has a solution (used to show that discrete boundary value problems are solvable). *)
From Coq Require Import List Arith Bool Lia Ring Field.
From Verif Require Import Base Num Spec SpecProofs DetSpec DetProofs.
Import ListNotations.
Local Open Scope nat_scope.

Section LinAlg.
Context {N : Num} (HF : FieldLaws N).
Add Field lafld : (fl_field N HF).
Implicit Types (a : nat -> nat -> N) (x : nat -> N).

Lemma eqn_dec (x y : N) : {x = y} + {x <> y}.
Proof.
  destruct (neqb x y) eqn:E; [left|right].
  - now apply (fl_eqb N HF).
  - intros H. apply (fl_eqb N HF) in H. congruence.
Qed.
(** A sum with the term p moved to the front. *)
Lemma bigsum_skip n p (f : nat -> N) : p < S n -> bigsum (S n) f = (f p + bigsum n (fun j => f (skip p j)))%num.
Proof.
  revert p. induction n as [|n IH]; intros p Hp.
  - replace p with 0 by lia. cbn. ring.
  - destruct (Nat.eq_dec p (S n)) as [->|Hne].
    + cbn [bigsum]. rewrite (bigsum_ext n (fun j => f (skip (S n) j)) f).
      2:{ intros i Hi. unfold skip. rewrite (proj2 (Nat.ltb_lt _ _)) by lia. reflexivity. }
      unfold skip at 1. rewrite (proj2 (Nat.ltb_lt _ _)) by lia. ring.
    + change (bigsum (S (S n)) f) with (bigsum (S n) f + f (S n))%num. rewrite (IH p) by lia. cbn [bigsum].
      unfold skip at 3. rewrite (proj2 (Nat.ltb_ge _ _)) by lia. ring.
Qed.
Lemma find_nonzero n (f : nat -> N) : (exists p, p < n /\ f p <> n0) \/ (forall p, p < n -> f p = n0).
Proof.
  induction n as [|n [(p & Hp & H)|IH]].
  - right. lia.
  - left. exists p. split; auto.
  - destruct (eqn_dec (f n) n0) as [E|E].
    + right. intros p Hp. destruct (Nat.eq_dec p n) as [->|]; auto. apply IH. lia.
    + left. exists n. auto.
Qed.
(** m homogeneous equations in m+1 unknowns have a non-trivial solution. *)
Lemma underdetermined m : forall a, exists x, (forall i, i < m -> mulvec (S m) a x i = n0) /\ exists p, p < S m /\ x p <> n0.
Proof.
  induction m as [|m IH]; intros a.
  - exists (fun _ => n1). split; [lia|]. exists 0. split; [lia|]. exact (F_1_neq_0 (fl_field N HF)).
  - destruct (find_nonzero (S (S m)) (a m)) as [(p & Hp & Hn)|Hz].
    + destruct (IH (fun i j => a i (skip p j) - a i p * a m (skip p j) / a m p)%num) as (y & Hy & q & Hq & Hyq).
      set (x := fun j => if j =? p then (- bigsum (S m) (fun j => a m (skip p j) * y j) / a m p)%num else y (unskip p j)).
      assert (Xs : forall j, x (skip p j) = y j).
      { intros j. unfold x. rewrite (proj2 (Nat.eqb_neq _ _)) by apply skip_ne. f_equal. unfold unskip, skip.
        destruct (Nat.ltb_spec j p) as [H|H]; [now rewrite (proj2 (Nat.ltb_lt _ _)) by lia|].
        rewrite (proj2 (Nat.ltb_ge _ _)) by lia. lia. }
      assert (Xp : x p = (- bigsum (S m) (fun j => a m (skip p j) * y j) / a m p)%num) by (unfold x; now rewrite Nat.eqb_refl).
      assert (E : forall i, mulvec (S (S m)) a x i = (a i p * x p + bigsum (S m) (fun j => a i (skip p j) * y j))%num).
      { intros i. unfold mulvec. rewrite (bigsum_skip (S m) p) by auto. f_equal. apply bigsum_ext. intros j _. now rewrite Xs. }
      exists x. split.
      * intros i Hi. rewrite E, Xp. destruct (Nat.eq_dec i m) as [->|Hne]; [field; auto|].
        specialize (Hy i ltac:(lia)). unfold mulvec in Hy.
        rewrite (bigsum_ext _ _ (fun j => a i (skip p j) * y j - a i p / a m p * (a m (skip p j) * y j))%num) in Hy
          by (intros; field; auto).
        rewrite bigsum_minus, bigsum_mul_l in Hy by auto.
        transitivity (bigsum (S m) (fun i0 => a i (skip p i0) * y i0) - a i p / a m p * bigsum (S m) (fun i0 => a m (skip p i0) * y i0))%num;
          [field; auto|exact Hy].
      * exists (skip p q). split; [apply skip_lt; auto; lia|]. now rewrite Xs.
    + destruct (IH a) as (y & Hy & q & Hq & Hyq). exists (fun j => if j =? S m then n0 else y j). split.
      * intros i Hi. unfold mulvec. cbn [bigsum]. rewrite Nat.eqb_refl.
        assert (E : bigsum (S m) (fun j => a i j * (if j =? S m then n0 else y j))%num = mulvec (S m) a y i).
        { apply bigsum_ext. intros j Hj. now rewrite (proj2 (Nat.eqb_neq _ _)) by lia. }
        cbn [bigsum] in E. rewrite E. destruct (Nat.eq_dec i m) as [->|Hne].
        { unfold mulvec. rewrite bigsum_0; auto; [ring|]. intros j Hj. rewrite Hz by lia. ring. }
        rewrite Hy by lia. ring.
      * exists q. split; [lia|]. now rewrite (proj2 (Nat.eqb_neq _ _)) by lia.
Qed.
(** So a square system without non-trivial homogeneous solutions is solvable for every right-hand side. *)
Theorem injective_solvable n a : (forall x, (forall i, i < n -> mulvec n a x i = n0) -> forall j, j < n -> x j = n0) ->
  forall b : nat -> N, exists x, forall i, i < n -> mulvec n a x i = b i.
Proof.
  intros Hinj b. destruct (underdetermined n (fun i j => if j =? n then (- b i)%num else a i j)) as (z & Hz & p & Hp & Hzp).
  assert (E : forall i, i < n -> (mulvec n a z i - b i * z n)%num = n0).
  { intros i Hi. specialize (Hz i Hi). unfold mulvec in Hz. cbn [bigsum] in Hz. rewrite Nat.eqb_refl in Hz.
    rewrite (bigsum_ext n _ (fun j => a i j * z j)%num) in Hz.
    2:{ intros j Hj. now rewrite (proj2 (Nat.eqb_neq _ _)) by lia. }
    unfold mulvec. rewrite <- Hz. ring. }
  destruct (eqn_dec (z n) n0) as [E0|E0].
  - exfalso. assert (Hp' : p < n). { destruct (Nat.eq_dec p n) as [->|]; [contradiction|lia]. }
    apply Hzp. apply Hinj; auto. intros i Hi. specialize (E i Hi). rewrite E0 in E. rewrite <- E. ring.
  - exists (fun j => z j / z n)%num. intros i Hi. specialize (E i Hi). unfold mulvec in *.
    rewrite (bigsum_ext n _ (fun j => (a i j * z j) * (n1 / z n))%num) by (intros; field; auto).
    rewrite bigsum_mul_r by auto.
    replace (bigsum n (fun i0 => a i i0 * z i0)%num) with (b i * z n)%num; [field; auto|].
    replace (b i * z n)%num with (bigsum n (fun i0 => a i i0 * z i0) - (bigsum n (fun i0 => a i i0 * z i0) - b i * z n))%num by ring.
    rewrite E. ring.
Qed.
End LinAlg.
