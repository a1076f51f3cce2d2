(** Facts about the matrix interface and loops that fill matrices. *)
From Coq Require Import List Arith Bool Lia.
From Verif Require Import Base BaseProofs Num Spec MatI VectorModel VectorProofs.
Import ListNotations.
Open Scope res_scope.

Section MatIProofs.
Context {N : Num} {I : MatI N}.
Hypothesis HL : MatLaws I.
Implicit Types (m t : I) (a b : nat -> nat -> N).

Lemma holds_at m d1 d2 a i j : holds m d1 d2 a -> i < d1 -> j < d2 -> mi_at m i j = Ok (a i j).
Proof. intros (_ & _ & _ & H). apply H. Qed.
Lemma holds_rows m d1 d2 a : holds m d1 d2 a -> mi_rows m = d1.
Proof. intros H. apply H. Qed.
Lemma holds_cols m d1 d2 a : holds m d1 d2 a -> mi_cols m = d2.
Proof. intros H. apply H. Qed.
Lemma holds_ext m d1 d2 a b : holds m d1 d2 a -> (forall i j, i < d1 -> j < d2 -> a i j = b i j) -> holds m d1 d2 b.
Proof. intros (H1 & H2 & H3 & H4) E. repeat split; auto. intros i j Hi Hj. rewrite H4 by auto. f_equal. auto. Qed.
Lemma holds_unique m d1 d2 a b : holds m d1 d2 a -> holds m d1 d2 b -> forall i j, i < d1 -> j < d2 -> a i j = b i j.
Proof. intros (_ & _ & _ & H) (_ & _ & _ & H') i j Hi Hj. specialize (H i j Hi Hj). rewrite H' in H by auto. congruence. Qed.

Lemma holds_set m d1 d2 a i j v : holds m d1 d2 a -> i < d1 -> j < d2 ->
  exists m', mi_set m i j v = Ok m' /\ holds m' d1 d2 (put2 a i j v).
Proof.
  intros (H1 & H2 & H3 & H4) Hi Hj. destruct (ml_set I HL m i j v) as (m' & E & Hok & Hr & Hc & Ha); auto; try lia.
  exists m'. split; auto. repeat split; auto; try lia. intros i' j' Hi' Hj'. rewrite Ha by lia. unfold put2.
  destruct (_ && _); auto.
Qed.
Lemma holds_new d1 d2 : 0 < d1 -> 0 < d2 -> exists m : I, mi_new d1 d2 = Ok m /\ holds m d1 d2 (fun _ _ => n0).
Proof. apply (ml_new I HL). Qed.
Lemma ok_holds m : mi_ok m -> exists a, holds m (mi_rows m) (mi_cols m) a.
Proof.
  intros H. exists (fun i j => match mi_at m i j with Ok x => x | _ => n0 end). repeat split; auto.
  intros i j Hi Hj. destruct (ml_at I HL m i j H Hi Hj) as (x & ->). reflexivity.
Qed.

(** A row loop: writes row i. *)
Lemma row_loop (x : nat -> N) (e : nat -> res N) t d1 d2 a i lo hi :
  holds t d1 d2 a -> i < d1 -> lo <= hi -> hi <= d2 ->
  (forall j, lo <= j < hi -> e j = Ok (x j)) ->
  returns (for_ lo hi (fun j t2 => let* v := e j in mi_set t2 i j v) t)
    (fun t' => holds t' d1 d2 (fun i' j' => if (i' =? i) && ((lo <=? j') && (j' <? hi)) then x j' else a i' j')).
Proof.
  intros Ht Hi Hlo Hhi He.
  apply (for_returns (fun k t' => holds t' d1 d2 (fun i' j' => if (i' =? i) && ((lo <=? j') && (j' <? k)) then x j' else a i' j'))); auto.
  - eapply holds_ext; [exact Ht|]. intros i' j' Hi' Hj'. cbn beta.
    destruct (i' =? i); auto. destruct (Nat.leb_spec lo j'), (Nat.ltb_spec j' lo); auto; lia.
  - intros k s Hk Hs. rewrite He by auto. cbn [bind].
    destruct (holds_set _ _ _ _ i k (x k) Hs) as (m' & E & Hm'); try lia.
    exists m'. split; auto. eapply holds_ext; [exact Hm'|]. intros i' j' Hi' Hj'. unfold put2. cbn beta.
    destruct (Nat.eqb_spec i' i); cbn [andb]; auto. subst.
    destruct (Nat.eqb_spec j' k).
    + subst. bdec. reflexivity.
    + destruct (Nat.leb_spec lo j'), (Nat.ltb_spec j' k), (Nat.ltb_spec j' (S k)); auto; lia.
Qed.

(** The usual double loop: fills everything. *)
Lemma fill_loop2 (x : nat -> nat -> N) (e : nat -> nat -> res N) t d1 d2 a :
  holds t d1 d2 a -> (forall i j, i < d1 -> j < d2 -> e i j = Ok (x i j)) ->
  returns (for_ 0 d1 (fun i t1 => for_ 0 d2 (fun j t2 => let* v := e i j in mi_set t2 i j v) t1) t)
    (fun t' => holds t' d1 d2 x).
Proof.
  intros Ht He.
  apply returns_mono with (fun t' => holds t' d1 d2 (fun i j => if i <? d1 then x i j else a i j)).
  - apply (for_returns (fun k t' => holds t' d1 d2 (fun i j => if i <? k then x i j else a i j))); auto; try lia.
    + intros k s Hk Hs. eapply returns_mono; [apply (row_loop (x k) (e k) s d1 d2 _ k 0 d2 Hs); try lia|].
      * intros j Hj. apply He; lia.
      * intros t' Ht'. eapply holds_ext; [exact Ht'|]. intros i j Hi Hj. cbn beta.
        destruct (Nat.eqb_spec i k); cbn [andb].
        -- subst. bdec. reflexivity.
        -- destruct (Nat.ltb_spec i k), (Nat.ltb_spec i (S k)); auto; lia.
  - intros t' H. eapply holds_ext; [exact H|]. intros i j Hi Hj. cbn beta. bdec. reflexivity.
Qed.

(** A scalar accumulation loop. *)
Lemma sum_loop (x : nat -> N) (body : nat -> N -> res N) n :
  (forall i s, i < n -> body i s = Ok (s + x i)%num) -> for_ 0 n body n0 = Ok (bigsum n x).
Proof.
  intros H. unfold for_. rewrite Nat.sub_0_r. rewrite (acc_loop body (fun i s => (s + x i)%num)).
  - now rewrite fold_bigsum.
  - intros; apply H; lia.
Qed.
End MatIProofs.
