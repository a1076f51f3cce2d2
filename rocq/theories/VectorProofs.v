(** Proofs about VectorModel.v. *)
From Coq Require Import List Arith Bool Lia Ring Field Field_theory.
From Verif Require Import Base BaseProofs Num Spec SpecProofs VectorModel VectorSpec SparseSpec SparseFacts2.
Import ListNotations.
Open Scope res_scope.

Lemma nth_skipn' {A} (l : list A) : forall k i d, nth i (skipn k l) d = nth (k + i) l d.
Proof. induction l as [|x l IH]; intros [|k] i d; simpl; auto. destruct i; auto. Qed.

Lemma skipn_step {A} (l : list A) : forall k x t, skipn k l = x :: t -> skipn (S k) l = t.
Proof. induction l as [|y l IH]; intros [|k] x t H; simpl in *; try discriminate.
  - congruence.
  - apply (IH k x t H). Qed.

Section VectorProofs.
Context {N : Num}.
Notation vec := (list N).
Implicit Types (u v w : list N) (op : N -> N -> N).

Lemma v_at_ok (v : vec) i : i < length v -> v_at v i = Ok (nth i v n0).
Proof. intros H. unfold v_at, v_size. bdec. now apply vget_ok. Qed.
Lemma v_set_ok (v : vec) i x : i < length v -> v_set v i x = Ok (upd v i x).
Proof. intros H. unfold v_set, v_size. bdec. now apply vset_ok. Qed.
Lemma v_at_out (v : vec) i : length v <= i -> v_at v i = Abort.
Proof. intros H. unfold v_at, v_size. bdec. reflexivity. Qed.
Lemma v_set_out (v : vec) i x : length v <= i -> v_set v i x = Abort.
Proof. intros H. unfold v_set, v_size. bdec. reflexivity. Qed.

Lemma returns_eq {A} (r : res A) a : returns r (eq a) -> r = Ok a.
Proof. intros (x & -> & <-). reflexivity. Qed.

Lemma nth_map_seq {A} (h : nat -> A) n i d : i < n -> nth i (map h (seq 0 n)) d = h i.
Proof. intros H. rewrite nth_indep with (d' := h 0) by now rewrite map_length, seq_length.
  rewrite map_nth. now rewrite seq_nth. Qed.

(** A loop writing element lo + i for i = 0, 1, ... of a fixed-size vector. *)
Lemma write_loop (h : nat -> N) (body : nat -> vec -> res vec) (v : vec) lo hi :
  lo <= hi -> hi <= length v ->
  (forall i u, lo <= i < hi -> length u = length v ->
     (forall j, j < lo \/ i <= j -> nth j u n0 = nth j v n0) ->
     (forall j, lo <= j < i -> nth j u n0 = h j) -> body i u = Ok (upd u i (h i))) ->
  for_ lo hi body v =
  Ok (map (fun j => if (lo <=? j) && (j <? hi) then h j else nth j v n0) (seq 0 (length v))).
Proof.
  intros Hlo Hhi Hb.
  assert (HR : returns (for_ lo hi body v) (fun u => length u = length v /\
     (forall j, j < lo \/ hi <= j -> nth j u n0 = nth j v n0) /\
     (forall j, lo <= j < hi -> nth j u n0 = h j))).
  { apply (for_returns (fun i u => length u = length v /\
     (forall j, j < lo \/ i <= j -> nth j u n0 = nth j v n0) /\
     (forall j, lo <= j < i -> nth j u n0 = h j))); auto.
    - repeat split; auto. intros; lia.
    - intros i u Hi (Hl & H1 & H2). rewrite Hb; auto. apply returns_ok.
    rewrite upd_length. repeat split; auto.
    + intros j Hj. rewrite nth_upd_ne by lia. apply H1. lia.
    + intros j Hj. destruct (Nat.eq_dec j i) as [->|Hn].
      * apply nth_upd_eq. lia.
      * rewrite nth_upd_ne by auto. apply H2. lia. }
  destruct HR as (u & -> & Hl & H1 & H2).
  f_equal. apply (list_eq_nth _ _ n0).
    + now rewrite map_length, seq_length.
    + intros j Hj. rewrite nth_map_seq by lia.
      destruct (le_lt_dec lo j), (lt_dec j hi); try (exfalso; lia); bdec; try (apply H1; lia). apply H2. lia.
Qed.

Lemma map_seq_self {B} (f : N -> B) (v : vec) : map (fun j => f (nth j v n0)) (seq 0 (length v)) = map f v.
Proof.
  induction v as [|x v IH]; auto. simpl. f_equal. rewrite <- seq_shift, map_map. exact IH.
Qed.
Lemma map_seq_id (v : vec) : map (fun j => nth j v n0) (seq 0 (length v)) = v.
Proof. rewrite (map_seq_self (fun x => x)). apply map_id. Qed.

Lemma write_all (h : nat -> N) body v :
  (forall i u, i < length v -> length u = length v ->
     (forall j, i <= j -> nth j u n0 = nth j v n0) ->
     (forall j, j < i -> nth j u n0 = h j) -> body i u = Ok (upd u i (h i))) ->
  for_ 0 (length v) body v = Ok (map h (seq 0 (length v))).
Proof.
  intros Hb. rewrite (write_loop h); try lia.
  - f_equal. apply map_ext_in. intros j Hj. apply in_seq in Hj. bdec. reflexivity.
  - intros i u Hi Hl H1 H2. apply Hb; [lia|auto| |]; intros; [apply H1|apply H2]; lia.
Qed.

Lemma map2_seq (op : N -> N -> N) (v : vec) : forall w, length w = length v ->
  map (fun j => op (nth j v n0) (nth j w n0)) (seq 0 (length v)) = zip op v w.
Proof.
  induction v as [|x v IH]; intros [|y w] H; simpl in *; try discriminate; auto.
  unfold zip in *. simpl. f_equal. rewrite <- seq_shift, map_map. apply IH. lia.
Qed.

Lemma inplace_ok op v w : length v = length w -> v_inplace op v w = Ok (zip op v w).
Proof.
  intros H. unfold v_inplace, v_size. bdec. rewrite (write_all (fun j => op (nth j v n0) (nth j w n0))).
  - now rewrite map2_seq.
  - intros i u Hi Hl H1 _. rewrite (vget_ok u i n0) by lia. simpl.
    rewrite v_at_ok by lia. simpl. rewrite vset_ok by lia. rewrite H1 by lia. reflexivity.
Qed.
Lemma inplace_mismatch op v w : length v <> length w -> v_inplace op v w = Throw VectorSizeMismatch.
Proof. intros H. unfold v_inplace, v_size. bdec. reflexivity. Qed.

Lemma inplace_self_ok op v : v_inplace_self op v = Ok (map (fun x => op x x) v).
Proof.
  unfold v_inplace_self, v_size. rewrite (write_all (fun j => op (nth j v n0) (nth j v n0))).
  - now rewrite (map_seq_self (fun x => op x x)).
  - intros i u Hi Hl H1 _. rewrite (vget_ok u i n0) by lia. simpl.
    rewrite v_at_ok by lia. simpl. rewrite vset_ok by lia. rewrite H1 by lia. reflexivity.
Qed.

Lemma scalar_ok op v f : v_scalar op v f = Ok (map (fun x => op x f) v).
Proof.
  unfold v_scalar, v_size. rewrite (write_all (fun j => op (nth j v n0) f)).
  - now rewrite (map_seq_self (fun x => op x f)).
  - intros i u Hi Hl H1 _. rewrite (vget_ok u i n0) by lia. simpl.
    rewrite vset_ok by lia. rewrite H1 by lia. reflexivity.
Qed.

(** With the scalar aliasing element k: elements up to k see the old value, later ones the new. *)
Lemma scalar_alias_ok op v k : k < length v ->
  v_scalar_alias op v k = Ok (map (fun j => op (nth j v n0)
     (if j <=? k then nth k v n0 else op (nth k v n0) (nth k v n0))) (seq 0 (length v))).
Proof.
  intros Hk. unfold v_scalar_alias, v_size. apply write_all.
  intros i u Hi Hl H1 H2. rewrite (vget_ok u i n0) by lia. simpl.
  rewrite (vget_ok u k n0) by lia. simpl. rewrite vset_ok by lia. rewrite (H1 i) by lia.
  destruct (le_lt_dec i k).
  - rewrite H1 by lia. bdec. reflexivity.
  - rewrite H2 by lia. bdec. reflexivity.
Qed.

Lemma recip_ok v : v_recip v = Ok (map (fun x => (n1 / x)%num) v).
Proof.
  unfold v_recip, v_size. rewrite (write_all (fun j => (n1 / nth j v n0)%num)).
  - now rewrite (map_seq_self (fun x => (n1 / x)%num)).
  - intros i u Hi Hl H1 _. rewrite (vget_ok u i n0) by lia. simpl.
    rewrite vset_ok by lia. rewrite H1 by lia. reflexivity.
Qed.

Lemma fill_ok v f : v_fill v f = Ok (repeat f (length v)).
Proof.
  unfold v_fill, v_size. rewrite (write_all (fun _ => f)).
  - f_equal. generalize (length v) 0. induction n as [|n IH]; intros a; simpl; auto. now rewrite IH.
  - intros. now rewrite vset_ok by lia.
Qed.

(** Accumulating loops. *)
Lemma acc_loop {S} (body : nat -> S -> res S) (g : nat -> S -> S) n : forall lo s,
  (forall i s, lo <= i < lo + n -> body i s = Ok (g i s)) ->
  for_n n lo body s = Ok (fold_left (fun s i => g i s) (seq lo n) s).
Proof.
  induction n as [|n IH]; intros lo s H; simpl; auto.
  rewrite H by lia. simpl. apply IH. intros; apply H; lia.
Qed.
Lemma acc_loop_v {S} (body : nat -> S -> res S) (g : N -> S -> S) (v : vec) s :
  (forall i s, i < length v -> body i s = Ok (g (nth i v n0) s)) ->
  for_ 0 (length v) body s = Ok (fold_left (fun s x => g x s) v s).
Proof.
  intros H. unfold for_. rewrite Nat.sub_0_r.
  rewrite (acc_loop body (fun i => g (nth i v n0))) by (intros; apply H; lia).
  f_equal. clear H body. revert s. induction v as [|x v IH]; intros s; simpl; auto.
  rewrite <- IH. rewrite <- seq_shift. clear IH. generalize (seq 0 (length v)) (g x s).
  induction l as [|a l IH]; intros s0; simpl; auto.
Qed.

Lemma sum_ok v : v_sum v = Ok (fold_left nadd v n0).
Proof.
  unfold v_sum, v_size. rewrite (acc_loop_v _ (fun x s => nadd s x)); auto.
  intros. now rewrite (vget_ok v i n0).
Qed.
Lemma max_ok v : v_max v = Ok (fold_left (fun s l => if nltb s l then l else s) v nminpos).
Proof.
  unfold v_max, v_size. rewrite (acc_loop_v _ (fun x s => if nltb s x then x else s)); auto.
  intros. now rewrite (vget_ok v i n0).
Qed.
Lemma min_ok v : v_min v = Ok (fold_left (fun s l => if nltb l s then l else s) v nmax).
Proof.
  unfold v_min, v_size. rewrite (acc_loop_v _ (fun x s => if nltb x s then x else s)); auto.
  intros. now rewrite (vget_ok v i n0).
Qed.

Lemma fold_bigsum (f : nat -> N) n : fold_left (fun s i => (s + f i)%num) (seq 0 n) n0 = bigsum n f.
Proof.
  induction n as [|n IH]; auto. rewrite seq_S, fold_left_app, IH. reflexivity.
Qed.
Lemma dot_ok v w : length v = length w ->
  v_dot v w = Ok (bigsum (length v) (fun i => (nth i v n0 * nth i w n0)%num)).
Proof.
  intros H. unfold v_dot, v_size. bdec. unfold for_. rewrite Nat.sub_0_r.
  rewrite (acc_loop _ (fun i s => (s + nth i v n0 * nth i w n0)%num)).
  - now rewrite fold_bigsum.
  - intros. rewrite !v_at_ok by lia. reflexivity.
Qed.
Lemma dot_mismatch v w : length v <> length w -> v_dot v w = Throw VectorSizeMismatch.
Proof. intros H. unfold v_dot, v_size. bdec. reflexivity. Qed.
Lemma sum_bigsum v : v_sum v = Ok (bigsum (length v) (fun i => nth i v n0)).
Proof.
  unfold v_sum, v_size, for_. rewrite Nat.sub_0_r. rewrite (acc_loop _ (fun i s => (s + nth i v n0)%num)).
  - now rewrite fold_bigsum.
  - intros. now rewrite (vget_ok v i n0) by lia.
Qed.

Lemma any_ok p (v : vec) : v_any p v = existsb p v.
Proof. induction v as [|x v IH]; simpl; auto. rewrite IH. destruct (p x); auto. Qed.

(** Iterator loop *)
Lemma iterate_ok {S} (v : vec) (f : N -> S -> res S) s : v_iterate v f s = foreach v f s.
Proof.
  unfold v_iterate, v_size.
  enough (H : forall n pos s, pos + n = length v ->
     v_iter_loop (Datatypes.S n) v pos f s = foreach (skipn pos v) f s).
  { rewrite (H (length v) 0 s) by lia. reflexivity. }
  induction n as [|n IH]; intros pos s0 Hp.
  2: remember (Datatypes.S n) as fu eqn:Hfu.
  all: cbn [v_iter_loop]; unfold v_size.
  - bdec. cbn. rewrite skipn_all2 by lia. reflexivity.
  - bdec. rewrite v_at_ok by lia. cbn [bind].
    destruct (skipn pos v) as [|x l] eqn:E.
    + apply (f_equal (@length N)) in E. rewrite skipn_length in E. simpl in E. lia.
    + assert (nth pos v n0 = x) as ->.
      { replace (nth pos v n0) with (nth 0 (skipn pos v) n0) by (rewrite nth_skipn'; f_equal; lia).
        now rewrite E. }
      cbn [foreach]. destruct (f x s0); cbn [bind]; auto. rewrite IH by lia.
      replace (pos + 1) with (Datatypes.S pos) by lia.
      now rewrite (skipn_step _ _ _ _ E).
Qed.

End VectorProofs.
