(** Proofs of the statements of PropSparse.v from the facts about the model. *)
From Coq Require Import List Arith Lia Bool Field_theory Ring Field.
From Verif Require Import Base BaseProofs Num Spec SpecProofs VectorModel SparseModel SparseSpec
  SparseProofs SparseOps SparseOps3 SparseFacts SparseFacts2.
Import ListNotations.
Open Scope res_scope.

Section General.
Variable N : Num.
Variable HZ : ZeroLaws N.
Implicit Types m A B C : smat N.
Implicit Types a b : nat -> nat -> N.
Let bi := @built_inv N HZ.

Lemma history_any d1 d2 a m0 ops : built m0 -> reads m0 d1 d2 a -> Forall (in_range d1 d2) ops ->
  exists m, run m0 ops = Ok m /\ built m /\
    reads m d1 d2 (fun i j => norm0 (last_write d2 ops i j (a i j))) /\
    forall i j, i < d1 -> j < d2 -> s_has m i j = Ok (negb (is0 (last_write d2 ops i j (a i j)))).
Proof.
  intros Hb Hr Hops. destruct (run_inv HZ ops m0 d1 d2 a (bi _ Hb) Hr Hops) as (m & E & Hi & Hr').
  exists m. split; auto. split; [|split]; auto.
  - clear - Hb E. revert m0 Hb E. induction ops as [|o ops IH]; intros m0 Hb E; simpl in E.
    + congruence.
    + destruct (do_op m0 o) as [m1| | | | |] eqn:E1; try discriminate. cbn [bind] in E. apply (IH m1); auto.
      destruct o; simpl in E1; [eapply b_set|eapply b_lset]; eauto.
  - intros i j Hx Hy. rewrite (reads_has HZ m d1 d2 _ i j Hi Hr' Hx Hy). f_equal. f_equal.
    unfold norm0 at 1. destruct (is0 (last_write d2 ops i j (a i j))) eqn:E0; auto. apply (zl_refl HZ).
Qed.
Lemma history_new d1 d2 m0 ops : s_new d1 d2 = Ok m0 -> Forall (in_range d1 d2) ops ->
  exists m, run m0 ops = Ok m /\ s_rows m = d1 /\ s_cols m = d2 /\
  forall i j, i < d1 -> j < d2 ->
    s_at m i j = Ok (norm0 (last_write d2 ops i j n0)) /\
    s_has m i j = Ok (negb (is0 (last_write d2 ops i j n0))).
Proof.
  intros H Hops. destruct (new_inv HZ d1 d2 m0 H) as (Hi & Hr & _).
  destruct (history_any d1 d2 _ m0 ops (b_new _ _ _ H) Hr Hops) as (m & E & Hb & (R1 & R2 & R3) & Hh).
  exists m. repeat split; auto.
Qed.
Lemma built_reads m : built m -> exists a, reads m (s_rows m) (s_cols m) a.
Proof. intros H. apply (inv_has_reads HZ). now apply bi. Qed.

Lemma counts d1 d2 a m : built m -> reads m d1 d2 a ->
  s_filled m = length (nonzeros d1 d2 a) /\
  (s_has_zero m = true <-> exists i j, i < d1 /\ j < d2 /\ is0 (a i j) = true) /\
  (s_empty m = true <-> forall i j, i < d1 -> j < d2 -> is0 (a i j) = true) /\
  (forall i, i < d1 -> s_row_filled m i = Ok (length (filter (fun j => negb (is0 (a i j))) (seq 0 d2)))) /\
  (forall i, d1 <= i -> s_row_filled m i = Ok 0) /\
  s_size m = d1 * d2.
Proof.
  intros Hb Hr. apply bi in Hb. split; [|split; [|split; [|split; [|split]]]].
  - now apply fact_filled.
  - now apply fact_has_zero.
  - now apply fact_empty.
  - intros. eapply fact_row_filled; eauto.
  - intros. eapply fact_row_filled_out; eauto.
  - unfold s_size. destruct Hr as (-> & -> & _). reflexivity.
Qed.
Lemma nan_inf : @nisnan N n0 = false -> @nisinf N n0 = false ->
  forall d1 d2 a m, built m -> reads m d1 d2 a ->
  (s_has_nan m = true <-> exists i j, i < d1 /\ j < d2 /\ nisnan (a i j) = true) /\
  (s_has_inf m = true <-> exists i j, i < d1 /\ j < d2 /\ nisinf (a i j) = true).
Proof. intros H1 H2 d1 d2 a m Hb Hr. apply bi in Hb. split; [now apply fact_isnan|now apply fact_isinf]. Qed.

Lemma iteration d1 d2 a m : built m -> reads m d1 d2 a ->
  s_entries m = Ok (map (with_value a) (nonzeros d1 d2 a)) /\ s_begin m = s_cbegin m.
Proof. intros Hb Hr. apply bi in Hb. split; [now apply fact_entries|now apply fact_begins]. Qed.
Lemma for_loop d1 d2 a m : built m -> reads m d1 d2 a ->
  forall St (body : nat -> nat -> N -> St -> res St) s,
  s_for m (fun it s => let* v := it_get m it in body (it1 it) (it2 it) v s) s
  = foreach (nonzeros d1 d2 a) (fun p s => body (fst p) (snd p) (a (fst p) (snd p)) s) s.
Proof.
  intros Hb Hr St body s. apply bi in Hb. destruct (inv_reads HZ m d1 d2 a Hb Hr) as [Hs _].
  destruct (for_elist m d1 d2 _ Hs) as (_ & _ & E). rewrite E, elist_nonzeros, SparseEntries.foreach_map. reflexivity.
Qed.
Lemma row_iteration d1 d2 a m i : built m -> reads m d1 d2 a -> i < d1 ->
  s_row_entries m i = Ok (map (fun j => (i, j, a i j)) (filter (fun j => negb (is0 (a i j))) (seq 0 d2))).
Proof. intros Hb Hr Hi. apply bi in Hb. eapply fact_row_entries; eauto. Qed.
Lemma nzs_nil d (x : nat -> N) : (forall i, i < d -> is0 (x i) = true) -> nzs d x = [].
Proof.
  intros H. unfold nzs. destruct (filter _ _) as [|i l] eqn:E; auto. exfalso.
  assert (Hin : In i (filter (fun j => negb (is0 (x j))) (seq 0 d))) by (rewrite E; now left).
  apply filter_In in Hin as [Hin Hp]. apply in_seq in Hin. rewrite H in Hp by lia. discriminate.
Qed.
Lemma col_iteration d1 d2 a m j : built m -> reads m d1 d2 a -> j < d2 ->
  (exists i, i < d1 /\ is0 (a i j) = false) \/ (forall i k, i < d1 -> k < d2 -> is0 (a i k) = true) ->
  s_col_entries m j = Ok (map (fun i => (i, j, a i j)) (filter (fun i => negb (is0 (a i j))) (seq 0 d1))) /\
  s_col_filled m j = Ok (length (filter (fun i => negb (is0 (a i j))) (seq 0 d1))).
Proof.
  intros Hb Hr Hj Hc. apply bi in Hb. rewrite (fact_col_entries HZ m d1 d2 a j Hb Hr Hj).
  fold (nzs d1 (fun i => a i j)). destruct Hc as [Hex|Hall].
  - split; [|now apply (fact_col_filled HZ m d1 d2)].
    destruct (nzs d1 (fun i => a i j)) as [|x l] eqn:E; auto. exfalso. destruct Hex as (i & Hi & Hn).
    assert (Hin : In i (nzs d1 (fun i => a i j))).
    { apply filter_In. rewrite Hn. split; auto. apply in_seq. lia. }
    rewrite E in Hin. destruct Hin.
  - rewrite nzs_nil by auto.
    assert (He : s_empty m = true) by (apply (fact_empty HZ m d1 d2 a Hb Hr); auto).
    rewrite He. split; auto. unfold s_col_filled, s_for_col, s_col_begin. rewrite He.
    destruct (inv_reads HZ m d1 d2 a Hb Hr) as [(R & -> & _) _]. rewrite SparseIter.s_end_crs. cbn [bind it_loop].
    rewrite SparseIter.s_end_crs. cbn [bind]. rewrite SparseIter.it_eq_end; [reflexivity|]. apply SparseIter.end_invalid.
Qed.
Lemma col_abort d1 d2 a m j : built m -> reads m d1 d2 a -> j < d2 ->
  (forall i, i < d1 -> is0 (a i j) = true) -> (exists i k, i < d1 /\ k < d2 /\ is0 (a i k) = false) ->
  s_col_entries m j = Abort.
Proof.
  intros Hb Hr Hj Hc (i & k & Hi & Hk & Hn). apply bi in Hb. rewrite (fact_col_entries HZ m d1 d2 a j Hb Hr Hj).
  rewrite nzs_nil by auto. destruct (s_empty m) eqn:E; auto.
  rewrite (proj1 (fact_empty HZ m d1 d2 a Hb Hr) E i k Hi Hk) in Hn. discriminate.
Qed.

Lemma add_entrywise d1 d2 a b A B : built A -> built B -> reads A d1 d2 a -> reads B d1 d2 b ->
  exists C, s_add A B = Ok C /\ s_add_eq A B = Ok C /\ built C /\ reads C d1 d2 (fun i j => norm0 (a i j + b i j)%num).
Proof.
  intros HA HB Ra Rb. destruct (fact_add HZ A B d1 d2 a b (bi _ HA) (bi _ HB) Ra Rb) as (C & E & _ & Hr).
  exists C. split; auto. split; auto. split; auto.
  destruct Ra as (E1 & E2 & _), Rb as (E3 & E4 & _). eapply b_add; [exact HA|exact HB| | |exact E]; congruence.
Qed.
Lemma sub_entrywise d1 d2 a b A B : built A -> built B -> reads A d1 d2 a -> reads B d1 d2 b ->
  exists C, s_sub A B = Ok C /\ s_sub_eq A B = Ok C /\ built C /\ reads C d1 d2 (fun i j => norm0 (a i j - b i j)%num).
Proof.
  intros HA HB Ra Rb. destruct (fact_sub HZ A B d1 d2 a b (bi _ HA) (bi _ HB) Ra Rb) as (C & E & _ & Hr).
  exists C. split; auto. split; auto. split; auto.
  destruct Ra as (E1 & E2 & _), Rb as (E3 & E4 & _). eapply b_sub; [exact HA|exact HB| | |exact E]; congruence.
Qed.
Lemma add_self : nadd (@n0 N) n0 = n0 -> (forall x : N, is0 x = false -> is0 (x + x)%num = false) ->
  forall d1 d2 a A, built A -> reads A d1 d2 a ->
  exists C, s_add_self A = Ok C /\ reads C d1 d2 (fun i j => (a i j + a i j)%num) /\
            s_filled C = length (nonzeros d1 d2 a).
Proof.
  intros H0 Hd d1 d2 a A HA Ra. destruct (fact_self HZ nadd A d1 d2 a (bi _ HA) Ra H0) as (C & E & Hi & Hr); auto.
  exists C. split; auto. split; auto. rewrite (fact_filled HZ C d1 d2 _ Hi Hr). f_equal. unfold nonzeros.
  apply filter_ext_in. intros (i, j) Hp. apply in_positions in Hp as [Hx Hy]. cbn [fst snd]. f_equal.
  destruct (is0 (a i j)) eqn:E0; [|auto]. destruct (inv_reads HZ A d1 d2 a (bi _ HA) Ra) as [_ Hn].
  rewrite <- (Hn i j Hx Hy), (norm0_0 _ E0), H0. apply (zl_refl HZ).
Qed.
Lemma hadamard_general d1 d2 a b A B : built A -> built B -> reads A d1 d2 a -> reads B d1 d2 b ->
  (forall i j, i < d1 -> j < d2 -> (n0 * b i j)%num = n0) ->
  (forall i j, i < d1 -> j < d2 -> is0 (a i j) = false -> is0 (b i j) = true ->
     (exists j', j < j' /\ j' < d2 /\ is0 (a i j') = false) \/
     (forall i' j', i < i' -> i' < d1 -> j' < d2 -> is0 (a i' j') = true) \/
     ((exists j', S i < d1 /\ j' < d2 /\ is0 (a (S i) j') = false) /\
      exists j', j' < j /\ is0 (a i j') = false /\ is0 (b i j') = false)) ->
  exists C, s_hadamard_eq A B = Ok C /\
    reads C d1 d2 (fun i j => if is0 (a i j) || is0 (b i j) then n0 else (a i j * b i j)%num).
Proof. intros HA HB. apply bi in HA, HB. now apply fact_hadamard. Qed.
Lemma scale_entrywise d1 d2 a A f : built A -> reads A d1 d2 a ->
  exists C, s_scale A f = Ok C /\ s_scale_eq A f = Ok C /\
    reads C d1 d2 (fun i j => if is0 f || is0 (a i j) then n0 else (a i j * f)%num) /\
    (is0 f = true -> s_filled C = 0).
Proof.
  intros HA Ra. destruct (fact_scale HZ A d1 d2 a f (bi _ HA) Ra) as (C & E & _ & Hr). exists C.
  split; auto. split; auto. split; auto. intros H0. destruct (fact_scale0 A f H0) as (C' & E' & F). congruence.
Qed.

Lemma erase_entry d1 d2 a m it : built m -> reads m d1 d2 a -> walks m it -> ~ at_end m it ->
  exists m' it', s_erase m it = Ok (m', it') /\ built m' /\
    reads m' d1 d2 (fun i j => if (i =? it1 it) && (j =? it2 it) then n0 else a i j).
Proof.
  intros Hb Hr Hw He. destruct (fact_erase HZ m it d1 d2 a (bi _ Hb) Hr Hw He) as (m' & it' & E & _ & Hr' & _).
  exists m', it'. split; auto. split; auto. eapply b_erase; eauto.
Qed.
Lemma erase_next d1 d2 a m it : built m -> reads m d1 d2 a -> walks m it -> ~ at_end m it ->
  exists m' it', s_erase m it = Ok (m', it') /\
  match after (it1 it, it2 it) (nonzeros d1 d2 a) with
  | None => at_end m' it'
  | Some (x, y) => it2 it' = y /\ it_get m' it' = Ok (a x y) /\ it1 it' <= x /\
      (x = it1 it -> it1 it' = x) /\
      (x = it1 it + 1 -> (exists y', y' < it2 it /\ is0 (a (it1 it) y') = false) -> it1 it' = x)
  end.
Proof.
  intros Hb Hr Hw He. destruct (fact_erase HZ m it d1 d2 a (bi _ Hb) Hr Hw He) as (m' & it' & E & _ & _ & H).
  exists m', it'. split; auto.
Qed.
Lemma set_iter d1 d2 a m it v : built m -> reads m d1 d2 a -> walks m it -> ~ at_end m it ->
  exists m' it', s_set_it m it v = Ok (m', it') /\ built m' /\
    reads m' d1 d2 (fun i j => if (i =? it1 it) && (j =? it2 it) then norm0 v else a i j) /\
    (is0 v = false -> it' = it).
Proof.
  intros Hb Hr Hw He.
  assert (Hex : exists m' it', s_set_it m it v = Ok (m', it') /\ (is0 v = false -> it' = it)).
  { unfold s_set_it. unfold at_end in He. destruct (it_valid m it) eqn:Ev; [|congruence]. fold (is0 v).
    destruct (is0 v) eqn:E0.
    - destruct (fact_erase HZ m it d1 d2 a (bi _ Hb) Hr Hw ltac:(unfold at_end; congruence)) as (m' & it' & E & _).
      exists m', it'. split; auto. discriminate.
    - destruct (inv_reads HZ m d1 d2 a (bi _ Hb) Hr) as [(R & -> & HR & _) _].
      destruct (walks_at R d2 it HR Hw) as (l & Hat). destruct l as [|x l]; [simpl in Hat; congruence|].
      destruct Hat as [-> (w & Hp)]. pose proof (SparseIter.pos_get _ _ _ _ _ HR Hp) as Hg.
      unfold it_get in Hg. rewrite Ev in Hg. unfold vget in Hg. unfold vset.
      destruct (nth_error (sv (crs R d2)) (itp x)) eqn:En; [|discriminate].
      assert (Hlt : itp x < length (sv (crs R d2))) by (apply nth_error_Some; congruence).
      rewrite (proj2 (Nat.ltb_lt _ _) Hlt). cbn [bind]. eauto. }
  destruct Hex as (m' & it' & E & Hit). exists m', it'. split; auto.
  destruct (inv_setit HZ m it v m' it' a d1 d2 (bi _ Hb) Hr Hw E) as [_ Hr']. split; [eapply b_setit; eauto|]. split; auto.
Qed.
Lemma swap_same_cols A B : built A -> built B -> s_cols A = s_cols B -> s_swap A B = (B, A).
Proof. intros HA HB E. apply fact_swap; auto. Qed.

Lemma inv_unique A B d1 d2 a : inv A -> inv B -> reads A d1 d2 a -> reads B d1 d2 a -> A = B.
Proof.
  intros HA HB Ra Rb. destruct (inv_reads HZ A d1 d2 a HA Ra) as [Sa _]. destruct (inv_reads HZ B d1 d2 a HB Rb) as [Sb _].
  eapply srep_unique; eauto.
Qed.
Lemma transpose_entries d1 d2 a m : built m -> reads m d1 d2 a ->
  exists t, s_transpose m = Ok t /\ built t /\ reads t d2 d1 (fun i j => a j i) /\
    exists u, s_transpose t = Ok u /\ u = m.
Proof.
  intros Hb Hr. destruct (fact_transpose HZ m d1 d2 a (bi _ Hb) Hr) as (t & E & Hi & Hr').
  exists t. split; auto. split; [eapply b_transpose; eauto|]. split; auto.
  destruct (fact_transpose HZ t d2 d1 _ Hi Hr') as (u & E' & Hi' & Hr''). exists u. split; auto.
  eapply inv_unique; eauto.
Qed.
Lemma mul_general d1 d2 d3 a b A B : built A -> built B -> reads A d1 d2 a -> reads B d2 d3 b ->
  exists C, s_mul A B = Ok C /\ built C /\
    reads C d1 d3 (fun i k => norm0 (sparse_dot d2 (a i) (fun j => b j k))).
Proof.
  intros HA HB Ra Rb. destruct (fact_mul HZ A B d1 d2 d3 a b (bi _ HA) (bi _ HB) Ra Rb) as (C & E & _ & Hr).
  exists C. split; auto. split; auto. eapply b_mul; [exact HA|exact HB|exact E].
Qed.
Lemma list_of_nth (r : list N) d (g : nat -> N) : length r = d -> (forall i, i < d -> nth i r n0 = g i) -> r = map g (seq 0 d).
Proof.
  intros Hl H. apply (nth_ext _ _ n0 (g 0)).
  - now rewrite map_length, seq_length.
  - intros i Hi. rewrite map_nth, seq_nth by lia. rewrite H by lia. reflexivity.
Qed.
Lemma mulv_general d1 d2 a m v : built m -> reads m d1 d2 a ->
  (length v = d2 -> s_mulv m v = Ok (map (fun i => sparse_dot d2 (a i) (fun j => nth j v n0)) (seq 0 d1))) /\
  (length v = d1 -> s_mulv_left m v = Ok (map (fun j => sparse_dot d1 (fun i => a i j) (fun i => nth i v n0)) (seq 0 d2))).
Proof.
  intros Hb Hr. apply bi in Hb. split; intros Hl.
  - destruct (fact_mulv HZ m d1 d2 a v Hb Hr Hl) as (r & -> & H1 & H2). f_equal. now apply list_of_nth.
  - destruct (fact_mulv_left HZ m d1 d2 a v Hb Hr Hl) as (r & -> & H1 & H2). f_equal.
    now apply (list_of_nth r d2 (fun j => sparse_dot d1 (fun i => a i j) (fun i => nth i v n0))).
Qed.
Lemma eq_entries d1 d2 e1 e2 a b A B : built A -> built B -> reads A d1 d2 a -> reads B e1 e2 b ->
  exists r, s_eq A B = Ok r /\ s_ne A B = Ok (negb r) /\
  (r = true <-> d1 = e1 /\ d2 = e2 /\ forall i j, i < d1 -> j < d2 -> neqb (a i j) (b i j) = true).
Proof.
  intros HA HB Ra Rb. destruct (fact_eq HZ A B d1 d2 e1 e2 a b (bi _ HA) (bi _ HB) Ra Rb) as (r & E & H).
  exists r. split; auto. split; auto. unfold s_ne. rewrite E. reflexivity.
Qed.
Lemma from_list (l : list (list N)) : l <> [] -> (exists r, In r l /\ r <> []) ->
  exists m, s_of_list l = Ok m /\
    reads m (length l) (list_max (map (@length N) l)) (fun i j => norm0 (nth j (nth i l []) n0)).
Proof.
  intros H1 H2. destruct (srep_of_list (zero_laws_refl N HZ) l H1 H2) as (m & E & _). exists m. split; auto.
  now apply (list_inv HZ).
Qed.
Lemma sum_trace_general d1 d2 a m : built m -> reads m d1 d2 a ->
  s_sum m = fold_left nadd (map (fun p => a (fst p) (snd p)) (nonzeros d1 d2 a)) n0 /\
  s_trace m = Ok (bigsum (Nat.min d1 d2) (fun i => a i i)).
Proof. intros Hb Hr. apply bi in Hb. split; [now apply fact_sum|now apply fact_trace]. Qed.
Lemma has_val_ok d1 d2 a m i j : built m -> reads m d1 d2 a ->
  (i < d1 -> j < d2 -> s_has_val m i j = Ok (negb (is0 (a i j)), a i j)) /\
  (d1 <= i \/ d2 <= j -> s_has_val m i j = Abort).
Proof.
  intros Hb Hr. apply bi in Hb. split.
  - intros Hi Hj. pose proof (reads_has HZ m d1 d2 a i j Hb Hr Hi Hj) as H1. pose proof (proj2 (proj2 Hr) i j Hi Hj) as H2.
    unfold s_has, s_at, s_has_val in *. destruct (assert_ (i <? s_rows m)); try discriminate. destruct (assert_ (j <? s_cols m)); try discriminate.
    cbn [bind] in *. destruct (s_internal_at m i j false) as [[[v k] f]| | | | |]; try discriminate. cbn [bind] in *. congruence.
  - intros H. destruct Hr as (<- & <- & _). unfold s_has_val. destruct (Nat.ltb_spec i (s_rows m)); [|reflexivity].
    destruct (Nat.ltb_spec j (s_cols m)); [lia|reflexivity].
Qed.
End General.

Section NoLaws.
Variable N : Num.
Implicit Types m A B C : smat N.
Lemma out_of_range m i j k v :
  (s_rows m <= i \/ s_cols m <= j -> s_at m i j = Abort /\ s_has m i j = Abort /\ s_set m i j v = Abort) /\
  (s_rows m * s_cols m <= k -> s_linear_at m k = Abort /\ s_linear_set m k v = Abort).
Proof.
  split; intros H.
  - split; [now apply at_out|]. split; [now apply has_out|now apply set_out].
  - split; [now apply lat_out|now apply lset_out].
Qed.
Lemma mul_mismatch A B : s_cols A <> s_rows B -> s_mul A B = Throw MatrixMulMismatch.
Proof. apply s_mul_mismatch. Qed.
Lemma mulv_mismatches m (v : list N) : (s_cols m <> length v -> s_mulv m v = Throw MatrixMulMismatch) /\
                         (s_rows m <> length v -> s_mulv_left m v = Throw MatrixMulMismatch).
Proof. split; [apply mulv_mismatch|apply mulv_left_mismatch]. Qed.
Lemma linear_access d1 d2 a m : reads m d1 d2 a ->
  (forall i j, i < d1 -> j < d2 -> i * d2 + j < s_size m /\
     s_linear_at m (i * d2 + j) = s_at m i j /\ forall v, s_linear_set m (i * d2 + j) v = s_set m i j v) /\
  (forall k, k < s_size m -> exists i j, i < d1 /\ j < d2 /\ k = i * d2 + j /\
     s_linear_at m k = s_at m i j /\ forall v, s_linear_set m k v = s_set m i j v).
Proof.
  intros (E1 & E2 & E3). unfold s_linear_at, s_linear_set, s_size. rewrite E1, E2. split.
  - intros i j Hx Hy.
    assert (Hd : (i * d2 + j) / d2 = i) by (rewrite Nat.div_add_l, Nat.div_small by lia; lia).
    assert (Hm : (i * d2 + j) mod d2 = j) by (rewrite Nat.add_comm, Nat.mod_add, Nat.mod_small by lia; lia).
    assert (Hlt : i * d2 + j < d1 * d2) by nia.
    rewrite Hd, Hm. bdec. repeat split; auto.
  - intros k Hk. exists (k / d2), (k mod d2). destruct (lin_range d1 d2 k Hk) as [H1 H2]. bdec. repeat split; auto.
    assert (d2 <> 0) by lia. pose proof (Nat.div_mod k d2 H). lia.
Qed.
Lemma resize_noop m d1 d2 : 0 < d1 -> 0 < d2 -> s_resize m d1 d2 = Ok m.
Proof. intros H1 H2. unfold s_resize. bdec. reflexivity. Qed.
End NoLaws.

Section Exact.
Variable N : Num.
Variable HF : FieldLaws N.
Let HZ := field_zero_laws N HF.
Let bi := @built_inv N HZ.
Add Field nfield4 : (fl_field N HF).
Implicit Types m A B C : smat N.
Implicit Types a b : nat -> nat -> N.

Lemma hadamard_field d1 d2 a b A B : built A -> built B -> reads A d1 d2 a -> reads B d1 d2 b ->
  (forall i j, i < d1 -> j < d2 -> a i j <> n0 -> b i j = n0 ->
     (exists j', j < j' /\ j' < d2 /\ a i j' <> n0) \/
     (forall i' j', i < i' -> i' < d1 -> j' < d2 -> a i' j' = n0) \/
     ((exists j', S i < d1 /\ j' < d2 /\ a (S i) j' <> n0) /\
      exists j', j' < j /\ a i j' <> n0 /\ b i j' <> n0)) ->
  exists C, s_hadamard_eq A B = Ok C /\ s_hadamard A B = Ok C /\ reads C d1 d2 (fun i j => (a i j * b i j)%num).
Proof.
  intros HA HB Ra Rb H.
  destruct (hadamard_general N HZ d1 d2 a b A B HA HB Ra Rb) as (C & E & Hr).
  - intros. ring.
  - intros i j Hi Hj Hn Hb. apply (is0_false HF) in Hn. apply (is0_iff HF) in Hb.
    destruct (H i j Hi Hj Hn Hb) as [(j' & K1 & K2 & K3)|[K|((j1 & K0 & K1 & K2) & j2 & K3 & K4 & K5)]].
    + left. exists j'. rewrite (is0_false HF). auto.
    + right; left. intros i' j' H1 H2 H3. apply (is0_iff HF). auto.
    + right; right. split; [exists j1|exists j2]; rewrite ?(is0_false HF); auto.
  - exists C. split; auto. split; auto. eapply reads_ext; [exact Hr|]. intros i j _ _. cbn beta.
    destruct (is0 (a i j)) eqn:Ea; [apply (is0_iff HF) in Ea; rewrite Ea; simpl; ring|].
    destruct (is0 (b i j)) eqn:Eb; [apply (is0_iff HF) in Eb; rewrite Eb; simpl; ring|]. reflexivity.
Qed.
Lemma scale_exact d1 d2 a A f : built A -> reads A d1 d2 a ->
  exists C, s_scale A f = Ok C /\ built C /\ reads C d1 d2 (fun i j => (a i j * f)%num).
Proof.
  intros HA Ra. destruct (scale_entrywise N HZ d1 d2 a A f HA Ra) as (C & E & _ & Hr & _).
  exists C. split; auto. split.
  - eapply b_scale; [exact HA| |exact E]. intros i j x _ _ _ H1 H2. now apply (field_no_underflow HF).
  - eapply reads_ext; [exact Hr|]. intros i j _ _. cbn beta.
    destruct (is0 f) eqn:Ef; [apply (is0_iff HF) in Ef; rewrite Ef; simpl; ring|].
    destruct (is0 (a i j)) eqn:Ea; [apply (is0_iff HF) in Ea; rewrite Ea; simpl; ring|]. reflexivity.
Qed.
Lemma scale_field d1 d2 a A f : built A -> reads A d1 d2 a ->
  (exists C, s_scale A f = Ok C /\ built C /\ reads C d1 d2 (fun i j => (a i j * f)%num)) /\
  (exists C, s_neg A = Ok C /\ built C /\ reads C d1 d2 (fun i j => (- a i j)%num)).
Proof.
  intros HA Ra. split; [now apply scale_exact|].
  destruct (scale_exact d1 d2 a A (- n1)%num HA Ra) as (C & E & Hb & Hr). exists C. split; auto. split; auto.
  eapply reads_ext; [exact Hr|]. intros i j _ _. cbn beta. ring.
Qed.
Lemma mul_field d1 d2 d3 a b A B : built A -> built B -> reads A d1 d2 a -> reads B d2 d3 b ->
  exists C, s_mul A B = Ok C /\ built C /\ reads C d1 d3 (fun i k => bigsum d2 (fun j => (a i j * b j k)%num)).
Proof.
  intros HA HB Ra Rb. destruct (mul_general N HZ d1 d2 d3 a b A B HA HB Ra Rb) as (C & E & Hb & Hr).
  exists C. split; auto. split; auto. eapply reads_ext; [exact Hr|]. intros i k _ _. cbn beta.
  rewrite (norm0_id HF). apply (sparse_dot_bigsum HF).
Qed.
Lemma mul_assoc A B C : built A -> built B -> built C -> s_cols A = s_rows B -> s_cols B = s_rows C ->
  exists AB BC L, s_mul A B = Ok AB /\ s_mul B C = Ok BC /\ s_mul AB C = Ok L /\ s_mul A BC = Ok L.
Proof.
  intros HA HB HC E1 E2. destruct (built_reads N HZ A HA) as (a & Ra). destruct (built_reads N HZ B HB) as (b & Rb).
  destruct (built_reads N HZ C HC) as (c & Rc). rewrite E1 in Ra. rewrite E2 in Rb.
  destruct (mul_field _ _ _ a b A B HA HB Ra Rb) as (AB & P1 & B1 & R1).
  destruct (mul_field _ _ _ b c B C HB HC Rb Rc) as (BC & P2 & B2 & R2).
  destruct (mul_field _ _ _ _ c AB C B1 HC R1 Rc) as (L & P3 & B3 & R3).
  destruct (mul_field _ _ _ a _ A BC HA B2 Ra R2) as (L' & P4 & B4 & R4).
  exists AB, BC, L. repeat split; auto. rewrite P4. f_equal. symmetry.
  eapply (inv_unique N HZ); [apply bi; exact B3|apply bi; exact B4|exact R3|].
  eapply reads_ext; [exact R4|]. intros i l _ _. cbn beta. symmetry. apply (mul_assoc_tables HF).
Qed.
Lemma mul_unit d1 d2 (A I1 I2 : smat N) : built A -> built I1 -> built I2 -> s_rows A = d1 -> s_cols A = d2 ->
  reads I1 d1 d1 (fun i j => if i =? j then n1 else n0) -> reads I2 d2 d2 (fun i j => if i =? j then n1 else n0) ->
  s_mul I1 A = Ok A /\ s_mul A I2 = Ok A.
Proof.
  intros HA H1 H2 E1 E2 R1 R2. destruct (built_reads N HZ A HA) as (a & Ra). rewrite E1, E2 in Ra. split.
  - destruct (mul_field _ _ _ _ a I1 A H1 HA R1 Ra) as (C & P & Hb & Hr). rewrite P. f_equal.
    eapply (inv_unique N HZ); [apply bi; exact Hb|apply bi; exact HA|exact Hr|].
    eapply reads_ext; [exact Ra|]. intros i k Hi Hk. cbn beta. rewrite (bigsum_single HF _ i); auto.
    + rewrite Nat.eqb_refl. ring.
    + intros j Hj Hne. rewrite (proj2 (Nat.eqb_neq i j)) by auto. ring.
  - destruct (mul_field _ _ _ a _ A I2 HA H2 Ra R2) as (C & P & Hb & Hr). rewrite P. f_equal.
    eapply (inv_unique N HZ); [apply bi; exact Hb|apply bi; exact HA|exact Hr|].
    eapply reads_ext; [exact Ra|]. intros i k Hi Hk. cbn beta. rewrite (bigsum_single HF _ k); auto.
    + rewrite Nat.eqb_refl. ring.
    + intros j Hj Hne. rewrite (proj2 (Nat.eqb_neq j k)) by auto. ring.
Qed.
Lemma mulv_field d1 d2 a m v : built m -> reads m d1 d2 a -> length v = d2 ->
  s_mulv m v = Ok (map (fun i => bigsum d2 (fun j => (a i j * nth j v n0)%num)) (seq 0 d1)).
Proof.
  intros Hb Hr Hl. rewrite (proj1 (mulv_general N HZ d1 d2 a m v Hb Hr) Hl). f_equal. apply map_ext. intros i.
  apply (sparse_dot_bigsum HF).
Qed.
Lemma mulv_left_field d1 d2 a m v : built m -> reads m d1 d2 a -> length v = d1 ->
  s_mulv_left m v = Ok (map (fun j => bigsum d1 (fun i => (nth i v n0 * a i j)%num)) (seq 0 d2)).
Proof.
  intros Hb Hr Hl. rewrite (proj2 (mulv_general N HZ d1 d2 a m v Hb Hr) Hl). f_equal. apply map_ext. intros j.
  rewrite (sparse_dot_bigsum HF). apply bigsum_ext. intros i _. ring.
Qed.
Lemma sum_trace_avg d1 d2 a m : built m -> reads m d1 d2 a ->
  s_sum m = bigsum d1 (fun i => bigsum d2 (fun j => a i j)) /\
  s_avg m = (bigsum d1 (fun i => bigsum d2 (fun j => a i j)) / nofnat (d1 * d2))%num /\
  s_trace m = Ok (bigsum (Nat.min d1 d2) (fun i => a i i)).
Proof.
  intros Hb Hr. destruct (sum_trace_general N HZ d1 d2 a m Hb Hr) as [H1 H2]. rewrite (field_sum HF) in H1.
  split; auto. split; auto. unfold s_avg, s_size. rewrite H1. destruct Hr as (-> & -> & _). reflexivity.
Qed.
Variable HC : ConjLaws N.
Lemma cj0_conj (x : N) : cj0 x = nconj x.
Proof.
  unfold cj0. rewrite (norm0_id HF). destruct (is0 x) eqn:E; auto. apply (is0_iff HF) in E. subst x. symmetry. apply (cj_0 N HC).
Qed.
Lemma conjugate_entries d1 d2 a m : built m -> reads m d1 d2 a ->
  (exists c, s_conjugate m = Ok c /\ built c /\ reads c d1 d2 (fun i j => nconj (a i j))) /\
  (exists c, s_adjugate m = Ok c /\ built c /\ reads c d2 d1 (fun i j => nconj (a j i)) /\
     exists u, s_adjugate c = Ok u /\ u = m).
Proof.
  intros Hb Hr. split.
  - destruct (fact_conjugate HZ m d1 d2 a (bi _ Hb) Hr) as (c & E & Hi & Hr'). exists c. split; auto.
    split; [eapply b_conjugate; eauto|]. eapply reads_ext; [exact Hr'|]. intros; apply cj0_conj.
  - destruct (fact_adjugate HZ m d1 d2 a (bi _ Hb) Hr) as (c & E & Hi & Hr'). exists c. split; auto.
    split; [eapply b_adjugate; eauto|]. split; [eapply reads_ext; [exact Hr'|]; intros; apply cj0_conj|].
    destruct (fact_adjugate HZ c d2 d1 _ Hi Hr') as (u & E' & Hi' & Hr''). exists u. split; auto.
    eapply (inv_unique N HZ); [exact Hi'|apply bi; exact Hb|exact Hr''|]. eapply reads_ext; [exact Hr|].
    intros i j _ _. cbn beta. rewrite !cj0_conj. symmetry. apply (cj_invol N HC).
Qed.
End Exact.

Section Ordered.
Variable N : Num.
Variable HO : OrdFieldLaws N.
Let HZ := field_zero_laws N (of_field N HO).
Implicit Types m : smat N.
Lemma max_entry : nltb (@n0 N) nminpos = true ->
  forall d1 d2 a m, built m -> reads m d1 d2 a ->
  (exists i j, i < d1 /\ j < d2 /\ nleb nminpos (a i j) = true) -> greatest d1 d2 a (s_max m).
Proof. intros H d1 d2 a m Hb. apply (built_inv HZ) in Hb. intros. now apply (fact_max HO). Qed.
Lemma min_entry : nltb (@n0 N) nmax = true ->
  forall d1 d2 a m, built m -> reads m d1 d2 a ->
  (exists i j, i < d1 /\ j < d2 /\ nleb (a i j) nmax = true) -> least d1 d2 a (s_min m).
Proof. intros H d1 d2 a m Hb. apply (built_inv HZ) in Hb. intros. now apply (fact_min HO). Qed.
End Ordered.
