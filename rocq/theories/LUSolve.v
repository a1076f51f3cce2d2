(** Row iteration laws, forward/backward substitution, inverses. *)
From Coq Require Import List Arith Bool Lia Ring Field Permutation.
From Verif Require Import Base BaseProofs Num OrdField Spec SpecProofs VectorModel VectorProofs SparseModel SparseSpec SparsePropProofs
  DenseModel DenseSpec DenseProofs DensePropProofs MatI MatIProofs MatOps MatOpsProofs OrderProofs ConstructProofs
  DetSpec DetProofs LUModel LUProofs.
Import ListNotations.
Local Open Scope nat_scope.
Open Scope res_scope.

(** A row loop sees the columns in increasing order, and only zeros are left out. *)
Record RowLaws {N : Num} (M : RowMat N) : Prop := {
  rl_ops : OpLaws M;
  rl_row : forall (m : M) d1 d2 a i, holds m d1 d2 a -> i < d1 ->
    exists keep, rm_row m i = Ok (map (fun j => (j, a i j)) (filter keep (seq 0 d2))) /\
    forall j, j < d2 -> keep j = false -> a i j = n0
}.
Lemma filter_true {A} (l : list A) : filter (fun _ => true) l = l.
Proof. induction l; cbn; congruence. Qed.
Lemma dense_rows N (HF : FieldLaws N) : RowLaws (DenseR N).
Proof.
  constructor; [exact (dense_ops_laws N HF)|]. intros m d1 d2 a i Hm Hi.
  assert (Hd : dwf m /\ dreads m d1 d2 a) by now apply holds_dreads.
  exists (fun _ => true). split; [|discriminate]. cbn [rm_row DenseR].
  rewrite (proj1 (pd_row N m d1 d2 a i (proj2 Hd)) Hi). cbn [bind]. rewrite map_map, filter_true. reflexivity.
Qed.
Lemma sparse_rows N (HF : FieldLaws N) : RowLaws (SparseR N).
Proof.
  constructor; [exact (sparse_ops_laws N HF)|]. intros m d1 d2 a i Hm Hi.
  apply s_holds in Hm. destruct Hm as [Hb Hr].
  exists (fun j => negb (is0 (a i j))). cbn [rm_row SparseR].
  rewrite (row_iteration N (field_zero_laws N HF) d1 d2 a m i Hb Hr Hi). cbn [bind]. rewrite map_map. split; [reflexivity|].
  intros j Hj E. apply (is0_iff HF). now destruct (is0 (a i j)).
Qed.

Lemma takewhile_split {A} (p : A -> bool) l1 l2 : Forall (fun x => p x = true) l1 -> Forall (fun x => p x = false) l2 ->
  takewhile p (l1 ++ l2) = l1 /\ dropwhile p (l1 ++ l2) = l2.
Proof.
  intros H1 H2. induction H1 as [|x l1 Hx H1 [IH1 IH2]]; cbn [app takewhile dropwhile].
  - destruct H2 as [|x l2 Hx H2]; cbn [takewhile dropwhile]; auto. now rewrite Hx.
  - now rewrite Hx, IH1, IH2.
Qed.
Lemma upd_upd {A} (l : list A) : forall i x y, upd (upd l i x) i y = upd l i y.
Proof. induction l as [|h l IH]; intros [|i] x y; cbn; auto. now rewrite IH. Qed.
Lemma upd_same {A} (l : list A) d : forall i, i < length l -> upd l i (nth i l d) = l.
Proof. induction l as [|h l IH]; intros [|i] Hi; cbn in *; try lia; auto. rewrite IH by lia. auto. Qed.

Section Cols.
Context {N : Num} (HF : FieldLaws N).
Add Field lusfld : (fl_field N HF).

Definition cols (keep : nat -> bool) (f : nat -> N) (lo n : nat) : list (nat * N) :=
  map (fun j => (j, f j)) (filter keep (seq lo n)).
Lemma cols_split keep f n k : k <= n -> cols keep f 0 n = cols keep f 0 k ++ cols keep f k (n - k).
Proof.
  intros H. unfold cols. replace n with (k + (n - k)) at 1 by lia. rewrite seq_app, filter_app, map_app. reflexivity.
Qed.
Lemma cols_range keep f lo n e : In e (cols keep f lo n) -> lo <= fst e < lo + n /\ snd e = f (fst e).
Proof.
  intros H. apply in_map_iff in H. destruct H as (j & <- & Hj). apply filter_In in Hj as [Hj _]. apply in_seq in Hj. cbn. auto.
Qed.
Lemma cols_take keep f n k : k <= n -> takewhile (fun e => fst e <? k) (cols keep f 0 n) = cols keep f 0 k /\
  dropwhile (fun e => fst e <? k) (cols keep f 0 n) = cols keep f k (n - k).
Proof.
  intros H. rewrite (cols_split keep f n k H). apply takewhile_split; apply Forall_forall; intros e He; apply cols_range in He; bcase; auto.
Qed.
Lemma cols_take_from keep f lo n k : lo <= k -> k <= lo + n -> takewhile (fun e => fst e <? k) (cols keep f lo n) = cols keep f lo (k - lo).
Proof.
  intros H1 H2. assert (E : cols keep f lo n = cols keep f lo (k - lo) ++ cols keep f k (n - (k - lo))).
  { unfold cols. replace n with ((k - lo) + (n - (k - lo))) at 1 by lia. rewrite seq_app, filter_app, map_app. replace (lo + (k - lo)) with k by lia. reflexivity. }
  rewrite E. apply takewhile_split; apply Forall_forall; intros e He; apply cols_range in He; bcase; auto.
Qed.
Lemma cols_take_low keep f lo n k : k <= lo -> takewhile (fun e => fst e <? k) (cols keep f lo n) = [].
Proof.
  intros H. destruct (cols keep f lo n) as [|e l] eqn:E; auto. assert (He : In e (cols keep f lo n)) by (rewrite E; now left).
  apply cols_range in He. cbn [takewhile]. bcase. auto.
Qed.

(** s - f(j1) g(j1) - f(j2) g(j2) ... over the kept columns *)
Lemma cols_fold keep f (g : nat -> N) lo n s : (forall j, lo <= j < lo + n -> keep j = false -> f j = n0) ->
  fold_left (fun s e => s - snd e * g (fst e))%num (cols keep f lo n) s = (s - bigsum n (fun t => f (lo + t)%nat * g (lo + t)%nat))%num.
Proof.
  revert s. induction n as [|n IH]; intros s H.
  - cbn. ring.
  - unfold cols. rewrite seq_S, filter_app, map_app, fold_left_app. fold (cols keep f lo n). rewrite IH by (intros; apply H; auto; lia).
    cbn [filter bigsum]. destruct (keep (lo + n)) eqn:E; cbn [map fold_left fst snd]; [ring|].
    rewrite (H (lo + n)) by (auto; lia). ring.
Qed.

Lemma sub_loop i (l : list (nat * N)) : forall y : list N, i < length y -> (forall e, In e l -> fst e <> i /\ fst e < length y) ->
  foreach l (sub_term i) y = Ok (upd y i (fold_left (fun s e => s - snd e * nth (fst e) y n0)%num l (nth i y n0))).
Proof.
  induction l as [|e l IH]; intros y Hi Hl; cbn [foreach fold_left].
  - now rewrite upd_same.
  - destruct (Hl e) as [H1 H2]; [now left|]. unfold sub_term at 1. rewrite !v_at_ok by auto. cbn [bind]. rewrite v_set_ok by auto. cbn [bind].
    rewrite IH; rewrite ?upd_length; auto; [|intros e' He'; apply Hl; now right].
    rewrite nth_upd_eq, upd_upd by auto. f_equal. f_equal.
    set (s0 := (nth i y n0 - snd e * nth (fst e) y n0)%num). clearbody s0. clear IH.
    assert (G : forall l' s, (forall e', In e' l' -> fst e' <> i) ->
      fold_left (fun s e' => s - snd e' * nth (fst e') (upd y i s0) n0)%num l' s = fold_left (fun s e' => s - snd e' * nth (fst e') y n0)%num l' s).
    { induction l' as [|e' l' IHl]; intros s Hs; cbn [fold_left]; auto. rewrite nth_upd_ne by (apply Hs; now left). apply IHl. intros; apply Hs; now right. }
    apply G. intros e' He'. apply Hl. now right.
Qed.
Lemma skip_loop {S} k (l : list (nat * N)) (f : nat * N -> S -> res S) s : (forall e, In e l -> fst e < k) ->
  foreach l (fun e x => if fst e <? k then Ok x else f e x) s = Ok s.
Proof.
  induction l as [|e l IH]; intros H; cbn [foreach]; auto. pose proof (H e (or_introl eq_refl)). bcase. cbn [bind]. apply IH. intros; apply H; now right.
Qed.
Lemma noskip_loop {S} k (l : list (nat * N)) (f : nat * N -> S -> res S) : forall s, (forall e, In e l -> k <= fst e) ->
  foreach l (fun e x => if fst e <? k then Ok x else f e x) s = foreach l f s.
Proof.
  induction l as [|e l IH]; intros s H; cbn [foreach]; auto. pose proof (H e (or_introl eq_refl)).
  destruct (Nat.ltb_spec (fst e) k); [lia|]. destruct (f e s); cbn [bind]; auto. apply IH. intros; apply H; now right.
Qed.
End Cols.

Section Solve.
Context {N : Num} {M : RowMat N} (HR : RowLaws M) (HF : FieldLaws N).
Add Field lusfld2 : (fl_field N HF).
Hypothesis Htiny : tiny (@n0 N) = true.

Definition has_tiny n (a : nat -> nat -> N) : Prop := exists i, i < n /\ tiny (a i i) = true.

Lemma forward_ok (L : M) n l b : holds L n n l -> length b = n ->
  post (lu_forward L b) (fun y => length y = n /\ (forall i, i < n -> tiny (l i i) = false /\
      (bigsum i (fun t => l i t * nth t y n0) + l i i * nth i y n0)%num = nth i b n0))
    (fun e => e = Singular /\ has_tiny n l).
Proof.
  intros HL Hb. unfold lu_forward. rewrite (holds_rows _ _ _ _ HL).
  eapply post_mono; [apply (for_post (fun k y => length y = n /\ (forall i, i < k -> tiny (l i i) = false /\
      (bigsum i (fun t => l i t * nth t y n0) + l i i * nth i y n0)%num = nth i b n0) /\
      (forall i, k <= i -> nth i y n0 = nth i b n0)) (fun e => e = Singular /\ has_tiny n l)); try lia| |auto].
  - split; auto. split; auto. lia.
  - intros i y Hi (Hl & H1 & H2). destruct (rl_row M HR L n n l i HL) as (keep & -> & Hk); [lia|]. cbn [bind].
    change (map (fun j => (j, l i j)) (filter keep (seq 0 n))) with (cols keep (l i) 0 n).
    rewrite (proj1 (cols_take keep (l i) n i ltac:(lia))).
    rewrite sub_loop by (try lia; intros e He; apply cols_range in He; lia). cbn [bind].
    rewrite (cols_fold HF keep _ (fun j => nth j y n0)) by (intros j Hj; apply Hk; lia).
    set (v := (nth i y n0 - bigsum i (fun t => l i (0 + t)%nat * nth (0 + t) y n0))%num).
    unfold div_mid. rewrite (holds_at _ _ _ _ _ _ HL) by lia. cbn [bind].
    destruct (tiny (l i i)) eqn:Et; [cbn [post]; split; auto; exists i; split; [lia|auto]|].
    rewrite v_at_ok by (rewrite upd_length; lia). cbn [bind]. rewrite v_set_ok by (rewrite upd_length; lia). cbn [post].
    rewrite nth_upd_eq, upd_upd by lia. split; [now rewrite upd_length|]. split.
    + intros r Hr. destruct (Nat.eq_dec r i) as [->|Hne].
      * split; auto. rewrite nth_upd_eq by lia.
        rewrite (bigsum_ext i _ (fun t => l i t * nth t y n0)%num) by (intros t Ht; rewrite nth_upd_ne by lia; auto).
        unfold v. cbn [plus]. rewrite (H2 i) by lia. field. now apply not_tiny.
      * destruct (H1 r ltac:(lia)) as [H3 H4]. split; auto. rewrite nth_upd_ne by lia. rewrite <- H4. f_equal.
        apply bigsum_ext. intros t Ht. rewrite nth_upd_ne by lia. auto.
    + intros r Hr. rewrite nth_upd_ne by lia. apply H2. lia.
  - intros y (H1 & H2 & _). auto.
Qed.

Lemma backward_ok (U : M) n u y : 0 < n -> holds U n n u -> length y = n ->
  post (lu_backward U y) (fun x => length x = n /\ (forall i, i < n -> tiny (u i i) = false /\
      (u i i * nth i x n0 + bigsum (n - S i) (fun t => u i (S i + t)%nat * nth (S i + t) x n0))%num = nth i y n0))
    (fun e => e = Singular /\ has_tiny n u).
Proof.
  intros Hn HU Hy. unfold lu_backward. rewrite (holds_rows _ _ _ _ HU). unfold usub.
  replace (1 <=? n) with true by (symmetry; apply Nat.leb_le; lia). cbn [bind].
  eapply post_mono; [apply (down_n_post (fun k x => length x = n /\ (forall i, k <= i < n -> tiny (u i i) = false /\
      (u i i * nth i x n0 + bigsum (n - S i) (fun t => u i (S i + t)%nat * nth (S i + t) x n0))%num = nth i y n0) /\
      (forall i, i < k -> nth i x n0 = nth i y n0)) (fun e => e = Singular /\ has_tiny n u))| |auto].
  - split; auto. split; auto. lia.
  - intros i x Hi (Hl & H1 & H2). destruct (rl_row M HR U n n u i HU) as (keep & -> & Hk); [lia|]. cbn [bind].
    change (map (fun j => (j, u i j)) (filter keep (seq 0 n))) with (cols keep (u i) 0 n).
    rewrite (cols_split keep (u i) n (S i)) by lia. rewrite foreach_app.
    rewrite skip_loop by (intros e He; apply cols_range in He; lia). cbn [bind].
    rewrite noskip_loop by (intros e He; apply cols_range in He; lia).
    rewrite sub_loop by (try lia; intros e He; apply cols_range in He; lia). cbn [bind].
    rewrite (cols_fold HF keep _ (fun j => nth j x n0)) by (intros j Hj; apply Hk; lia).
    match goal with |- context [upd x i ?vv] => set (v := vv) end.
    unfold div_mid. rewrite (holds_at _ _ _ _ _ _ HU) by lia. cbn [bind].
    destruct (tiny (u i i)) eqn:Et; [cbn [post]; split; auto; exists i; split; [lia|auto]|].
    rewrite v_at_ok by (rewrite upd_length; lia). cbn [bind]. rewrite v_set_ok by (rewrite upd_length; lia). cbn [post].
    rewrite nth_upd_eq, upd_upd by lia. split; [now rewrite upd_length|]. split.
    + intros r Hr. destruct (Nat.eq_dec r i) as [->|Hne].
      * split; auto. rewrite nth_upd_eq by lia.
        rewrite (bigsum_ext (n - S i) _ (fun t => u i (S i + t)%nat * nth (S i + t) x n0)%num) by (intros t Ht; rewrite nth_upd_ne by lia; auto).
        unfold v. rewrite (H2 i) by lia. field. now apply not_tiny.
      * destruct (H1 r ltac:(lia)) as [H3 H4]. split; auto. rewrite nth_upd_ne by lia. rewrite <- H4. f_equal.
        apply bigsum_ext. intros t Ht. rewrite nth_upd_ne by lia. auto.
    + intros r Hr. rewrite nth_upd_ne by lia. apply H2. lia.
  - intros x (H1 & H2 & _). split; auto. intros i Hi. apply H2. lia.
Qed.

Lemma lo_sum n l (y : nat -> N) i : i < n -> mulvec n (lo_part l) y i = (bigsum i (fun t => l i t * y t) + l i i * y i)%num.
Proof.
  intros Hi. unfold mulvec. rewrite (bigsum_split HF n (S i)) by lia. cbn [bigsum].
  rewrite (bigsum_0 HF (n - S i)) by (intros t Ht; unfold lo_part; bcase; ring).
  rewrite (bigsum_ext i _ (fun t => l i t * y t)%num) by (intros t Ht; unfold lo_part; bcase; auto).
  unfold lo_part. rewrite Nat.leb_refl. ring.
Qed.
Lemma up_sum n u (x : nat -> N) i : i < n ->
  mulvec n (up_part u) x i = (u i i * x i + bigsum (n - S i) (fun t => u i (S i + t)%nat * x (S i + t)%nat))%num.
Proof.
  intros Hi. unfold mulvec. rewrite (bigsum_split HF n (S i)) by lia. cbn [bigsum].
  rewrite (bigsum_0 HF i) by (intros t Ht; unfold up_part; bcase; ring).
  rewrite (bigsum_ext (n - S i) _ (fun t => u i (S i + t)%nat * x (S i + t)%nat)%num) by (intros t Ht; unfold up_part; bcase; auto).
  unfold up_part. rewrite Nat.leb_refl. ring.
Qed.
Lemma mulvec_ext n a (x y : nat -> N) i : (forall j, j < n -> x j = y j) -> mulvec n a x i = mulvec n a y i.
Proof. intros H. unfold mulvec. apply bigsum_ext. intros j Hj. now rewrite H. Qed.

Definition no_tiny n (a : nat -> nat -> N) : Prop := forall i, i < n -> tiny (a i i) = false.
Lemma solve_ok (L U : M) n l u b : 0 < n -> holds L n n l -> holds U n n u -> length b = n ->
  post (solve_lu L U b) (fun x => length x = n /\ no_tiny n l /\ no_tiny n u /\
      forall i, i < n -> mulvec n (lo_part l) (mulvec n (up_part u) (fun k => nth k x n0)) i = nth i b n0)
    (fun e => e = Singular /\ (has_tiny n l \/ has_tiny n u)).
Proof.
  intros Hn HL HU Hb. unfold solve_lu. unfold v_size.
  rewrite (holds_rows _ _ _ _ HL), (holds_cols _ _ _ _ HL), (holds_rows _ _ _ _ HU), (holds_cols _ _ _ _ HU), Hb, Nat.eqb_refl. cbn [negb].
  apply post_bind. eapply post_mono; [apply (forward_ok L n l b HL Hb)| |intros e [? ?]; auto].
  intros y [Hy H1]. eapply post_mono; [apply (backward_ok U n u y Hn HU Hy)| |intros e [? ?]; auto].
  intros x [Hx H2]. split; auto. split; [intros i Hi; now apply H1|]. split; [intros i Hi; now apply H2|].
  intros i Hi. destruct (H1 i Hi) as [_ <-].
  rewrite (mulvec_ext n _ _ (fun k => nth k y n0)).
  - now apply lo_sum.
  - intros j Hj. destruct (H2 j Hj) as [_ <-]. now apply up_sum.
Qed.
Lemma solve_bad (L U : M) b :
  (mi_rows L <> mi_cols L \/ mi_rows U <> mi_cols U -> solve_lu L U b = Throw NotSquare) /\
  (mi_rows L = mi_cols L -> mi_rows U = mi_cols U -> mi_rows L <> mi_rows U -> solve_lu L U b = Throw MatrixSizeMismatch) /\
  (mi_rows L = mi_cols L -> mi_rows U = mi_cols U -> mi_rows L = mi_rows U -> mi_rows L <> length b ->
     solve_lu L U b = Throw MatrixVectorMismatch).
Proof.
  unfold solve_lu, v_size. split; [|split].
  - intros H. destruct (Nat.eqb_spec (mi_rows L) (mi_cols L)), (Nat.eqb_spec (mi_rows U) (mi_cols U)); cbn [negb]; auto. lia.
  - intros -> -> H. rewrite !Nat.eqb_refl. cbn [negb]. destruct (Nat.eqb_spec (mi_cols L) (mi_cols U)); [lia|reflexivity].
  - intros H1 H2 H3 H. rewrite <- H1, <- H2, <- H3, !Nat.eqb_refl. cbn [negb]. destruct (Nat.eqb_spec (mi_rows L) (length b)); [lia|reflexivity].
Qed.

(** Triangular tables with non-zero diagonal are injective. *)
Lemma lo_inj n l (y z : nat -> N) : (forall i, i < n -> l i i <> n0) ->
  (forall i, i < n -> mulvec n (lo_part l) y i = mulvec n (lo_part l) z i) -> forall i, i < n -> y i = z i.
Proof.
  intros Hd H i. induction i as [i IH] using (well_founded_induction lt_wf). intros Hi.
  specialize (H i Hi). rewrite !lo_sum in H by auto.
  rewrite (bigsum_ext i _ (fun t => l i t * z t)%num) in H by (intros t Ht; rewrite IH by lia; auto).
  specialize (Hd i Hi).
  transitivity ((bigsum i (fun t => l i t * z t) + l i i * y i - bigsum i (fun t => l i t * z t)) / l i i)%num; [field; auto|].
  rewrite H. field. auto.
Qed.
Lemma up_inj n u (y z : nat -> N) : (forall i, i < n -> u i i <> n0) ->
  (forall i, i < n -> mulvec n (up_part u) y i = mulvec n (up_part u) z i) -> forall i, i < n -> y i = z i.
Proof.
  intros Hd H. assert (G : forall d i, n - i <= d -> i < n -> y i = z i).
  { induction d as [|d IH]; intros i Hd' Hi; [lia|]. specialize (H i Hi). rewrite !up_sum in H by auto.
    rewrite (bigsum_ext (n - S i) _ (fun t => u i (S i + t)%nat * z (S i + t)%nat)%num) in H
      by (intros t Ht; rewrite (IH (S i + t)) by lia; auto).
    specialize (Hd i Hi). set (S0 := bigsum _ _) in H.
    transitivity ((u i i * y i + S0 - S0) / u i i)%num; [field; auto|]. rewrite H. field. auto. }
  intros i Hi. apply (G (n - i)); auto.
Qed.

Lemma inverse3_ok (L U P : M) n l u p : 0 < n -> holds L n n l -> holds U n n u -> holds P n n p ->
  post (inverse3 L U P) (fun X => no_tiny n l /\ no_tiny n u /\ exists x, holds X n n x /\
      forall i j, i < n -> j < n -> mulvec n (lo_part l) (mulvec n (up_part u) (fun k => x k j)) i = p i j)
    (fun e => e = Singular /\ (has_tiny n l \/ has_tiny n u)).
Proof.
  intros Hn HL HU HP. unfold inverse3.
  rewrite (holds_rows _ _ _ _ HL), (holds_cols _ _ _ _ HL), (holds_rows _ _ _ _ HU), (holds_cols _ _ _ _ HU),
    (holds_rows _ _ _ _ HP), (holds_cols _ _ _ _ HP), Nat.eqb_refl. cbn [negb].
  pose proof (ol_mat _ (rl_ops M HR)) as HM.
  apply post_bind.
  eapply post_mono; [apply (for_post (fun k (st : list N * M) => fst st = v_new n /\ (0 < k -> no_tiny n l /\ no_tiny n u) /\ exists x, holds (snd st) n n x /\
      forall i j, i < n -> j < k -> mulvec n (lo_part l) (mulvec n (up_part u) (fun k => x k j)) i = p i j)
      (fun e => e = Singular /\ (has_tiny n l \/ has_tiny n u))); try lia| |auto].
  - cbn [fst snd]. split; auto. split; [lia|]. exists l. split; auto. lia.
  - intros i (b, X) Hi (Eb & Ht & x & HX & Hx). cbn [fst snd] in *. subst b.
    assert (Hlen : length (@v_new N n) = n) by apply repeat_length.
    rewrite v_set_ok by lia. cbn [bind]. rewrite (ol_mulv _ (rl_ops M HR) P n n p _ HP) by (rewrite upd_length; lia). cbn [bind].
    set (pb := map _ _). assert (Hpb : length pb = n) by (unfold pb; now rewrite map_length, seq_length).
    assert (Hpbn : forall r, r < n -> nth r pb n0 = p r i).
    { intros r Hr. unfold pb. rewrite nth_map_seq by auto. rewrite (bigsum_single HF n i); [rewrite nth_upd_eq by lia; ring|lia|].
      intros k Hk Hne. rewrite nth_upd_ne by auto. unfold v_new. rewrite nth_repeat. ring. }
    apply post_bind. eapply post_mono; [apply (solve_ok L U n l u pb Hn HL HU Hpb)| |auto].
    intros y (Hy & Ht1 & Ht2 & Hs). cbn beta.
    destruct (col_loop HM (fun j => nth j y n0) (v_at y) X n n x i 0 n HX) as (X' & -> & HX'); try lia.
    { intros j Hj. apply v_at_ok. lia. }
    cbn [bind]. rewrite v_set_ok by (rewrite upd_length; lia). cbn [bind post fst snd].
    split.
    { rewrite upd_upd. replace (@n0 N) with (nth i (@v_new N n) n0) by (unfold v_new; apply nth_repeat). apply upd_same. lia. }
    split; auto. eexists. split; [exact HX'|]. intros r j Hr Hj. cbn beta.
    destruct (Nat.eq_dec j i) as [->|Hne].
    + rewrite <- (Hpbn r Hr), <- (Hs r Hr). apply mulvec_ext. intros k Hk. apply mulvec_ext. intros t Ht'. bcase. auto.
    + rewrite <- (Hx r j) by lia. apply mulvec_ext. intros k Hk. apply mulvec_ext. intros t Ht'. bcase. auto.
  - intros (b, X) (_ & Ht & x & HX & Hx). cbn [snd post]. destruct (Ht Hn). split; auto. split; auto. exists x. auto.
Qed.

(** The decomposition makes the result a two-sided inverse. *)
Lemma two_sided n (a l u x : nat -> nat -> N) (rt : list nat) : Permutation rt (seq 0 n) ->
  (forall i, i < n -> l i i <> n0) -> (forall i, i < n -> u i i <> n0) ->
  (forall i j, i < n -> j < n -> a (nth i rt 0) j = mulvec n (lo_part l) (fun k => up_part u k j) i) ->
  (forall i j, i < n -> j < n -> mulvec n (lo_part l) (mulvec n (up_part u) (fun k => x k j)) i = if j =? nth i rt 0 then n1 else n0) ->
  (forall i j, i < n -> j < n -> bigsum n (fun k => a i k * x k j)%num = if i =? j then n1 else n0) /\
  (forall i j, i < n -> j < n -> bigsum n (fun k => x i k * a k j)%num = if i =? j then n1 else n0).
Proof.
  intros Hp Hl Hu HA HX. 
  assert (mv_assoc : forall (b c : nat -> nat -> N) (y : nat -> N) i,
    mulvec n b (mulvec n c y) i = bigsum n (fun t => mulvec n b (fun k => c k t) i * y t)%num).
  { intros b c y i. unfold mulvec.
    rewrite (bigsum_ext n _ (fun k => bigsum n (fun t => b i k * (c k t * y t))%num)) by (intros; now rewrite (bigsum_mul_l HF)).
    rewrite (bigsum_swap HF). apply bigsum_ext. intros t Ht. rewrite <- (bigsum_mul_r HF). apply bigsum_ext. intros; ring. }
  assert (AX : forall i (y : nat -> N), i < n -> bigsum n (fun t => a (nth i rt 0) t * y t)%num = mulvec n (lo_part l) (mulvec n (up_part u) y) i).
  { intros i y Hi. rewrite mv_assoc. apply bigsum_ext. intros t Ht. now rewrite HA. }
  split.
  - intros i j Hi Hj. destruct (perm_surj rt n i Hp Hi) as (r & Hr & <-). rewrite AX by auto. rewrite HX by auto.
    destruct (Nat.eqb_spec j (nth r rt 0)), (Nat.eqb_spec (nth r rt 0) j); auto; congruence.
  - intros i j Hi Hj.
    assert (E : forall r, r < n -> mulvec n (lo_part l) (mulvec n (up_part u) (fun t => bigsum n (fun s => x t s * a s j)%num)) r =
                          mulvec n (lo_part l) (mulvec n (up_part u) (fun t => if t =? j then n1 else n0)) r).
    { intros r Hr. transitivity (a (nth r rt 0) j).
      - rewrite mv_assoc.
        rewrite (bigsum_ext n _ (fun t => bigsum n (fun s => mulvec n (lo_part l) (fun k => up_part u k t) r * x t s * a s j)%num)).
        2: { intros t Ht. rewrite <- (bigsum_mul_l HF). apply bigsum_ext. intros; ring. }
        rewrite (bigsum_swap HF).
        rewrite (bigsum_ext n _ (fun s => (if s =? nth r rt 0 then n1 else n0) * a s j)%num).
        2: { intros s Hs. rewrite <- HX by auto. rewrite mv_assoc. rewrite <- (bigsum_mul_r HF). apply bigsum_ext. intros; ring. }
        pose proof (perm_lt rt n r Hp Hr).
        rewrite (bigsum_single HF n (nth r rt 0)); auto; [rewrite Nat.eqb_refl; ring|].
        intros k Hk Hne. bcase. ring.
      - rewrite mv_assoc. rewrite (bigsum_single HF n j); auto; [rewrite Nat.eqb_refl, HA by auto; ring|].
        intros k Hk Hne. bcase. ring. }
    pose proof (lo_inj n l _ _ Hl E) as E2. exact (up_inj n u _ _ Hu E2 i Hi).
Qed.
End Solve.
