(** Proofs about DenseModel: the storage invariant and the table each operation produces. *)
From Coq Require Import List Arith Bool Lia.
From Verif Require Import Base BaseProofs Num Spec SpecProofs VectorModel VectorSpec VectorProofs SparseSpec
  DenseModel DenseSpec MatI MatIProofs.
Import ListNotations.
Local Open Scope nat_scope.
Open Scope res_scope.

Lemma idx_lt i j r c : i < r -> j < c -> i * c + j < r * c.
Proof. intros. nia. Qed.
Lemma idx_inj i j i' j' c : j < c -> j' < c -> i * c + j = i' * c + j' -> i = i' /\ j = j'.
Proof. intros. assert (i = i') by nia. subst. split; auto; lia. Qed.
Lemma idx_div k c : 0 < c -> k / c * c + k mod c = k.
Proof. intros. rewrite Nat.mul_comm. symmetry. apply Nat.div_mod. lia. Qed.
Lemma idx_div_lt k r c : k < r * c -> k / c < r /\ k mod c < c.
Proof.
  intros H. assert (c <> 0) by (intros ->; lia). split.
  - apply Nat.div_lt_upper_bound; lia.
  - apply Nat.mod_upper_bound; auto.
Qed.
Lemma idx_div_eq i j c : j < c -> (i * c + j) / c = i /\ (i * c + j) mod c = j.
Proof.
  intros H. split.
  - rewrite Nat.div_add_l by lia. rewrite Nat.div_small by auto. lia.
  - rewrite Nat.add_comm, Nat.mod_add by lia. apply Nat.mod_small; auto.
Qed.
Lemma idx_split k r c : k < r * c -> exists i j, k = i * c + j /\ i < r /\ j < c.
Proof. intros H. destruct (idx_div_lt _ _ _ H). exists (k / c), (k mod c). rewrite idx_div by lia. auto. Qed.
Lemma positions_length r c : length (positions r c) = r * c.
Proof. unfold positions. now rewrite prod_length, !seq_length. Qed.
Lemma positions_nth r c i j d : i < r -> j < c -> nth (i * c + j) (positions r c) d = (i, j).
Proof.
  unfold positions. intros Hi Hj.
  enough (H : forall n s i, i < n -> nth (i * c + j) (list_prod (seq s n) (seq 0 c)) d = (s + i, j)) by (now apply H).
  clear r i Hi. induction n as [|n IH]; intros s i Hi; [lia|]. simpl.
  destruct i as [|i]; simpl.
  - rewrite app_nth1 by (rewrite map_length, seq_length; lia).
    rewrite nth_indep with (d' := (s, 0)) by (rewrite map_length, seq_length; lia).
    rewrite map_nth with (f := fun y => (s, y)), seq_nth by auto. now rewrite Nat.add_0_r.
  - rewrite app_nth2; rewrite map_length, seq_length; [|lia].
    replace (c + i * c + j - c) with (i * c + j) by lia. rewrite IH by lia. f_equal. lia.
Qed.
Lemma positions_S r c : positions (S r) c = positions r c ++ map (pair r) (seq 0 c).
Proof.
  unfold positions. rewrite seq_S. cbn [plus].
  generalize (seq 0 r). intros l. induction l as [|x l IH]; simpl.
  - now rewrite app_nil_r.
  - rewrite IH. now rewrite app_assoc.
Qed.

Section DenseProofs.
Context {N : Num}.
Implicit Types (m w : dmat N) (a b : nat -> nat -> N).

(** Storage invariant. *)
Definition dwf m : Prop := length (dv m) = dr m * dc m.

Lemma d_at_ok m i j : dwf m -> i < dr m -> j < dc m -> d_at m i j = Ok (nth (i * dc m + j) (dv m) n0).
Proof.
  intros Hw Hi Hj. pose proof (idx_lt i j (dr m) (dc m) Hi Hj).
  unfold d_at, d_linear_at, d_size, d_rows, d_cols. bdec. cbn [assert_ bind].
  apply vget_ok. unfold dwf in Hw. lia.
Qed.
Lemma d_at_out m i j : dr m <= i \/ dc m <= j -> d_at m i j = Abort.
Proof.
  intros H. unfold d_at, d_rows, d_cols. destruct (Nat.ltb_spec i (dr m)); auto.
  destruct (Nat.ltb_spec j (dc m)); auto; lia.
Qed.
Lemma d_set_ok m i j x : dwf m -> i < dr m -> j < dc m ->
  d_set m i j x = Ok (mkD (upd (dv m) (i * dc m + j) x) (dr m) (dc m)).
Proof.
  intros Hw Hi Hj. pose proof (idx_lt i j (dr m) (dc m) Hi Hj).
  unfold d_set, d_linear_set, d_size, d_rows, d_cols. bdec. cbn [assert_ bind].
  rewrite vset_ok; auto. unfold dwf in Hw. lia.
Qed.
Lemma d_set_out m i j x : dr m <= i \/ dc m <= j -> d_set m i j x = Abort.
Proof.
  intros H. unfold d_set, d_rows, d_cols. destruct (Nat.ltb_spec i (dr m)); auto.
  destruct (Nat.ltb_spec j (dc m)); auto; lia.
Qed.
Lemma d_lin_at m k : dwf m -> k < dr m * dc m -> d_linear_at m k = d_at m (k / dc m) (k mod dc m).
Proof.
  intros Hw Hk. destruct (idx_div_lt _ _ _ Hk). rewrite d_at_ok by auto.
  unfold d_linear_at, d_size, d_rows, d_cols. bdec. cbn [assert_ bind]. rewrite idx_div by lia.
  apply vget_ok. unfold dwf in Hw. lia.
Qed.
Lemma d_lin_set m k x : dwf m -> k < dr m * dc m -> d_linear_set m k x = d_set m (k / dc m) (k mod dc m) x.
Proof.
  intros Hw Hk. destruct (idx_div_lt _ _ _ Hk). rewrite d_set_ok by auto.
  unfold d_linear_set, d_size, d_rows, d_cols. bdec. cbn [assert_ bind]. rewrite idx_div by lia.
  rewrite vset_ok; auto. unfold dwf in Hw. lia.
Qed.
Lemma d_lin_out m k x : dr m * dc m <= k -> d_linear_at m k = Abort /\ d_linear_set m k x = Abort.
Proof. intros H. unfold d_linear_at, d_linear_set, d_size, d_rows, d_cols. bdec. auto. Qed.

Lemma dwf_new d1 d2 : dwf (@d_fixed_new N d1 d2).
Proof. unfold dwf, d_fixed_new. simpl. apply repeat_length. Qed.
Lemma holds_fixed d1 d2 : @holds N (DenseI N) (d_fixed_new d1 d2) d1 d2 (fun _ _ => n0).
Proof.
  repeat split; auto.
  - apply (dwf_new d1 d2).
  - intros i j Hi Hj. cbn [mi_at DenseI]. rewrite d_at_ok; auto using dwf_new.
    simpl. f_equal. apply nth_repeat.
Qed.
Lemma dense_laws : MatLaws (DenseI N).
Proof.
  constructor; cbn.
  - intros m i j Hm Hi Hj. rewrite d_at_ok by auto. eauto.
  - intros m i j H. now apply d_at_out.
  - intros m i j x Hm Hi Hj. unfold d_rows, d_cols in *. rewrite d_set_ok by auto. eexists. split; [reflexivity|].
    cbn [dv dr dc]. rewrite upd_length. repeat split; auto.
    intros i' j' Hi' Hj'. rewrite d_at_ok; cbn [dv dr dc]; auto.
    2: { unfold dwf. cbn [dv dr dc]. now rewrite upd_length. }
    rewrite nth_upd. pose proof (idx_lt _ _ _ _ Hi Hj).
    destruct (Nat.ltb_spec (i * dc m + j) (length (dv m))); [|lia]. rewrite andb_true_r.
    rewrite d_at_ok by auto.
    destruct (Nat.eqb_spec (i' * dc m + j') (i * dc m + j)) as [E|E].
    + destruct (idx_inj _ _ _ _ _ Hj' Hj E) as (-> & ->). now rewrite !Nat.eqb_refl.
    + destruct (Nat.eqb_spec i' i), (Nat.eqb_spec j' j); cbn [andb]; auto. subst. lia.
  - intros m i j x H. now apply d_set_out.
  - intros d1 d2 H1 H2. unfold d_new. bdec. cbn [assert_ bind]. eexists. split; [reflexivity|].
    apply holds_fixed.
  - intros d1 d2 H. unfold d_new. destruct (Nat.ltb_spec 0 d1); cbn [assert_ bind]; auto. destruct (Nat.ltb_spec 0 d2); cbn [assert_ bind]; auto; exfalso; destruct H; lia.
Qed.
Lemma holds_dreads m d1 d2 a : @holds N (DenseI N) m d1 d2 a <-> dwf m /\ dreads m d1 d2 a.
Proof. unfold holds, dreads. cbn. unfold dwf. tauto. Qed.

Definition tab m (i j : nat) : N := nth (i * dc m + j) (dv m) n0.
Lemma dwf_holds m : dwf m -> @holds N (DenseI N) m (dr m) (dc m) (tab m).
Proof. intros H. apply holds_dreads. split; auto. repeat split. intros. now apply d_at_ok. Qed.
Lemma dreads_tab m d1 d2 a : dwf m -> dreads m d1 d2 a ->
  d1 = dr m /\ d2 = dc m /\ forall i j, i < d1 -> j < d2 -> a i j = tab m i j.
Proof.
  intros Hw (H1 & H2 & H3). unfold d_rows, d_cols in *. subst. repeat split; auto. intros i j Hi Hj.
  specialize (H3 i j Hi Hj). rewrite d_at_ok in H3 by auto. unfold tab. congruence.
Qed.
Lemma dv_values m d1 d2 a : dwf m -> dreads m d1 d2 a -> dv m = values d1 d2 a.
Proof.
  intros Hw Hr. destruct (dreads_tab _ _ _ _ Hw Hr) as (-> & -> & H).
  apply (list_eq_nth _ _ n0); unfold values; [rewrite map_length, positions_length; auto|].
  intros k Hk. unfold dwf in Hw. rewrite Hw in Hk. destruct (idx_split _ _ _ Hk) as (i & j & -> & Hi & Hj).
  rewrite nth_indep with (d' := (fun p => a (fst p) (snd p)) (0, 0)) (l := map _ _)
    by (rewrite map_length, positions_length; auto).
  rewrite (map_nth (fun p => a (fst p) (snd p))).
  rewrite positions_nth by auto. cbn [fst snd]. rewrite H by auto. reflexivity.
Qed.

(** Loops over the flat container. *)
Lemma flat_loop (h : nat -> N) (body : nat -> list N -> res (list N)) m :
  dwf m ->
  (forall k u, k < dr m * dc m -> length u = length (dv m) ->
     (forall j, k <= j -> nth j u n0 = nth j (dv m) n0) -> (forall j, j < k -> nth j u n0 = h j) ->
     body k u = Ok (upd u k (h k))) ->
  for_ 0 (d_size m) body (dv m) = Ok (map h (seq 0 (dr m * dc m))).
Proof.
  intros Hw Hb. unfold d_size, d_rows, d_cols. unfold dwf in Hw. rewrite <- Hw. apply write_all.
  intros k u Hk. apply Hb. lia.
Qed.
Lemma flat_holds (h : nat -> N) r c :
  @holds N (DenseI N) (mkD (map h (seq 0 (r * c))) r c) r c (fun i j => h (i * c + j)).
Proof.
  apply holds_dreads. assert (Hw : dwf (mkD (map h (seq 0 (r * c))) r c)).
  { unfold dwf. cbn. now rewrite map_length, seq_length. }
  split; auto. repeat split. intros i j Hi Hj. rewrite d_at_ok by auto. cbn. f_equal.
  apply nth_map_seq. now apply idx_lt.
Qed.
Lemma combine_ok op m w : dwf m -> dwf w -> d_size m = d_size w ->
  d_combine_eq op m w = Ok (mkD (map (fun k => op (nth k (dv m) n0) (nth k (dv w) n0)) (seq 0 (dr m * dc m))) (dr m) (dc m)).
Proof.
  intros Hm Hw Hs. unfold d_combine_eq. rewrite Hs, Nat.eqb_refl. cbn [negb]. rewrite <- Hs.
  rewrite (flat_loop (fun k => op (nth k (dv m) n0) (nth k (dv w) n0))); auto.
  intros k u Hk Hl H1 _. unfold dwf, d_size, d_rows, d_cols in *. rewrite (vget_ok u k n0) by lia. cbn [bind].
  unfold d_linear_at, d_size, d_rows, d_cols. rewrite <- Hs. bdec. cbn [assert_ bind].
  rewrite (vget_ok (dv w) k n0) by lia. cbn [bind]. rewrite vset_ok by lia. now rewrite H1.
Qed.
Lemma combine_mismatch op m w : d_size m <> d_size w -> d_combine_eq op m w = Throw MatrixSizeMismatch.
Proof. intros H. unfold d_combine_eq. now destruct (Nat.eqb_spec (d_size m) (d_size w)). Qed.
Lemma self_ok op m : dwf m ->
  d_combine_self op m = Ok (mkD (map (fun k => op (nth k (dv m) n0) (nth k (dv m) n0)) (seq 0 (dr m * dc m))) (dr m) (dc m)).
Proof.
  intros Hm. unfold d_combine_self.
  rewrite (flat_loop (fun k => op (nth k (dv m) n0) (nth k (dv m) n0))); auto.
  intros k u Hk Hl H1 _. unfold dwf in *. rewrite (vget_ok u k n0) by lia. cbn [bind].
  unfold d_linear_at, d_size, d_rows, d_cols. cbn [dv dr dc]. bdec. cbn [assert_ bind].
  rewrite (vget_ok u k n0) by lia. cbn [bind]. rewrite vset_ok by lia. now rewrite H1.
Qed.
Lemma dscale_ok m f : dwf m ->
  d_scale_eq m f = Ok (mkD (map (fun k => (nth k (dv m) n0 * f)%num) (seq 0 (dr m * dc m))) (dr m) (dc m)).
Proof.
  intros Hm. unfold d_scale_eq. rewrite (flat_loop (fun k => (nth k (dv m) n0 * f)%num)); auto.
  intros k u Hk Hl H1 _. unfold dwf in *. rewrite (vget_ok u k n0) by lia. cbn [bind].
  rewrite vset_ok by lia. now rewrite H1.
Qed.
Lemma alias_ok m p : dwf m -> p < dr m * dc m ->
  d_scale_alias m p = Ok (mkD (map (fun k => (nth k (dv m) n0 *
     (if k <=? p then nth p (dv m) n0 else nth p (dv m) n0 * nth p (dv m) n0))%num) (seq 0 (dr m * dc m))) (dr m) (dc m)).
Proof.
  intros Hm Hp. unfold d_scale_alias. erewrite flat_loop; [reflexivity|auto|].
  intros k u Hk Hl H1 H2. unfold dwf in *. rewrite (vget_ok u k n0), (vget_ok u p n0) by lia. cbn [bind].
  rewrite vset_ok by lia. rewrite H1 by lia. do 2 f_equal.
  destruct (Nat.leb_spec k p).
  - now rewrite H1.
  - rewrite H2 by lia. now rewrite Nat.leb_refl.
Qed.

(** Filling loops *)
Lemma new_cases d1 d2 : (exists t, @d_new N d1 d2 = Ok t /\ 0 < d1 /\ 0 < d2 /\ t = d_fixed_new d1 d2) \/ (@d_new N d1 d2 = Abort /\ (d1 = 0 \/ d2 = 0)).
Proof.
  unfold d_new. destruct (Nat.ltb_spec 0 d1); cbn [assert_ bind]. 2: right; split; auto; lia.
  destruct (Nat.ltb_spec 0 d2); cbn [assert_ bind]. 2: right; split; auto; lia. left. eauto 6.
Qed.
Lemma fill_ok2 (x : nat -> nat -> N) (e : nat -> nat -> res N) d1 d2 :
  (forall i j, i < d1 -> j < d2 -> e i j = Ok (x i j)) ->
  returns (for_ 0 d1 (fun i t1 => for_ 0 d2 (fun j t2 => let* v := e i j in d_set t2 i j v) t1) (d_fixed_new d1 d2))
    (fun t' => @holds N (DenseI N) t' d1 d2 x).
Proof. intros H. apply (fill_loop2 dense_laws x e (d_fixed_new d1 d2) d1 d2 _ (holds_fixed d1 d2) H). Qed.
Lemma transpose_ok m d1 d2 a : dwf m -> dreads m d1 d2 a ->
  returns (d_fixed_transpose m) (fun t => @holds N (DenseI N) t d2 d1 (fun i j => a j i)) /\
  (0 < d1 -> 0 < d2 -> d_transpose m = d_fixed_transpose m).
Proof.
  intros Hw (H1 & H2 & H3). split.
  - unfold d_fixed_transpose. rewrite H1, H2. apply (fill_ok2 (fun i j => a j i) (fun i j => d_at m j i)).
    intros. now apply H3.
  - intros. unfold d_transpose, d_fixed_transpose. rewrite H1, H2. unfold d_new. bdec. reflexivity.
Qed.
Lemma conjugate_ok m d1 d2 a : dwf m -> dreads m d1 d2 a -> 0 < d1 -> 0 < d2 ->
  returns (d_conjugate m) (fun t => @holds N (DenseI N) t d1 d2 (fun i j => nconj (a i j))).
Proof.
  intros Hw (H1 & H2 & H3) ? ?. unfold d_conjugate. rewrite H1, H2. unfold d_new. bdec. cbn [assert_ bind].
  pose proof (fill_ok2 (fun i j => nconj (a i j)) (fun i j => let* x := d_at m i j in Ok (nconj x)) d1 d2) as HH.
  destruct HH as (t & E & Ht).
  - intros. now rewrite H3.
  - exists t. split; auto. rewrite <- E. apply for_n_ext. intros. apply for_n_ext. intros. now rewrite bind_assoc.
Qed.
Lemma adjugate_ok m d1 d2 a : dwf m -> dreads m d1 d2 a -> 0 < d1 -> 0 < d2 ->
  returns (d_adjugate m) (fun t => @holds N (DenseI N) t d2 d1 (fun i j => nconj (a j i))).
Proof.
  intros Hw (H1 & H2 & H3) ? ?. unfold d_adjugate. rewrite H1, H2. unfold d_new. bdec. cbn [assert_ bind].
  pose proof (fill_ok2 (fun i j => nconj (a j i)) (fun i j => let* x := d_at m j i in Ok (nconj x)) d2 d1) as HH.
  destruct HH as (t & E & Ht).
  - intros. now rewrite H3.
  - exists t. split; auto. rewrite <- E. apply for_n_ext. intros. apply for_n_ext. intros. now rewrite bind_assoc.
Qed.
Lemma mul_into_ok m w d1 d2 d3 a b : dreads m d1 d2 a -> dreads w d2 d3 b ->
  returns (d_mul_into m w (d_fixed_new d1 d3)) (fun t => @holds N (DenseI N) t d1 d3 (prod2 d2 a b)).
Proof.
  intros (H1 & H2 & H3) (H4 & H5 & H6). unfold d_mul_into. rewrite H1, H2, H5. apply fill_ok2.
  intros i k Hi Hk. apply sum_loop. intros j s Hj. rewrite H3, H6 by auto. reflexivity.
Qed.
Lemma mul_ok m w d1 d2 d3 a b : dreads m d1 d2 a -> dreads w d2 d3 b ->
  returns (d_fixed_mul m w) (fun t => @holds N (DenseI N) t d1 d3 (prod2 d2 a b)) /\
  (0 < d1 -> 0 < d3 -> d_mul m w = d_fixed_mul m w).
Proof.
  intros Ha Hb. pose proof (mul_into_ok _ _ _ _ _ _ _ Ha Hb) as H.
  destruct Ha as (H1 & H2 & H3), Hb as (H4 & H5 & H6). split.
  - unfold d_fixed_mul. rewrite H2, H4, Nat.eqb_refl. cbn [negb]. now rewrite H1, H5.
  - intros. unfold d_fixed_mul, d_mul. rewrite H2, H4, Nat.eqb_refl. cbn [negb]. rewrite H1, H5. unfold d_new. bdec. reflexivity.
Qed.
Lemma mul_mismatch m w : d_cols m <> d_rows w -> d_mul m w = Throw MatrixMulMismatch /\ d_fixed_mul m w = Throw MatrixMulMismatch.
Proof. intros H. unfold d_mul, d_fixed_mul. destruct (Nat.eqb_spec (d_cols m) (d_rows w)); auto; lia. Qed.

Lemma vresize_nil n : @v_resize N [] n = repeat n0 n.
Proof. unfold v_resize. cbn. rewrite Nat.sub_0_r. destruct n; auto. Qed.
Lemma mulv_ok m (v : list N) d1 d2 a : dreads m d1 d2 a -> length v = d2 ->
  d_mulv m v = Ok (map (fun i => bigsum d2 (fun j => (a i j * nth j v n0)%num)) (seq 0 d1)).
Proof.
  intros (H1 & H2 & H3) Hl. unfold d_mulv, v_size. rewrite H2, Hl, Nat.eqb_refl. cbn [negb]. rewrite H1, vresize_nil.
  pose proof (write_all (fun i => bigsum d2 (fun j => (a i j * nth j v n0)%num))
    (fun i r => let* t := for_ 0 d2 (fun j t => let* x := d_at m i j in let* y := v_at v j in Ok (t + x * y)%num) n0 in v_set r i t)
    (repeat n0 d1)) as H. rewrite repeat_length in H. apply H.
  intros i u Hi Hu _ _. rewrite (sum_loop (fun j => (a i j * nth j v n0)%num)).
  - cbn [bind]. apply v_set_ok. lia.
  - intros j s Hj. rewrite H3 by auto. cbn [bind]. rewrite v_at_ok by lia. reflexivity.
Qed.
Lemma mulv_left_ok m (v : list N) d1 d2 a : dreads m d1 d2 a -> length v = d1 ->
  d_mulv_left m v = Ok (map (fun j => bigsum d1 (fun i => (a i j * nth i v n0)%num)) (seq 0 d2)).
Proof.
  intros (H1 & H2 & H3) Hl. unfold d_mulv_left, v_size. rewrite H1, Hl, Nat.eqb_refl. cbn [negb]. rewrite H2, vresize_nil.
  pose proof (write_all (fun j => bigsum d1 (fun i => (a i j * nth i v n0)%num))
    (fun j r => let* t := for_ 0 d1 (fun i t => let* x := d_at m i j in let* y := v_at v i in Ok (t + x * y)%num) n0 in v_set r j t)
    (repeat n0 d2)) as H. rewrite repeat_length in H. apply H.
  intros j u Hj Hu _ _. rewrite (sum_loop (fun i => (a i j * nth i v n0)%num)).
  - cbn [bind]. apply v_set_ok. lia.
  - intros i s Hi. rewrite H3 by auto. cbn [bind]. rewrite v_at_ok by lia. reflexivity.
Qed.
Lemma mulv_mismatch m (v : list N) : d_cols m <> length v -> d_mulv m v = Throw MatrixMulMismatch.
Proof. intros H. unfold d_mulv, v_size. now destruct (Nat.eqb_spec (d_cols m) (length v)). Qed.
Lemma mulv_left_mismatch m (v : list N) : d_rows m <> length v -> d_mulv_left m v = Throw MatrixMulMismatch.
Proof. intros H. unfold d_mulv_left, v_size. now destruct (Nat.eqb_spec (d_rows m) (length v)). Qed.

(** Iteration *)
Lemma inv_end m it : di_valid m it = false -> di_eq m it (d_end m) = true.
Proof.
  intros H. unfold di_eq. rewrite H. unfold d_end, di_valid. cbn [di1 di2]. rewrite Nat.ltb_irrefl. reflexivity.
Qed.
Lemma val_end m it : di_valid m it = true -> di_eq m it (d_end m) = false.
Proof.
  intros H. unfold di_eq. rewrite H. cbn [negb andb orb d_end di1 di2]. unfold di_valid in H. apply andb_prop in H. destruct H as (H1 & H2).
  apply Nat.ltb_lt in H1, H2. destruct (Nat.eqb_spec (di1 it) (d_rows m)); auto; lia.
Qed.
Lemma di_loop_ok {St} m inc (f : dit -> St -> res St) : forall n pos s (it : nat -> dit),
  (forall k, k < n -> di_valid m (it (pos + k)) = true /\ inc m (it (pos + k)) = it (S (pos + k))) ->
  di_valid m (it (pos + n)) = false ->
  di_loop (S n) m inc (it pos) f s = foreach (map it (seq pos n)) f s.
Proof.
  induction n as [|n IH]; intros pos s it Hv He.
  - rewrite Nat.add_0_r in He. cbn. now rewrite inv_end.
  - destruct (Hv 0) as (H1 & H2); [lia|]. rewrite Nat.add_0_r in *. remember (S n) as k. cbn [di_loop]. rewrite val_end by auto.
    cbn [negb]. subst k. cbn [seq map foreach]. destruct (f (it pos) s); cbn [bind]; auto. rewrite H2. apply IH.
    + intros k Hk. replace (S pos + k) with (pos + S k) by lia. apply Hv. lia.
    + now replace (S pos + n) with (pos + S n) by lia.
Qed.
Definition to_dit (p : nat * nat) : dit := mkDI (fst p) (snd p).
Lemma d_for_ok {St} m (f : dit -> St -> res St) s :
  d_for m f s = foreach (map to_dit (positions (dr m) (dc m))) f s.
Proof.
  unfold d_for, d_size, d_rows, d_cols.
  set (it := fun k => if k <? dr m * dc m then mkDI (k / dc m) (k mod dc m) else if (dr m * dc m =? 0) then mkDI 0 0 else mkDI (dr m) (dc m)).
  assert (E0 : d_begin = it 0).
  { unfold it, d_begin. destruct (Nat.ltb_spec 0 (dr m * dc m)).
    - assert (dc m <> 0) by lia. now rewrite Nat.div_0_l, Nat.mod_0_l by auto.
    - bdec. reflexivity. }
  rewrite E0, di_loop_ok with (pos := 0).
  - f_equal. apply (list_eq_nth _ _ (mkDI 0 0)).
    + now rewrite !map_length, seq_length, positions_length.
    + intros k Hk. rewrite map_length, seq_length in Hk. rewrite nth_map_seq by auto.
      change (mkDI 0 0) with (to_dit (0, 0)). rewrite map_nth.
      destruct (idx_div_lt _ _ _ Hk). unfold it. bdec.
      rewrite <- (idx_div k (dc m)) at 3 by lia. now rewrite positions_nth.
  - intros k Hk. cbn [plus]. destruct (idx_div_lt _ _ _ Hk) as (H1 & H2).
    assert (E : k = k / dc m * dc m + k mod dc m) by (symmetry; apply idx_div; lia).
    unfold it. destruct (Nat.ltb_spec k (dr m * dc m)); [|lia].
    assert (Hv : di_valid m (mkDI (k / dc m) (k mod dc m)) = true).
    { unfold di_valid, d_rows, d_cols. cbn [di1 di2]. bdec. reflexivity. }
    split; auto. unfold di_inc. rewrite Hv. unfold d_rows, d_cols. cbn [di1 di2].
    destruct (Nat.leb_spec (dc m) (k mod dc m + 1)).
    + destruct (Nat.leb_spec (dr m) (k / dc m + 1)).
      * destruct (Nat.ltb_spec (S k) (dr m * dc m)); [nia|]. destruct (Nat.eqb_spec (dr m * dc m) 0); auto; lia.
      * destruct (Nat.ltb_spec (S k) (dr m * dc m)); [|nia].
        replace (S k) with ((k / dc m + 1) * dc m + 0) by nia.
        destruct (idx_div_eq (k / dc m + 1) 0 (dc m)) as (E1 & E2); [lia|]. now rewrite E1, E2.
    + destruct (Nat.ltb_spec (S k) (dr m * dc m)); [|nia].
      replace (S k) with ((k / dc m) * dc m + (k mod dc m + 1)) by nia.
      destruct (idx_div_eq (k / dc m) (k mod dc m + 1) (dc m)) as (E1 & E2); [lia|]. now rewrite E1, E2.
  - cbn [plus]. unfold it. rewrite Nat.ltb_irrefl. destruct (Nat.eqb_spec (dr m * dc m) 0).
    + unfold di_valid, d_rows, d_cols. cbn [di1 di2]. destruct (dr m), (dc m); auto; lia.
    + unfold di_valid, d_rows, d_cols. cbn [di1 di2]. now rewrite Nat.ltb_irrefl.
Qed.
Lemma d_for_row_ok {St} m i (f : dit -> St -> res St) s : i < dr m ->
  d_for_row m i f s = foreach (map (fun j => mkDI i j) (seq 0 (dc m))) f s.
Proof.
  intros Hi. unfold d_for_row, d_row_begin, d_rows, d_cols. bdec. cbn [assert_ bind].
  set (it := fun k => if k <? dc m then mkDI i k else if dc m =? 0 then mkDI i 0 else mkDI (dr m) (dc m)).
  assert (E0 : mkDI i 0 = it 0). { unfold it. destruct (dc m); auto. }
  rewrite E0, di_loop_ok with (pos := 0).
  - f_equal. apply map_ext_in. intros k Hk. apply in_seq in Hk. unfold it. bdec. reflexivity.
  - intros k Hk. cbn [plus]. unfold it. destruct (Nat.ltb_spec k (dc m)); [|lia].
    assert (Hv : di_valid m (mkDI i k) = true) by (unfold di_valid, d_rows, d_cols; cbn [di1 di2]; bdec; reflexivity).
    split; auto. unfold dri_inc. rewrite Hv. unfold d_rows, d_cols. cbn [di1 di2].
    destruct (Nat.leb_spec (dc m) (k + 1)); destruct (Nat.ltb_spec (S k) (dc m)); try lia.
    + destruct (Nat.eqb_spec (dc m) 0); auto; lia.
    + f_equal. lia.
  - cbn [plus]. unfold it. rewrite Nat.ltb_irrefl. destruct (Nat.eqb_spec (dc m) 0).
    + unfold di_valid, d_cols. cbn [di1 di2]. rewrite e, andb_false_r. reflexivity.
    + unfold di_valid, d_rows, d_cols. cbn [di1 di2]. now rewrite Nat.ltb_irrefl.
Qed.
Lemma d_for_col_ok {St} m j (f : dit -> St -> res St) s : j < dc m ->
  d_for_col m j f s = foreach (map (fun i => mkDI i j) (seq 0 (dr m))) f s.
Proof.
  intros Hj. unfold d_for_col, d_col_begin, d_rows, d_cols. bdec. cbn [assert_ bind].
  set (it := fun k => if k <? dr m then mkDI k j else if dr m =? 0 then mkDI 0 j else mkDI (dr m) (dc m)).
  assert (E0 : mkDI 0 j = it 0). { unfold it. destruct (dr m); auto. }
  rewrite E0, di_loop_ok with (pos := 0).
  - f_equal. apply map_ext_in. intros k Hk. apply in_seq in Hk. unfold it. bdec. reflexivity.
  - intros k Hk. cbn [plus]. unfold it. destruct (Nat.ltb_spec k (dr m)); [|lia].
    assert (Hv : di_valid m (mkDI k j) = true) by (unfold di_valid, d_rows, d_cols; cbn [di1 di2]; bdec; reflexivity).
    split; auto. unfold dci_inc. rewrite Hv. unfold d_rows, d_cols. cbn [di1 di2].
    destruct (Nat.leb_spec (dr m) (k + 1)); destruct (Nat.ltb_spec (S k) (dr m)); try lia.
    + destruct (Nat.eqb_spec (dr m) 0); auto; lia.
    + f_equal. lia.
  - cbn [plus]. unfold it. rewrite Nat.ltb_irrefl. destruct (Nat.eqb_spec (dr m) 0).
    + unfold di_valid, d_rows. cbn [di1 di2]. rewrite e. reflexivity.
    + unfold di_valid, d_rows, d_cols. cbn [di1 di2]. now rewrite Nat.ltb_irrefl.
Qed.
Lemma collect m (a : nat -> nat -> N) (ps : list (nat * nat)) : forall acc,
  (forall p, In p ps -> fst p < dr m /\ snd p < dc m /\ d_at m (fst p) (snd p) = Ok (a (fst p) (snd p))) ->
  foreach (map to_dit ps) (fun it acc => let* v := di_get m it in Ok (acc ++ [(di1 it, di2 it, v)])) acc
  = Ok (acc ++ map (with_value a) ps).
Proof.
  induction ps as [|p ps IH]; intros acc H.
  - cbn. now rewrite app_nil_r.
  - destruct (H p) as (H1 & H2 & H3); [now left|]. cbn [map foreach]. unfold di_get at 1, di_valid, d_rows, d_cols, to_dit at 1.
    cbn [di1 di2 to_dit]. bdec. cbn [andb]. rewrite H3. cbn [bind].
    rewrite IH by (intros q Hq; apply H; now right). now rewrite <- app_assoc.
Qed.

(** Equality *)
Lemma deq_loop m w : forall n k, k + n <= d_size m -> k + n <= d_size w -> dwf m -> dwf w ->
  d_eq_loop n k m w = Ok (forallb (fun k => neqb (nth k (dv m) n0) (nth k (dv w) n0)) (seq k n)).
Proof.
  induction n as [|n IH]; intros k H1 H2 Hm Hw; auto. cbn [d_eq_loop seq forallb].
  unfold d_linear_at. bdec. cbn [assert_ bind]. unfold dwf, d_size, d_rows, d_cols in *.
  rewrite (vget_ok (dv m) k n0), (vget_ok (dv w) k n0) by lia. cbn [bind].
  destruct (neqb _ _); cbn; auto. apply IH; auto; lia.
Qed.

(** Initialiser lists *)
Lemma fill_row c i : forall r (j : nat) (acc : list N), i * c + j + length r <= length acc ->
  exists acc', foreach r (fun (y : N) st2 => let '(j, c2) := st2 in
          let* c3 := vset c2 (i * c + j) y in Ok (S j, c3)) (j, acc) = Ok (j + length r, acc') /\
    length acc' = length acc /\
    forall k, nth k acc' n0 = if (i * c + j <=? k) && (k <? i * c + j + length r) then nth (k - (i * c + j)) r (n0 : N) else nth k acc n0.
Proof.
  induction r as [|x r IH]; intros j acc H; cbn [foreach length].
  - exists acc. rewrite Nat.add_0_r. repeat split; auto. intros k. rewrite Nat.add_0_r.
    destruct (Nat.leb_spec (i * c + j) k), (Nat.ltb_spec k (i * c + j)); auto; lia.
  - cbn [length] in H. rewrite vset_ok by lia. cbn [bind].
    destruct (IH (S j) (upd acc (i * c + j) x)) as (acc' & E & Hl & Hn); [rewrite upd_length; lia|].
    exists acc'. rewrite E. rewrite upd_length in Hl. split; [f_equal; f_equal; lia|]. split; auto.
    intros k. rewrite Hn, nth_upd.
    destruct (Nat.leb_spec (i * c + S j) k), (Nat.ltb_spec k (i * c + S j + length r)),
      (Nat.leb_spec (i * c + j) k), (Nat.ltb_spec k (i * c + j + S (length r))); try lia; cbn [andb];
      destruct (Nat.eqb_spec k (i * c + j)); try lia; cbn [andb]; auto.
    + replace (k - (i * c + j)) with (S (k - (i * c + S j))) by lia. reflexivity.
    + destruct (Nat.ltb_spec (i * c + j) (length acc)); [|lia]. subst. now rewrite Nat.sub_diag.
Qed.
Lemma fill_rows c : forall l (i : nat) (acc : list N),
  (forall r, In r l -> length r <= c) -> (i + length l) * c <= length acc ->
  exists acc', foreach l (fun v st =>
      let '(i, c1) := st in
      let* st2 := foreach v (fun (y : N) st2 =>
          let '(j, c2) := st2 in
          let* c3 := vset c2 (i * c + j) y in Ok (S j, c3)) (O, c1) in
      Ok (S i, snd st2)) (i, acc) = Ok (i + length l, acc') /\
    length acc' = length acc /\
    forall p j, j < c -> nth (p * c + j) acc' n0 =
      if (i <=? p) && (p <? i + length l) then (if j <? length (nth (p - i) l []) then nth j (nth (p - i) l []) (n0 : N) else nth (p * c + j) acc n0)
      else nth (p * c + j) acc n0.
Proof.
  induction l as [|r l IH]; intros i acc Hc H; cbn [foreach length].
  - exists acc. rewrite Nat.add_0_r. repeat split; auto. intros p j Hj.
    destruct (Nat.leb_spec i p), (Nat.ltb_spec p i); auto; lia.
  - cbn [length] in H. assert (Hr : length r <= c) by (apply Hc; now left).
    destruct (fill_row c i r 0 acc) as (acc1 & E1 & L1 & N1); [nia|]. rewrite E1. cbn [bind snd].
    destruct (IH (S i) acc1) as (acc' & E & Hl & Hn).
    { intros; apply Hc; now right. } { rewrite L1. lia. }
    exists acc'. rewrite E. split; [f_equal; f_equal; lia|]. split; [lia|].
    intros p j Hj. rewrite Hn by auto. rewrite Nat.add_0_r in N1. rewrite (N1 (p * c + j)).
    destruct (Nat.leb_spec (S i) p), (Nat.ltb_spec p (S i + length l)),
      (Nat.leb_spec i p), (Nat.ltb_spec p (i + S (length l))); try lia; cbn [andb].
    + replace (p - i) with (S (p - S i)) by lia. cbn [nth]. destruct (Nat.ltb_spec j (length (nth (p - S i) l []))); auto.
      destruct (Nat.leb_spec (i * c) (p * c + j)), (Nat.ltb_spec (p * c + j) (i * c + length r)); cbn [andb]; auto; nia.
    + destruct (Nat.leb_spec (i * c) (p * c + j)), (Nat.ltb_spec (p * c + j) (i * c + length r)); cbn [andb]; auto; nia.
    + assert (p = i) by lia. subst p. rewrite Nat.sub_diag. cbn [nth].
      destruct (Nat.ltb_spec j (length r)).
      * destruct (Nat.leb_spec (i * c) (i * c + j)), (Nat.ltb_spec (i * c + j) (i * c + length r)); try lia. cbn [andb].
        f_equal. lia.
      * destruct (Nat.leb_spec (i * c) (i * c + j)), (Nat.ltb_spec (i * c + j) (i * c + length r)); try lia. reflexivity.
    + destruct (Nat.leb_spec (i * c) (p * c + j)), (Nat.ltb_spec (p * c + j) (i * c + length r)); cbn [andb]; auto; nia.
Qed.
Lemma fill_list_ok (l : list (list N)) r c : length l <= r -> (forall x, In x l -> length x <= c) ->
  exists u, d_fill_list l c (repeat n0 (r * c)) = Ok u /\ @holds N (DenseI N) (mkD u r c) r c (ragged l).
Proof.
  intros Hr Hc. unfold d_fill_list.
  destruct (fill_rows c l 0 (repeat n0 (r * c))) as (u & E & Hl & Hn); auto.
  { rewrite repeat_length. nia. }
  rewrite E. cbn [bind snd]. exists u. split; auto. rewrite repeat_length in Hl. apply holds_dreads.
  split; auto. repeat split. intros i j Hi Hj. rewrite d_at_ok by auto. cbn [dv dc]. rewrite Hn by auto.
  cbn [Nat.leb andb plus]. rewrite Nat.sub_0_r, nth_repeat. unfold ragged.
  destruct (Nat.ltb_spec i (length l)).
  - destruct (Nat.ltb_spec j (length (nth i l []))); auto. now rewrite nth_overflow with (n := j).
  - rewrite nth_overflow with (n := i) by auto. now destruct j.
Qed.
Lemma list_max_ge (l : list nat) x : In x l -> x <= list_max l.
Proof.
  intros H. pose proof (list_max_le l (list_max l)) as (H1 & _). specialize (H1 (le_n _)).
  rewrite Forall_forall in H1. auto.
Qed.
Lemma of_list_ok (l : list (list N)) : l <> [] -> list_max (map (@length N) l) > 0 ->
  exists m, d_of_list l = Ok m /\ @holds N (DenseI N) m (length l) (list_max (map (@length N) l)) (ragged l).
Proof.
  intros Hn Hc. unfold d_of_list. destruct l as [|r l]; [easy|]. remember (r :: l) as l' eqn:El.
  assert (0 < length l') by (subst; cbn; lia).
  unfold d_new. bdec. cbn [assert_ bind dv dr dc].
  destruct (fill_list_ok l' (length l') (list_max (map (@length N) l'))) as (u & E & Hu); auto.
  - intros x Hx. apply list_max_ge. now apply in_map.
  - rewrite E. cbn [bind]. eauto.
Qed.
Lemma fixed_of_list_ok k1 k2 (l : list (list N)) : l <> [] -> length l <= k1 -> (forall x, In x l -> length x <= k2) ->
  exists m, d_fixed_of_list k1 k2 l = Ok m /\ @holds N (DenseI N) m k1 k2 (ragged l).
Proof.
  intros Hn H1 H2. unfold d_fixed_of_list. cbn zeta.
  assert (Hm : list_max (map (@length N) l) <= k2).
  { apply list_max_le. apply Forall_forall. intros x Hx. apply in_map_iff in Hx. destruct Hx as (y & <- & Hy). auto. }
  bdec. cbn [assert_ bind].
  destruct (fill_list_ok l k1 k2) as (u & E & Hu); auto.
  destruct l as [|r l]; [easy|]. cbn [d_fixed_new dv dr dc]. rewrite E. cbn [bind]. eauto.
Qed.

(** Everything a program can build satisfies the storage invariant. *)
Lemma holds_dwf m d1 d2 a : @holds N (DenseI N) m d1 d2 a -> dwf m.
Proof. intros H. apply H. Qed.
Lemma ret_ok {A} (r : res A) Q x : returns r Q -> r = Ok x -> Q x.
Proof. intros (y & -> & H) E. injection E as ->. exact H. Qed.
Lemma dset_wf m i j x m' : dwf m -> d_set m i j x = Ok m' -> dwf m'.
Proof.
  intros Hw E. destruct (Nat.lt_ge_cases i (dr m)), (Nat.lt_ge_cases j (dc m));
    try (rewrite d_set_out in E by auto; discriminate).
  rewrite d_set_ok in E by auto. injection E as <-. unfold dwf. cbn. now rewrite upd_length.
Qed.
Lemma dset_it_wf m it x m' it' : dwf m -> d_set_it m it x = Ok (m', it') -> dwf m'.
Proof.
  intros Hw E. unfold d_set_it in E. destruct (_ && _).
  - apply bind_ok in E. destruct E as (m1 & E & E'). injection E' as <- <-. eauto using dset_wf.
  - injection E as <- _. auto.
Qed.
Lemma dbuilt_wf m : dbuilt m -> dwf m.
Proof.
  induction 1.
  - reflexivity.
  - destruct (new_cases d1 d2) as [(t & E & _ & _ & ->)|(E & _)]; rewrite E in H; [|discriminate].
    injection H as <-. apply dwf_new.
  - apply dwf_new.
  - destruct l as [|r l]; [discriminate|].
    destruct (Nat.eq_dec (list_max (map (@length N) (r :: l))) 0) as [Hz|].
    + unfold d_of_list in H. rewrite Hz in H. cbn in H. discriminate.
    + destruct (of_list_ok (r :: l)) as (m' & E & Hm); try easy; try lia. rewrite E in H. injection H as <-. apply Hm.
  - unfold d_fixed_of_list in H. destruct (Nat.leb_spec (length l) k1); [|discriminate].
    destruct l as [|r l]; [discriminate|]. cbn zeta in H.
    destruct (Nat.leb_spec (list_max (map (@length N) (r :: l))) k2); [|discriminate].
    destruct (fixed_of_list_ok k1 k2 (r :: l)) as (m' & E & Hm); try easy.
    + intros x Hx. etransitivity; [|exact H1]. apply list_max_ge. now apply in_map.
    + unfold d_fixed_of_list in E. cbn zeta in E.
      destruct (Nat.leb_spec (length (r :: l)) k1); [|lia]. destruct (Nat.leb_spec (list_max (map (@length N) (r :: l))) k2); [|lia].
      rewrite E in H. injection H as <-. apply Hm.
  - eauto using dset_wf.
  - destruct (Nat.lt_ge_cases k (dr m * dc m)).
    + rewrite d_lin_set in H0 by auto. eauto using dset_wf.
    + destruct (d_lin_out m k v) as (_ & E); auto. rewrite E in H0. discriminate.
  - eauto using dset_it_wf.
  - unfold d_erase in H0. eauto using dset_it_wf.
  - destruct (Nat.eq_dec (d_size a) (d_size b)).
    + rewrite combine_ok in H1 by auto. injection H1 as <-. apply (flat_holds _ (dr a) (dc a)).
    + rewrite combine_mismatch in H1 by auto. discriminate.
  - rewrite self_ok in H0 by auto. injection H0 as <-. apply (flat_holds _ (dr a) (dc a)).
  - rewrite dscale_ok in H0 by auto. injection H0 as <-. apply (flat_holds _ (dr a) (dc a)).
  - destruct (Nat.lt_ge_cases k (dr a * dc a)).
    + rewrite alias_ok in H0 by auto. injection H0 as <-. apply (flat_holds _ (dr a) (dc a)).
    + unfold d_scale_alias in H0. destruct (dr a * dc a) as [|n] eqn:En.
      * unfold d_size, d_rows, d_cols in H0. rewrite En in H0. cbn in H0. injection H0 as <-. unfold dwf in *. cbn. lia.
      * unfold d_size, d_rows, d_cols in H0. rewrite En in H0. rewrite for_step in H0 by lia.
        unfold dwf in *. rewrite (vget_ok _ 0 n0) in H0 by lia. cbn [bind] in H0.
        unfold vget at 1 in H0. rewrite (proj2 (nth_error_None (dv a) k)) in H0 by lia. discriminate.
  - exact IHdbuilt2.
  - exact IHdbuilt1.
  - unfold d_transpose in H0. destruct (new_cases (d_cols a) (d_rows a)) as [(t & E & ? & ? & ->)|(E & _)]; rewrite E in H0; [|discriminate].
    cbn [bind] in H0. destruct (transpose_ok a _ _ _ IHdbuilt (proj2 (proj1 (holds_dreads _ _ _ _) (dwf_holds a IHdbuilt)))) as (Ht & _).
    unfold d_fixed_transpose in Ht. exact (holds_dwf _ _ _ _ (ret_ok _ _ _ Ht H0)).
  - destruct (transpose_ok a _ _ _ IHdbuilt (proj2 (proj1 (holds_dreads _ _ _ _) (dwf_holds a IHdbuilt)))) as (Ht & _).
    exact (holds_dwf _ _ _ _ (ret_ok _ _ _ Ht H0)).
  - destruct (new_cases (d_rows a) (d_cols a)) as [(t & E & ? & ? & ->)|(E & _)].
    + pose proof (conjugate_ok a _ _ _ IHdbuilt (proj2 (proj1 (holds_dreads _ _ _ _) (dwf_holds a IHdbuilt))) H1 H2) as Ht.
      exact (holds_dwf _ _ _ _ (ret_ok _ _ _ Ht H0)).
    + unfold d_conjugate in H0. rewrite E in H0. discriminate.
  - destruct (new_cases (d_cols a) (d_rows a)) as [(t & E & ? & ? & ->)|(E & _)].
    + pose proof (adjugate_ok a _ _ _ IHdbuilt (proj2 (proj1 (holds_dreads _ _ _ _) (dwf_holds a IHdbuilt))) H2 H1) as Ht.
      exact (holds_dwf _ _ _ _ (ret_ok _ _ _ Ht H0)).
    + unfold d_adjugate in H0. rewrite E in H0. discriminate.
  - destruct (Nat.eq_dec (d_cols a) (d_rows b)) as [Ec|Ec].
    2: { destruct (mul_mismatch a b Ec) as (Em & _). rewrite Em in H1. discriminate. }
    pose proof (proj2 (proj1 (holds_dreads _ _ _ _) (dwf_holds a IHdbuilt1))) as Ra.
    pose proof (proj2 (proj1 (holds_dreads _ _ _ _) (dwf_holds b IHdbuilt2))) as Rb.
    unfold d_rows, d_cols in Ec. rewrite <- Ec in Rb. destruct (mul_ok a b _ _ _ _ _ Ra Rb) as (Hf & He).
    destruct (new_cases (d_rows a) (d_cols b)) as [(t & E & ? & ? & ->)|(E & _)].
    + rewrite He in H1 by auto. exact (holds_dwf _ _ _ _ (ret_ok _ _ _ Hf H1)).
    + unfold d_mul in H1. rewrite E in H1. destruct (negb _); discriminate.
  - destruct (Nat.eq_dec (d_cols a) (d_rows b)) as [Ec|Ec].
    2: { destruct (mul_mismatch a b Ec) as (_ & Em). rewrite Em in H1. discriminate. }
    pose proof (proj2 (proj1 (holds_dreads _ _ _ _) (dwf_holds a IHdbuilt1))) as Ra.
    pose proof (proj2 (proj1 (holds_dreads _ _ _ _) (dwf_holds b IHdbuilt2))) as Rb.
    unfold d_rows, d_cols in Ec. rewrite <- Ec in Rb. destruct (mul_ok a b _ _ _ _ _ Ra Rb) as (Hf & He).
    exact (holds_dwf _ _ _ _ (ret_ok _ _ _ Hf H1)).
  - unfold d_resize in H0. destruct (0 <? d1); [|discriminate]. destruct (0 <? d2); [|discriminate].
    injection H0 as <-. auto.
Qed.
End DenseProofs.
