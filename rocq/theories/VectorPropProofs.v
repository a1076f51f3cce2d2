(** Proofs of the statements in PropVector.v. *)
From Coq Require Import List Arith Bool Lia Ring Field Field_theory.
From Verif Require Import Base BaseProofs Num Spec SpecProofs VectorModel VectorSpec OrdField
  SparseSpec SparseFacts2 VectorProofs.
Import ListNotations.
Open Scope res_scope.

Section Any.
Variable N : Num.
Implicit Types (u v w l : list N) (op : N -> N -> N).

Lemma p_elementwise v w : length v = length w ->
  v_add v w = Ok (zip nadd v w) /\ v_sub v w = Ok (zip nsub v w) /\
  v_mul v w = Ok (zip nmul v w) /\ v_div v w = Ok (zip ndiv v w) /\
  v_add_eq v w = Ok (zip nadd v w) /\ v_sub_eq v w = Ok (zip nsub v w) /\
  v_mul_eq v w = Ok (zip nmul v w) /\ v_div_eq v w = Ok (zip ndiv v w).
Proof. intros H. repeat split; now apply inplace_ok. Qed.

Lemma p_mismatch v w : length v <> length w ->
  v_add v w = Throw VectorSizeMismatch /\ v_sub v w = Throw VectorSizeMismatch /\
  v_mul v w = Throw VectorSizeMismatch /\ v_div v w = Throw VectorSizeMismatch /\
  v_add_eq v w = Throw VectorSizeMismatch /\ v_sub_eq v w = Throw VectorSizeMismatch /\
  v_mul_eq v w = Throw VectorSizeMismatch /\ v_div_eq v w = Throw VectorSizeMismatch /\
  v_dot v w = Throw VectorSizeMismatch /\ v_eq v w = Throw VectorSizeMismatch.
Proof.
  intros H. repeat split; try (now apply inplace_mismatch); [now apply dot_mismatch|].
  unfold v_eq, v_size. bdec. reflexivity.
Qed.

Lemma p_self op v : v_inplace_self op v = Ok (zip op v v).
Proof.
  rewrite inplace_self_ok. f_equal. unfold zip. induction v as [|x v IH]; simpl; auto. now rewrite IH.
Qed.

Lemma map_zip_nth op v w i : length v = length w -> i < length v ->
  nth i (zip op v w) n0 = op (nth i v n0) (nth i w n0).
Proof.
  intros Hl Hi. rewrite <- map2_seq by auto. now rewrite nth_map_seq.
Qed.
Lemma zip_length op v w : length v = length w -> length (zip op v w) = length v.
Proof. intros H. unfold zip. rewrite map_length, combine_length. lia. Qed.

Lemma p_scalar v (f : N) :
  v_adds v f = Ok (map (fun x => (x + f)%num) v) /\
  v_subs v f = Ok (map (fun x => (x - f)%num) v) /\
  v_scale v f = Ok (map (fun x => (x * f)%num) v) /\
  v_divs v f = Ok (map (fun x => (x * (n1 / f))%num) v) /\
  v_neg v = Ok (map (fun x => (x * - n1)%num) v) /\
  v_rsub f v = Ok (map (fun x => (x * - n1 + f)%num) v) /\
  v_rdiv f v = Ok (map (fun x => (n1 / x * f)%num) v).
Proof.
  unfold v_adds, v_subs, v_scale, v_divs, v_scalar_div, v_neg, v_rsub, v_rdiv.
  rewrite recip_ok. unfold v_neg. rewrite !scalar_ok. cbn [bind]. rewrite !scalar_ok, !map_map. repeat split.
Qed.

Lemma p_dot v w : length v = length w ->
  v_dot v w = Ok (bigsum (length v) (fun i => (nth i v n0 * nth i w n0)%num)) /\
  v_magSqr v = Ok (bigsum (length v) (fun i => (nth i v n0 * nth i v n0)%num)) /\
  v_mag v = Ok (nsqrt (bigsum (length v) (fun i => (nth i v n0 * nth i v n0)%num))).
Proof.
  intros H. split; [now apply dot_ok|]. unfold v_mag, v_magSqr. rewrite dot_ok by auto. split; reflexivity.
Qed.

(** Sub-vectors *)
Lemma map_seq_firstn_skipn v k m : k + m <= length v ->
  map (fun j => nth (k + j) v n0) (seq 0 m) = firstn m (skipn k v).
Proof.
  intros H. apply (list_eq_nth _ _ n0).
  - rewrite map_length, seq_length, firstn_length, skipn_length. lia.
  - intros i Hi. rewrite map_length, seq_length in Hi. rewrite nth_map_seq by auto.
    assert (Hn : nth i (firstn m (skipn k v)) n0 = nth i (skipn k v) n0).
    { rewrite <- (firstn_skipn m (skipn k v)) at 2. rewrite app_nth1; auto.
      rewrite firstn_length, skipn_length. lia. }
    now rewrite Hn, nth_skipn'.
Qed.

Lemma map_if_app {A} (h g : nat -> A) n m : m <= n ->
  map (fun j => if (0 <=? j) && (j <? m) then h j else g j) (seq 0 n) = map h (seq 0 m) ++ map g (seq m (n - m)).
Proof.
  intros H. replace n with (m + (n - m)) at 1 by lia. rewrite seq_app, map_app. f_equal.
  - apply map_ext_in. intros j Hj. apply in_seq in Hj. bdec. reflexivity.
  - apply map_ext_in. intros j Hj. apply in_seq in Hj. bdec. reflexivity.
Qed.
Lemma map_const {A} (c : A) n : forall k (g : nat -> A), (forall j, k <= j < k + n -> g j = c) -> map g (seq k n) = repeat c n.
Proof. induction n as [|n IH]; intros k g H; simpl; auto. rewrite H by lia. f_equal. apply IH. intros; apply H; lia. Qed.

(** Copies of a slice: t[j - lo] = v[j], lo <= j < hi, into a zero vector of size n. *)
Lemma slice_loop n v lo hi : lo <= hi -> hi <= length v -> hi - lo <= n ->
  for_ lo hi (fun j t => let* x := v_at v j in v_set t (j - lo) x) (v_new n)
  = Ok (firstn (hi - lo) (skipn lo v) ++ repeat n0 (n - (hi - lo))).
Proof.
  intros H1 H2 H3.
  assert (Hsh : for_ lo hi (fun j t => let* x := v_at v j in v_set t (j - lo) x) (v_new n)
     = for_ 0 (hi - lo) (fun j t => let* x := v_at v (lo + j) in v_set t j x) (v_new n)).
  { unfold for_. rewrite Nat.sub_0_r. generalize (hi - lo) as m. generalize (v_new (N:=N) n) as t.
    enough (H : forall m k t, for_n m (lo + k) (fun j t => let* x := v_at v j in v_set t (j - lo) x) t =
       for_n m k (fun j t => let* x := v_at v (lo + j) in v_set t j x) t).
    { intros t m. rewrite <- (H m 0 t). now rewrite Nat.add_0_r. }
    induction m as [|m IH]; intros k t; simpl; auto. replace (lo + k - lo) with k by lia.
    destruct (v_at v (lo + k)); simpl; auto. destruct (v_set t k a); simpl; auto.
    rewrite plus_n_Sm. apply IH. }
  rewrite Hsh. rewrite (write_loop (fun j => nth (lo + j) v n0)).
  - unfold v_new. rewrite repeat_length, map_if_app by lia. f_equal. f_equal.
    + apply map_seq_firstn_skipn. lia.
    + apply map_const. intros j Hj. apply nth_repeat.
  - lia.
  - unfold v_new. rewrite repeat_length. lia.
  - intros i u Hi Hl _ _. unfold v_new in Hl. rewrite repeat_length in Hl.
    rewrite v_at_ok by lia. simpl. apply v_set_ok. lia.
Qed.
(** With a zero-sized target the first write aborts. *)
Lemma slice_abort v lo hi : lo < hi -> hi <= length v ->
  for_ lo hi (fun j t => let* x := v_at v j in v_set t (j - lo) x) (v_new 0) = Abort.
Proof.
  intros H1 H2. rewrite for_step by auto. rewrite v_at_ok by lia. cbn [bind].
  rewrite v_set_out; [reflexivity|simpl; lia].
Qed.

Lemma p_slices v i j : i < length v -> j < length v -> i <= j ->
  v_left (length v) v i = Ok (firstn (i + 1) v ++ repeat n0 (length v - (i + 1))) /\
  v_right (length v) v i = Ok (skipn i v ++ repeat n0 i) /\
  (forall e, i < e -> e <= length v ->
     v_mid (length v) v i e = Ok (firstn (e - i) (skipn i v) ++ repeat n0 (length v - (e - i)))).
Proof.
  intros Hi Hj Hij. repeat split.
  - unfold v_left, v_size. bdec.
    replace (for_ 0 (i + 1) _ _) with (for_ 0 (i + 1) (fun j t => let* x := v_at v j in v_set t (j - 0) x) (v_new (length v))).
    + rewrite slice_loop by lia. now rewrite Nat.sub_0_r.
    + unfold for_. apply for_n_ext. intros k t _. now rewrite Nat.sub_0_r.
  - unfold v_right, v_size. bdec. rewrite slice_loop by lia. f_equal.
    rewrite firstn_all2 by (rewrite skipn_length; lia). f_equal. f_equal. lia.
  - intros e H1 H2. unfold v_mid, v_size. bdec. rewrite Nat.min_l by lia. apply slice_loop; lia.
Qed.

Lemma p_slices_dynamic v i : i < length v ->
  v_left 0 v i = Abort /\ v_right 0 v i = Abort /\ (forall e, i < e -> v_mid 0 v i e = Abort).
Proof.
  intros Hi. repeat split.
  - unfold v_left, v_size. bdec.
    replace (for_ 0 (i + 1) _ _) with (for_ 0 (i + 1) (fun j t => let* x := v_at v j in v_set t (j - 0) x) (v_new 0)).
    + apply slice_abort; lia.
    + unfold for_. apply for_n_ext. intros k t _. now rewrite Nat.sub_0_r.
  - unfold v_right, v_size. bdec. apply slice_abort; lia.
  - intros e H1. unfold v_mid, v_size. bdec. apply slice_abort; lia.
Qed.

Lemma p_has v i e (x : N) : v_has v i e x = Ok (existsb (fun y => neqb y x) (firstn (e - i) (skipn i v))).
Proof.
  unfold v_has, v_size.
  assert (H : forall n k, k + n <= length v -> v_has_loop n k v x = Ok (existsb (fun y => neqb y x) (firstn n (skipn k v)))).
  { induction n as [|n IH]; intros k Hk; cbn [v_has_loop]; auto. rewrite v_at_ok by lia. cbn [bind].
    rewrite IH by lia. destruct (skipn k v) as [|y t] eqn:E.
    - apply (f_equal (@length N)) in E. rewrite skipn_length in E. simpl in E. lia.
    - assert (nth k v n0 = y) as ->.
      { replace (nth k v n0) with (nth 0 (skipn k v) n0) by (rewrite nth_skipn'; f_equal; lia). now rewrite E. }
      rewrite (skipn_step _ _ _ _ E). cbn [firstn existsb]. destruct (neqb y x); reflexivity. }
  destruct (le_lt_dec (length v) i).
  - rewrite skipn_all2 by lia. rewrite firstn_nil. replace (Nat.min e (length v) - i) with 0 by lia. reflexivity.
  - destruct (le_lt_dec e (length v)).
    + rewrite Nat.min_l by lia. destruct (le_lt_dec e i).
      * replace (e - i) with 0 by lia. reflexivity.
      * apply H. lia.
    + rewrite Nat.min_r by lia. rewrite H by lia. f_equal. f_equal.
      rewrite !firstn_all2; auto; rewrite skipn_length; lia.
Qed.

(** Aliased scalars *)
Lemma p_alias op v k : k < length v ->
  v_scalar_alias op v k = Ok (map (fun j => op (nth j v n0)
     (if j <=? k then nth k v n0 else op (nth k v n0) (nth k v n0))) (seq 0 (length v))).
Proof. apply scalar_alias_ok. Qed.
Lemma p_alias_last op v : v <> [] ->
  v_scalar_alias op v (length v - 1) = Ok (map (fun x => op x (nth (length v - 1) v n0)) v).
Proof.
  intros H. assert (0 < length v) by (destruct v; simpl; [congruence|lia]). rewrite p_alias by lia. f_equal.
  rewrite <- map_seq_self. apply map_ext_in. intros j Hj. apply in_seq in Hj. bdec. reflexivity.
Qed.
Lemma p_div_alias v k : k < length v ->
  v_scalar_div_alias v k = Ok (map (fun x => (x * (n1 / nth k v n0))%num) v).
Proof.
  intros H. unfold v_scalar_div_alias. rewrite (vget_ok v k n0) by auto. cbn [bind].
  unfold v_scalar_div. now rewrite scalar_ok.
Qed.

(** resize, swap, == *)
Lemma p_swap v w : exists v' w', v_swap v w = (v', w') /\
  v_size v' = length w /\ v_size w' = length v /\
  (forall i, i < length w -> v_at v' i = Ok (nth i w n0)) /\
  (forall i, i < length v -> v_at w' i = Ok (nth i v n0)).
Proof.
  exists w, v. split; [reflexivity|]. split; [reflexivity|]. split; [reflexivity|].
  split; intros i Hi; now apply v_at_ok.
Qed.

Lemma p_resize v n :
  length (v_resize v n) = n /\
  (forall i, i < n -> nth i (v_resize v n) n0 = nth i v n0) /\
  (forall i, i < n -> length v <= i -> nth i (v_resize v n) n0 = n0).
Proof.
  unfold v_resize. assert (Hn : forall i, i < n -> nth i (firstn n v ++ repeat n0 (n - length v)) n0 = nth i v n0).
  { intros i Hi. destruct (lt_dec i (length v)).
    - rewrite app_nth1 by (rewrite firstn_length; lia).
      rewrite <- (firstn_skipn n v) at 2. rewrite app_nth1; auto. rewrite firstn_length. lia.
    - rewrite app_nth2 by (rewrite firstn_length; lia). rewrite nth_repeat. symmetry. apply nth_overflow. lia. }
  split; [|split]; auto.
  - rewrite app_length, firstn_length, repeat_length. lia.
  - intros i Hi Hl. rewrite Hn by auto. apply nth_overflow. lia.
Qed.
Lemma p_eq v w : length v = length w ->
  exists r, v_eq v w = Ok r /\ v_ne v w = Ok (negb r) /\
  (r = true <-> forall i, i < length v -> neqb (nth i v n0) (nth i w n0) = true).
Proof.
  intros H.
  assert (HL : forall n k, k + n = length v -> exists r, v_eq_loop n k v w = Ok r /\
    (r = true <-> forall i, k <= i < length v -> neqb (nth i v n0) (nth i w n0) = true)).
  { induction n as [|n IH]; intros k Hk; cbn [v_eq_loop].
    - exists true. split; auto. split; auto. intros _ i Hi. lia.
    - rewrite !v_at_ok by lia. cbn [bind]. destruct (neqb (nth k v n0) (nth k w n0)) eqn:E; cbn [negb].
      + destruct (IH (S k)) as (r & E1 & E2); [lia|]. exists r. split; auto. rewrite E2. split; intros Hh i Hi.
        * destruct (Nat.eq_dec i k) as [->|]; auto. apply Hh. lia.
        * apply Hh. lia.
      + exists false. split; auto. split; [discriminate|]. intros Hh. rewrite Hh in E by lia. discriminate. }
  destruct (HL (length v) 0) as (r & E1 & E2); [lia|]. exists r.
  unfold v_ne, v_eq, v_size. bdec. rewrite E1. split; [|split]; auto. rewrite E2. split; intros Hh i Hi; apply Hh; lia.
Qed.

(** construction, iteration *)
Lemma fill_loop l : forall i v, i + length l <= length v ->
  foreach l (fun x st => let '(i, v) := st in let* v' := v_set v i x in Ok (S i, v')) (i, v)
  = Ok (i + length l, firstn i v ++ l ++ skipn (i + length l) v).
Proof.
  induction l as [|x l IH]; intros i v Hl; cbn [foreach length] in *.
  - cbn [app]. rewrite Nat.add_0_r, firstn_skipn. reflexivity.
  - rewrite v_set_ok by lia. cbn [bind]. rewrite IH by (rewrite upd_length; lia). f_equal. f_equal; [lia|].
    apply (list_eq_nth _ _ n0).
    + rewrite !app_length, !firstn_length, !skipn_length, !upd_length. cbn [length]. lia.
    + intros j Hj. rewrite !app_length, !firstn_length, !skipn_length, !upd_length in Hj.
      assert (Hf : forall a u, a <= length u -> forall t k, nth k (firstn a u ++ t) n0 = if k <? a then nth k u n0 else nth (k - a) t n0).
      { intros a u Ha t k. destruct (Nat.ltb_spec k a).
        - rewrite app_nth1 by (rewrite firstn_length; lia). rewrite <- (firstn_skipn a u) at 2.
          rewrite app_nth1; auto. rewrite firstn_length. lia.
        - rewrite app_nth2 by (rewrite firstn_length; lia). rewrite firstn_length. f_equal. lia. }
      rewrite !Hf by (rewrite ?upd_length; lia). destruct (lt_dec j i).
      * bdec. now rewrite nth_upd_ne by lia.
      * destruct (Nat.eq_dec j i) as [->|].
        -- bdec. rewrite nth_upd_eq by lia. now rewrite Nat.sub_diag.
        -- bdec. replace (j - i) with (S (j - S i)) by lia. cbn [nth app].
           destruct (lt_dec (j - S i) (length l)).
           ++ rewrite !app_nth1 by auto. reflexivity.
           ++ rewrite !app_nth2 by lia. rewrite !nth_skipn'. rewrite nth_upd_ne by lia. f_equal. lia.
Qed.
Lemma fill_abort l : forall i v, i <= length v -> length v < i + length l ->
  foreach l (fun x st => let '(i, v) := st in let* v' := v_set v i x in Ok (S i, v')) (i, v) = Abort.
Proof.
  induction l as [|x l IH]; intros i v H1 H2; cbn [foreach length] in *; [lia|].
  destruct (Nat.eq_dec i (length v)) as [->|].
  - now rewrite v_set_out by lia.
  - rewrite v_set_ok by lia. cbn [bind]. apply IH; rewrite upd_length; lia.
Qed.
Lemma p_of_list l n :
  v_of_list_dyn l = Ok l /\
  (length l <= n -> v_of_list_fixed n l = Ok (l ++ repeat n0 (n - length l))) /\
  (n < length l -> v_of_list_fixed n l = Abort).
Proof.
  assert (H : forall m, length l <= m -> v_fill_from l (v_new m) = Ok (l ++ repeat n0 (m - length l))).
  { intros m Hm. unfold v_fill_from, v_new. rewrite fill_loop by (rewrite repeat_length; lia). cbn [bind snd firstn app].
    f_equal. f_equal. simpl. clear. revert m. induction (length l) as [|k IH]; intros m; simpl.
    - now rewrite Nat.sub_0_r.
    - destruct m; simpl; auto. }
  split; [|split].
  - unfold v_of_list_dyn. rewrite H by lia. now rewrite Nat.sub_diag, app_nil_r.
  - intros; now apply H.
  - intros Hn. unfold v_of_list_fixed, v_fill_from, v_new. rewrite fill_abort; auto; simpl; rewrite ?repeat_length; lia.
Qed.

Lemma p_iterate St (v : list N) (f : N -> St -> res St) s : v_iterate v f s = foreach v f s.
Proof. apply iterate_ok. Qed.
Lemma p_access v i x :
  (i < length v -> v_at v i = Ok (nth i v n0) /\
     exists w, v_set v i x = Ok w /\ length w = length v /\ nth i w n0 = x /\ forall j, j <> i -> nth j w n0 = nth j v n0) /\
  (length v <= i -> v_at v i = Abort /\ v_set v i x = Abort).
Proof.
  split; intros H.
  - split; [now apply v_at_ok|]. exists (upd v i x). rewrite v_set_ok by auto. repeat split.
    + apply upd_length.
    + now apply nth_upd_eq.
    + intros. now apply nth_upd_ne.
  - split; [now apply v_at_out|now apply v_set_out].
Qed.
Lemma p_agg v :
  v_sum v = Ok (bigsum (length v) (fun i => nth i v n0)) /\
  v_avg v = Ok (bigsum (length v) (fun i => nth i v n0) / nofnat (length v))%num /\
  (forall f, v_fill v f = Ok (repeat f (length v))) /\
  v_recip v = Ok (map (fun x => (n1 / x)%num) v) /\
  v_hasNaN v = existsb nisnan v /\ v_hasInf v = existsb nisinf v /\ v_hasZero v = existsb (@is0 N) v.
Proof.
  unfold v_avg. rewrite sum_bigsum. repeat split; intros; try apply any_ok; [apply fill_ok|apply recip_ok].
Qed.
End Any.

Section Field.
Variable N : Num.
Hypothesis HF : FieldLaws N.
Add Field nf_vec : (fl_field N HF).
Implicit Types (u v w : list N).
Open Scope num_scope.

Lemma p_scalar_field v (f : N) :
  (f <> n0 -> v_divs v f = Ok (map (fun x => x / f) v)) /\
  v_neg v = Ok (map (fun x => - x) v) /\
  v_rsub f v = Ok (map (fun x => f - x) v) /\
  ((forall x, In x v -> x <> n0) -> v_rdiv f v = Ok (map (fun x => f / x) v)).
Proof.
  destruct (p_scalar N v f) as (_ & _ & _ & E1 & E2 & E3 & E4). rewrite E1, E2, E3, E4.
  repeat split; intros; f_equal; apply map_ext_in; intros x Hx; try ring; field; auto.
Qed.
Lemma p_dot_sym v w : v_dot v w = v_dot w v.
Proof.
  destruct (Nat.eq_dec (length v) (length w)) as [H|H].
  - rewrite !dot_ok by auto. rewrite H. f_equal. apply bigsum_ext. intros; ring.
  - rewrite !dot_mismatch by auto. reflexivity.
Qed.
Lemma p_dot_linear u v w (c : N) x y : length u = length v -> length v = length w ->
  v_dot u w = Ok x -> v_dot v w = Ok y ->
  (let* s := v_add u v in v_dot s w)%res = Ok (x + y) /\ (let* s := v_scale u c in v_dot s w)%res = Ok (c * x).
Proof.
  intros H1 H2. rewrite !dot_ok by congruence. intros E1 E2. injection E1 as <-. injection E2 as <-.
  unfold v_add, v_add_eq, v_scale. rewrite inplace_ok, scalar_ok by auto. cbn [bind].
  rewrite !dot_ok by (rewrite ?zip_length, ?map_length; congruence). rewrite zip_length, map_length by auto. split; f_equal.
  - rewrite <- H1. rewrite <- bigsum_plus by auto. apply bigsum_ext. intros i Hi.
    rewrite map_zip_nth by auto. ring.
  - rewrite <- bigsum_mul_l by auto. apply bigsum_ext. intros i Hi.
    rewrite nth_indep with (d' := n0 * c) by (rewrite map_length; auto).
    rewrite (map_nth (fun z => z * c)). ring.
Qed.
End Field.

Section Ord.
Variable N : Num.
Hypothesis HO : OrdFieldLaws N.
Let HF := of_field N HO.
Add Field nf_vec2 : (fl_field N HF).
Implicit Types (u v w : list N).
Open Scope num_scope.

Lemma p_max v : (exists x, In x v /\ nleb nminpos x = true) -> exists m, v_max v = Ok m /\ largest v m.
Proof.
  intros (x & Hx & Hp). rewrite max_ok. eexists; split; [reflexivity|].
  destruct (fold_max_spec HO v nminpos) as (H1 & H2 & H3). split; auto. destruct H3 as [H3|H3]; auto.
  assert (E : fold_left (fun s l => if nltb s l then l else s) v nminpos = x).
  { apply (of_le_antisym N HO); auto. rewrite H3. exact Hp. }
  now rewrite E.
Qed.
Lemma p_min v : (exists x, In x v /\ nleb x nmax = true) -> exists m, v_min v = Ok m /\ smallest v m.
Proof.
  intros (x & Hx & Hp). rewrite min_ok. eexists; split; [reflexivity|].
  destruct (fold_min_spec HO v nmax) as (H1 & H2 & H3). split; auto. destruct H3 as [H3|H3]; auto.
  assert (E : fold_left (fun s l => if nltb l s then l else s) v nmax = x).
  { apply (of_le_antisym N HO); auto. rewrite H3. exact Hp. }
  now rewrite E.
Qed.

Lemma p_max_exact v : exists m, v_max v = Ok m /\ largest (nminpos :: v) m.
Proof.
  rewrite max_ok. eexists; split; [reflexivity|]. destruct (fold_max_spec HO v nminpos) as (H1 & H2 & H3).
  split; [destruct H3 as [->|H3]; [now left|now right]|]. intros y [<-|Hy]; auto.
Qed.
Lemma p_min_exact v : exists m, v_min v = Ok m /\ smallest (nmax :: v) m.
Proof.
  rewrite min_ok. eexists; split; [reflexivity|]. destruct (fold_min_spec HO v nmax) as (H1 & H2 & H3).
  split; [destruct H3 as [->|H3]; [now left|now right]|]. intros y [<-|Hy]; auto.
Qed.

Hypothesis HS : SqrtLaws N.
Lemma p_normalized v : (exists i, (i < length v)%nat /\ nth i v n0 <> n0) ->
  exists m w, v_mag v = Ok m /\ nltb n0 m = true /\
    m * m = bigsum (length v) (fun i => nth i v n0 * nth i v n0) /\
    v_normalized v = Ok w /\ w = map (fun x => x / m) v /\ v_mag w = Ok n1.
Proof.
  intros (k & Hk & Hn). set (S2 := bigsum (length v) (fun i => nth i v n0 * nth i v n0)).
  assert (Hpos : nltb n0 S2 = true).
  { apply (bigsum_pos_term HO) with k; auto.
    - intros; apply (ole_0_sqr HO).
    - now apply (olt_0_sqr HO). }
  assert (Hle : nleb n0 S2 = true) by now apply (olt_le HO).
  assert (Hs0 : nsqrt S2 <> n0).
  { intros E. pose proof (sq_sqr N HS _ Hle) as Hq. rewrite E in Hq. apply (olt_ne HO) in Hpos. apply Hpos.
    rewrite <- Hq. ring. }
  assert (Hsp : nltb n0 (nsqrt S2) = true).
  { apply (olt_iff_ne HO). split; [now apply (sq_nonneg N HS)|auto]. }
  exists (nsqrt S2), (map (fun x => x / nsqrt S2) v).
  destruct (p_dot N v v eq_refl) as (_ & _ & Em). fold S2 in Em. split; auto. split; auto.
  split; [now apply (sq_sqr N HS)|]. split; [|split; auto].
  - unfold v_normalized. rewrite Em. cbn [bind]. destruct (p_scalar_field N HF v (nsqrt S2)) as (E & _). auto.
  - destruct (p_dot N (map (fun x => x / nsqrt S2) v) (map (fun x => x / nsqrt S2) v) eq_refl) as (_ & _ & ->).
    f_equal. rewrite map_length.
    assert (E1 : bigsum (length v) (fun i => nth i (map (fun x => x / nsqrt S2) v) n0 * nth i (map (fun x => x / nsqrt S2) v) n0) = n1).
    { transitivity (bigsum (length v) (fun i => (n1 / nsqrt S2 * (n1 / nsqrt S2)) * (nth i v n0 * nth i v n0))).
      - apply bigsum_ext. intros i Hi. rewrite nth_indep with (d' := n0 / nsqrt S2) by (rewrite map_length; auto).
        rewrite (map_nth (fun x => x / nsqrt S2)). field. auto.
      - rewrite bigsum_mul_l by auto. fold S2. rewrite <- (sq_sqr N HS S2 Hle) at 3. field. auto. }
    rewrite E1. assert (H1 : nleb (@n0 N) n1 = true) by apply (olt_le HO), (olt_0_1 HO).
    apply (nonneg_sqr_inj HO); auto; [now apply (sq_nonneg N HS)|]. rewrite (sq_sqr N HS) by auto. ring.
Qed.
End Ord.
