(** Iteration over the CRS storage: every loop of SparseModel.v as a fold over a list of entries. *)
From Coq Require Import List Arith Lia Bool Sorted.
From Verif Require Import Base BaseProofs Num VectorModel SparseModel SparseProofs.
Import ListNotations.
Open Scope res_scope.

Section SparseIter.
Context {N : Num}.
Hypothesis Hz : zero_refl N.
Notation row := (list (nat * N)).
Implicit Types R : list row.
Implicit Types r ra rb : row.
Implicit Types m : smat N.
Implicit Types v w : N.

(** ** Lists of iterators and of entries *)
Fixpoint row_iters (i p : nat) (r : row) : list sit :=
  match r with [] => [] | (c, _) :: r' => mkI i c p :: row_iters i (S p) r' end.
Fixpoint iters (i p : nat) (R : list row) : list sit :=
  match R with [] => [] | r :: R' => row_iters i p r ++ iters (S i) (p + length r) R' end.
Definition row_ents (i : nat) (r : row) : list (nat * nat * N) := map (fun cv => (i, fst cv, snd cv)) r.
Fixpoint ents (i : nat) (R : list row) : list (nat * nat * N) :=
  match R with [] => [] | r :: R' => row_ents i r ++ ents (S i) R' end.

(** What remains after entry (R1, ra, x): the rest of its row and the rows below. *)
Definition rest (i p : nat) (rb : row) (R2 : list row) : list sit :=
  row_iters i p rb ++ iters (S i) (p + length rb) R2.

(** [pos R x v l]: x designates a stored entry of value v and l are the entries after it. *)
Definition pos (R : list row) (x : sit) (v : N) (l : list sit) : Prop :=
  exists R1 ra c rb R2, R = R1 ++ (ra ++ (c, v) :: rb) :: R2 /\
    x = mkI (length R1) c (length (concat R1) + length ra) /\
    l = rest (length R1) (length (concat R1) + length ra + 1) rb R2.

Lemma iters_nil k i p : iters i p (repeat [] k) = [].
Proof. revert i p; induction k as [|k IH]; intros; simpl; auto. Qed.

Lemma iters_cases R2 : forall i p,
  (iters i p R2 = [] /\ R2 = repeat [] (length R2)) \/
  (exists k c v rb R3, R2 = repeat [] k ++ ((c, v) :: rb) :: R3 /\
     iters i p R2 = mkI (i + k) c p :: rest (i + k) (p + 1) rb R3).
Proof.
  induction R2 as [|r R2 IH]; intros i p.
  - left. auto.
  - destruct r as [|(c, v) rb].
    + simpl. rewrite Nat.add_0_r. destruct (IH (S i) p) as [[H1 H2]|(k & c & v & rb & R3 & H1 & H2)].
      * left. split; auto. now rewrite H2 at 1.
      * right. exists (S k), c, v, rb, R3. split.
        -- simpl. now rewrite H1.
        -- rewrite H2. replace (S i + k) with (i + S k) by lia. reflexivity.
    + right. exists 0, c, v, rb, R2. split; auto. simpl. unfold rest.
      rewrite !Nat.add_0_r. replace (p + 1) with (S p) by lia.
      replace (p + S (length rb)) with (S p + length rb) by lia. reflexivity.
Qed.

Lemma length_concat_nil {A} k : length (concat (repeat (@nil A) k)) = 0.
Proof. now rewrite concat_nil. Qed.

Lemma concat_snoc_nil R1 (r : row) k : length (concat (R1 ++ r :: repeat [] k)) = length (concat R1) + length r.
Proof. rewrite concat_mid, !app_length, length_concat_nil. lia. Qed.

Lemma pos_first R x l : iters 0 0 R = x :: l -> exists v, pos R x v l.
Proof.
  destruct (iters_cases R 0 0) as [[H _]|(k & c & v & rb & R3 & H1 & H2)].
  - rewrite H. discriminate.
  - rewrite H2. intros [= <- <-]. exists v, (repeat [] k), [], c, rb, R3.
    rewrite repeat_length, length_concat_nil. simpl. auto.
Qed.

Lemma pos_next R x v y l : pos R x v (y :: l) -> exists w, pos R y w l.
Proof.
  intros (R1 & ra & c & rb & R2 & -> & -> & Hl). unfold rest in Hl.
  destruct rb as [|(c', v') rb]; simpl in Hl.
  - destruct (iters_cases R2 (S (length R1)) (length (concat R1) + length ra + 1 + 0))
      as [[H _]|(k & c' & v' & rb' & R3 & H1 & H2)].
    + rewrite H in Hl. discriminate.
    + rewrite H2 in Hl. injection Hl as -> ->. subst R2.
      exists v', (R1 ++ (ra ++ [(c, v)]) :: repeat [] k), [], c', rb', R3. split; [|split].
      * rewrite <- app_assoc. reflexivity.
      * rewrite app_length. simpl. rewrite repeat_length, concat_snoc_nil, app_length. simpl.
        f_equal; lia.
      * rewrite app_length. simpl. rewrite repeat_length, concat_snoc_nil, app_length. simpl.
        f_equal; lia.
  - injection Hl as -> ->. exists v', R1, (ra ++ [(c, v)]), c', rb, R2. split; [|split].
    + rewrite <- app_assoc. reflexivity.
    + rewrite app_length; simpl. f_equal; lia.
    + rewrite app_length; simpl. unfold rest. f_equal; [f_equal; lia|]. f_equal; lia.
Qed.

Lemma pos_in R x v l cn : rows_ok cn R -> pos R x v l -> it1 x < length R /\ it2 x < cn.
Proof.
  intros HR (R1 & ra & c & rb & R2 & -> & -> & Hl). simpl. rewrite app_length; simpl. split; [lia|].
  apply rows_ok_mid in HR. destruct HR as [_ Hf]. rewrite map_app, Forall_app in Hf.
  destruct Hf as [_ Hf]. now inversion Hf.
Qed.

Lemma pos_valid R x v l cn : rows_ok cn R -> pos R x v l -> it_valid (crs R cn) x = true.
Proof.
  intros HR Hp. destruct (pos_in _ _ _ _ _ HR Hp) as [H1 H2].
  unfold it_valid. rewrite rows_crs, cols_crs. apply andb_true_iff. split; now apply Nat.ltb_lt.
Qed.

Lemma pos_get R x v l cn : rows_ok cn R -> pos R x v l -> it_get (crs R cn) x = Ok v.
Proof.
  intros HR Hp. unfold it_get. rewrite (pos_valid _ _ _ _ _ HR Hp).
  destruct Hp as (R1 & ra & c & rb & R2 & -> & -> & Hl). simpl.
  rewrite concat_mid, <- app_assoc, app_assoc. simpl. erewrite vget_map_mid; [reflexivity|].
  now rewrite app_length.
Qed.

Definition end_at (R : list row) (cn p : nat) : sit := mkI (length R) cn p.

Lemma it_eq_end (R : list row) cn it : it_valid (crs R cn) it = false ->
  forall p, it_eq (crs R cn) it (mkI (length R) cn p) = true.
Proof.
  intros H p. unfold it_eq. rewrite H. unfold it_valid. rewrite rows_crs. simpl.
  rewrite Nat.ltb_irrefl. reflexivity.
Qed.
Lemma it_ne_end (R : list row) cn it : it_valid (crs R cn) it = true ->
  forall p, it_eq (crs R cn) it (mkI (length R) cn p) = false.
Proof.
  intros H p. unfold it_eq. rewrite H. simpl. unfold it_valid in H. rewrite rows_crs, cols_crs in H.
  apply andb_true_iff in H as [H1 H2]. apply Nat.ltb_lt in H1, H2.
  apply andb_false_iff. left. apply Nat.eqb_neq. simpl. lia.
Qed.
Lemma end_invalid (R : list row) cn p : it_valid (crs R cn) (mkI (length R) cn p) = false.
Proof. unfold it_valid. rewrite rows_crs. simpl. now rewrite Nat.ltb_irrefl. Qed.
Lemma s_end_crs (R : list row) cn : s_end (crs R cn) = Ok (mkI (length R) cn 0).
Proof. unfold s_end, it_make. rewrite rows_crs, cols_crs. now rewrite end_invalid. Qed.

(** ** operator++ *)
Lemma it_inc_row_gt m p : forall n s1 cur a,
  n <> 0 -> vget (srp m) s1 = Ok a -> p < a -> @it_inc_row N n m p s1 cur = Ok cur.
Proof.
  intros n s1 cur a Hn Ha Hp. destruct n; [lia|]. simpl. rewrite Ha. cbn [bind].
  bdec. reflexivity.
Qed.

Lemma it_inc_row_skip cn c (v : N) rb : forall k (R1 R3 : list row) p cur,
  p = length (concat R1) ->
  it_inc_row (k + S (length R3)) (crs (R1 ++ repeat [] k ++ ((c, v) :: rb) :: R3) cn) p (length R1) cur
  = Ok (length R1 + k).
Proof.
  induction k as [|k IH]; intros R1 R3 p cur Hp; cbn [repeat app Nat.add it_inc_row].
  - rewrite srp_at. cbn [bind]. rewrite Hp, Nat.eqb_refl.
    rewrite Nat.add_0_r. destruct R3 as [|r3 R3]; [reflexivity|].
    replace (R1 ++ ((c, v) :: rb) :: r3 :: R3) with ((R1 ++ [(c, v) :: rb]) ++ r3 :: R3)
      by now rewrite <- app_assoc.
    eapply it_inc_row_gt with (a := length (concat (R1 ++ [(c, v) :: rb]))).
    + simpl; lia.
    + replace (length R1 + 1) with (length (R1 ++ [(c, v) :: rb])) by (rewrite app_length; simpl; lia).
      apply srp_at.
    + rewrite concat_app, app_length. simpl. lia.
  - rewrite srp_at. cbn [bind]. rewrite Hp, Nat.eqb_refl.
    replace (R1 ++ [] :: repeat [] k ++ ((c, v) :: rb) :: R3)
      with ((R1 ++ [[]]) ++ repeat [] k ++ ((c, v) :: rb) :: R3) by now rewrite <- app_assoc.
    replace (length R1 + 1) with (length (R1 ++ [@nil (nat * N)])) by (rewrite app_length; simpl; lia).
    rewrite IH.
    + f_equal. rewrite app_length; simpl; lia.
    + rewrite concat_app, app_length; simpl. lia.
Qed.

(** first step of the row search: the row of the current entry *)
Lemma it_inc_row_first cn R1 (r : row) R2 p cur n :
  length (concat R1) < p ->
  it_inc_row (S n) (crs (R1 ++ r :: R2) cn) p (length R1) cur
  = it_inc_row n (crs (R1 ++ r :: R2) cn) p (length R1 + 1) cur.
Proof.
  intros Hp. cbn [it_inc_row]. rewrite srp_at. cbn [bind]. now bdec.
Qed.

Lemma sc_len R cn : length (sc (crs R cn)) = length (concat R).
Proof. simpl. apply map_length. Qed.

Lemma sc_at R1 ra c v rb R2 cn n : n = length (concat R1) + length ra ->
  vget (sc (crs (R1 ++ (ra ++ (c, v) :: rb) :: R2) cn)) n = Ok c.
Proof.
  intros ->. simpl. rewrite concat_mid, <- app_assoc, app_assoc. simpl.
  erewrite vget_map_mid; [reflexivity|]. now rewrite app_length.
Qed.

Lemma pos_inc R x v l cn : rows_ok cn R -> pos R x v l ->
  exists p, it_inc (crs R cn) x = Ok (hd (mkI (length R) cn p) l).
Proof.
  intros HR Hp. unfold it_inc. rewrite (pos_valid _ _ _ _ _ HR Hp).
  destruct Hp as (R1 & ra & c & rb & R2 & -> & -> & ->). cbn [itp it1 it2].
  set (p := length (concat R1) + length ra + 1).
  rewrite sc_len, rows_crs, cols_crs.
  destruct rb as [|(c', v') rb].
  - unfold rest. simpl row_iters. cbn [app].
    destruct (iters_cases R2 (S (length R1)) (p + length (@nil (nat * N))))
      as [[H1 H2]|(k & c' & v' & rb' & R3 & H1 & H2)].
    + exists p. rewrite H1. cbn [hd]. rewrite H2.
      replace (length (concat (R1 ++ (ra ++ [(c, v)]) :: repeat [] (length R2))) <=? p) with true.
      * reflexivity.
      * symmetry. apply Nat.leb_le. rewrite concat_snoc_nil, app_length. simpl. lia.
    + exists 0. rewrite H2. cbn [hd]. subst R2. rewrite Nat.add_0_r in *.
      set (R1' := R1 ++ [ra ++ [(c, v)]]).
      assert (HL : length (concat R1') = p).
      { unfold R1'. rewrite concat_app, app_length. simpl. rewrite app_nil_r, app_length. simpl. lia. }
      assert (HR' : R1 ++ (ra ++ [(c, v)]) :: repeat [] k ++ ((c', v') :: rb') :: R3
                    = R1' ++ repeat [] k ++ ((c', v') :: rb') :: R3).
      { unfold R1'. now rewrite <- app_assoc. }
      replace (length (concat (R1 ++ (ra ++ [(c, v)]) :: repeat [] k ++ ((c', v') :: rb') :: R3)) <=? p)
        with false.
      2: { symmetry. apply Nat.leb_gt. rewrite HR'. rewrite !concat_app, !app_length, HL. simpl. lia. }
      rewrite HR' at 1.
      replace (R1' ++ repeat [] k ++ ((c', v') :: rb') :: R3)
        with ((R1' ++ repeat [] k) ++ ([] ++ (c', v') :: rb') :: R3) by now rewrite <- app_assoc.
      rewrite sc_at.
      2: { rewrite concat_app, app_length, length_concat_nil, HL. simpl; lia. }
      cbn [bind].
      rewrite app_length. simpl length.
      rewrite app_length, repeat_length. simpl length.
      replace (length R1 + S (k + S (length R3)) - length R1) with (S (k + S (length R3))) by lia.
      rewrite it_inc_row_first by (unfold p; lia).
      rewrite HR'.
      replace (length R1 + 1) with (length R1') by (unfold R1'; rewrite app_length; simpl; lia).
      rewrite it_inc_row_skip by lia. cbn [bind]. f_equal. f_equal.
      unfold R1'. rewrite app_length. simpl. lia.
  - exists 0. unfold rest. cbn [row_iters app hd].
    replace (length (concat (R1 ++ (ra ++ (c, v) :: (c', v') :: rb) :: R2)) <=? p) with false.
    2: { symmetry. apply Nat.leb_gt. rewrite concat_mid, !app_length. simpl. unfold p. lia. }
    replace (ra ++ (c, v) :: (c', v') :: rb) with ((ra ++ [(c, v)]) ++ (c', v') :: rb)
      by now rewrite <- app_assoc.
    rewrite sc_at by (rewrite app_length; simpl; unfold p; lia). cbn [bind].
    rewrite app_length. simpl length.
    replace (length R1 + S (length R2) - length R1) with (S (length R2)) by lia.
    rewrite it_inc_row_first by (unfold p; lia).
    destruct R2 as [|r2 R2]; [reflexivity|].
    replace (R1 ++ ((ra ++ [(c, v)]) ++ (c', v') :: rb) :: r2 :: R2)
      with ((R1 ++ [(ra ++ [(c, v)]) ++ (c', v') :: rb]) ++ r2 :: R2) by now rewrite <- app_assoc.
    erewrite it_inc_row_gt; [reflexivity|simpl; lia| |].
    + replace (length R1 + 1) with (length (R1 ++ [(ra ++ [(c, v)]) ++ (c', v') :: rb]))
        by (rewrite app_length; simpl; lia).
      apply srp_at.
    + rewrite concat_app, app_length. simpl. rewrite !app_length. simpl. unfold p. lia.
Qed.

(** ** The whole-matrix loop *)
Definition at_list (R : list row) (cn : nat) (it : sit) (l : list sit) : Prop :=
  match l with
  | [] => it_valid (crs R cn) it = false
  | x :: l' => it = x /\ exists v, pos R x v l'
  end.

Lemma at_list_next R cn x v l p : pos R x v l -> at_list R cn (hd (mkI (length R) cn p) l) l.
Proof.
  intros Hp. destruct l as [|y l]; simpl.
  - apply end_invalid.
  - split; auto. now apply pos_next in Hp.
Qed.

Lemma loop_list {St} R cn (f : sit -> St -> res St) (HR : rows_ok cn R) : forall l fuel it s,
  at_list R cn it l -> length l < fuel ->
  it_loop fuel (crs R cn) it_inc it f s = foreach l f s.
Proof.
  induction l as [|x l IH]; intros fuel it s Hit Hf; (destruct fuel as [|fuel]; [simpl in Hf; lia|]);
    cbn [it_loop foreach]; rewrite s_end_crs; cbn [bind]; simpl in Hit.
  - rewrite it_eq_end by auto. reflexivity.
  - destruct Hit as [-> (v & Hp)]. rewrite it_ne_end by (eapply pos_valid; eauto). cbn [negb].
    destruct (f x s); cbn [bind]; auto.
    destruct (pos_inc R x v l cn HR Hp) as (p & ->). cbn [bind].
    apply IH; [eapply at_list_next; eauto | simpl in Hf; lia].
Qed.

Lemma row_iters_length r : forall i p, length (row_iters i p r) = length r.
Proof. induction r as [|(c, v) r IH]; intros; simpl; auto. Qed.
Lemma iters_length R : forall i p, length (iters i p R) = length (concat R).
Proof. induction R as [|r R IH]; intros; simpl; auto. rewrite !app_length, row_iters_length. auto. Qed.

Lemma iters_empty R : iters 0 0 R = [] -> concat R = [].
Proof. intros H. apply length_zero_iff_nil. rewrite <- (iters_length R 0 0), H. reflexivity. Qed.

Lemma first_row cn c (v : N) rb : forall k (R1 R3 : list row) fuel,
  k < fuel ->
  s_first_row fuel (crs (R1 ++ repeat [] k ++ ((c, v) :: rb) :: R3) cn) (length R1)
  = Ok (length R1 + k, length (concat R1)).
Proof.
  induction k as [|k IH]; intros R1 R3 fuel Hf; (destruct fuel as [|fuel]; [lia|]); cbn [s_first_row repeat app].
  - rewrite rec_crs. cbn [bind length Nat.eqb andb]. now rewrite Nat.add_0_r.
  - rewrite rec_crs. cbn [bind length Nat.eqb andb]. rewrite rows_crs, app_length. simpl length.
    rewrite app_length. simpl length. bdec.
    replace (R1 ++ [] :: repeat [] k ++ ((c, v) :: rb) :: R3)
      with ((R1 ++ [[]]) ++ repeat [] k ++ ((c, v) :: rb) :: R3) by now rewrite <- app_assoc.
    replace (length R1 + 1) with (length (R1 ++ [@nil (nat * N)])) by (rewrite app_length; simpl; lia).
    rewrite IH by lia. rewrite app_length, concat_app, app_length. simpl. f_equal. f_equal; lia.
Qed.

Lemma make_pos R cn R1 ra c v rb R2 : R = R1 ++ (ra ++ (c, v) :: rb) :: R2 -> rows_ok cn R ->
  it_make (crs R cn) (length R1) c = Ok (mkI (length R1) c (length (concat R1) + length ra)).
Proof.
  intros -> HR. unfold it_make.
  assert (Hp : pos (R1 ++ (ra ++ (c, v) :: rb) :: R2) (mkI (length R1) c (length (concat R1) + length ra)) v
                   (rest (length R1) (length (concat R1) + length ra + 1) rb R2)).
  { exists R1, ra, c, rb, R2. auto. }
  pose proof (pos_valid _ _ _ _ _ HR Hp) as Hv. unfold it_valid in *. simpl in *. rewrite Hv.
  apply rows_ok_mid in HR. destruct HR as [Hs _].
  rewrite internal_at_found.
  - reflexivity.
  - rewrite map_app in Hs. simpl in Hs. clear - Hs.
    induction (map fst ra) as [|a l IH]; simpl in *; constructor.
    + inversion Hs as [|? ? Hs' Ha]; subst. rewrite Forall_app in Ha. destruct Ha as [_ Ha].
      now inversion Ha.
    + apply IH. now inversion Hs.
Qed.

Lemma begins_ok R cn : rows_ok cn R ->
  (exists it, s_cbegin (crs R cn) = Ok it /\ at_list R cn it (iters 0 0 R)) /\
  (exists it, s_begin (crs R cn) = Ok it /\ at_list R cn it (iters 0 0 R)).
Proof.
  intros HR. destruct (iters_cases R 0 0) as [[H1 H2]|(k & c & v & rb & R3 & H1 & H2)].
  - assert (He : s_empty (crs R cn) = true).
    { unfold s_empty. rewrite filled_crs. apply iters_empty in H1. now rewrite H1. }
    unfold s_cbegin, s_begin. rewrite He, H1, s_end_crs.
    split; (eexists; split; [reflexivity|]); simpl; apply end_invalid.
  - assert (He : s_empty (crs R cn) = false).
    { unfold s_empty. rewrite filled_crs, H1, concat_app, app_length. simpl. apply Nat.eqb_neq. lia. }
    assert (Hp : exists w, pos R (mkI (0 + k) c 0) w (rest (0 + k) (0 + 1) rb R3)).
    { apply pos_first. exact H2. }
    unfold s_cbegin, s_begin. rewrite He, H2, rows_crs.
    assert (Hlen : length R = k + S (length R3)).
    { rewrite H1, app_length, repeat_length. reflexivity. }
    assert (Hf : s_first_row (length R + 1) (crs R cn) 0 = Ok (k, 0)).
    { rewrite Hlen. rewrite H1. apply (first_row cn c v rb k [] R3). lia. }
    rewrite Hf. cbn [bind].
    replace (k =? length R) with false by (symmetry; apply Nat.eqb_neq; lia).
    assert (Hc : vget (sc (crs R cn)) 0 = Ok c).
    { rewrite H1. change ((c, v) :: rb) with ([] ++ (c, v) :: rb). apply sc_at.
      rewrite length_concat_nil. reflexivity. }
    rewrite Hc. cbn [bind].
    assert (Hm : it_make (crs R cn) k c = Ok (mkI k c 0)).
    { pose proof (make_pos R cn (repeat [] k) [] c v rb R3 H1 HR) as H.
      rewrite repeat_length, length_concat_nil in H. exact H. }
    rewrite Hm. split; (eexists; split; [reflexivity|]); simpl; split; auto.
Qed.

Lemma s_for_iters {St} R cn (f : sit -> St -> res St) s : rows_ok cn R ->
  s_for (crs R cn) f s = foreach (iters 0 0 R) f s.
Proof.
  intros HR. unfold s_for. destruct (begins_ok R cn HR) as [(it & -> & Hl) _]. cbn [bind].
  apply loop_list; auto. rewrite filled_crs, iters_length. lia.
Qed.

(** A loop body that reads the entry through the iterator. *)
Lemma foreach_get {St} R cn (g : nat -> nat -> N -> St -> res St) (HR : rows_ok cn R) :
  forall R2 R1, R = R1 ++ R2 -> forall s,
  foreach (iters (length R1) (length (concat R1)) R2)
    (fun it s => let* v := it_get (crs R cn) it in g (it1 it) (it2 it) v s) s
  = foreach (ents (length R1) R2) (fun e s => g (fst (fst e)) (snd (fst e)) (snd e) s) s.
Proof.
  induction R2 as [|r R2 IH]; intros R1 HRe s; [reflexivity|].
  cbn [iters ents]. rewrite !foreach_app.
  assert (Hrow : forall rb ra, r = ra ++ rb -> forall s,
    foreach (row_iters (length R1) (length (concat R1) + length ra) rb)
      (fun it s => let* v := it_get (crs R cn) it in g (it1 it) (it2 it) v s) s
    = foreach (row_ents (length R1) rb) (fun e s => g (fst (fst e)) (snd (fst e)) (snd e) s) s).
  { induction rb as [|(c, v) rb IHr]; intros ra Hr s'; [reflexivity|].
    cbn [row_iters row_ents map foreach fst snd].
    assert (Hp : pos R (mkI (length R1) c (length (concat R1) + length ra)) v
                     (rest (length R1) (length (concat R1) + length ra + 1) rb R2)).
    { exists R1, ra, c, rb, R2. subst r. auto. }
    rewrite (pos_get _ _ _ _ _ HR Hp). cbn [bind it1 it2].
    destruct (g (length R1) c v s'); cbn [bind]; auto.
    replace (S (length (concat R1) + length ra)) with (length (concat R1) + length (ra ++ [(c, v)]))
      by (rewrite app_length; simpl; lia).
    apply IHr. rewrite Hr, <- app_assoc. reflexivity. }
  pose proof (Hrow r [] eq_refl s) as Hr0. cbn [length] in Hr0. rewrite Nat.add_0_r in Hr0. rewrite Hr0.
  destruct (foreach (row_ents (length R1) r) _ s); cbn [bind]; auto.
  specialize (IH (R1 ++ [r])). rewrite app_length, concat_app, app_length in IH. simpl in IH.
  rewrite app_nil_r in IH. replace (length R1 + 1) with (S (length R1)) in IH by lia.
  apply IH. now rewrite <- app_assoc.
Qed.

Lemma s_for_ents {St} R cn (g : nat -> nat -> N -> St -> res St) s : rows_ok cn R ->
  s_for (crs R cn) (fun it s => let* v := it_get (crs R cn) it in g (it1 it) (it2 it) v s) s
  = foreach (ents 0 R) (fun e s => g (fst (fst e)) (snd (fst e)) (snd e) s) s.
Proof. intros HR. rewrite s_for_iters by auto. apply (foreach_get R cn g HR R []). reflexivity. Qed.

(** ** The row loop *)
Lemma foreach_row_get {St} R cn (g : nat -> nat -> N -> St -> res St) (HR : rows_ok cn R) :
  forall R1 r R2, R = R1 ++ r :: R2 -> forall rb ra, r = ra ++ rb -> forall s,
  foreach (row_iters (length R1) (length (concat R1) + length ra) rb)
    (fun it s => let* v := it_get (crs R cn) it in g (it1 it) (it2 it) v s) s
  = foreach (row_ents (length R1) rb) (fun e s => g (fst (fst e)) (snd (fst e)) (snd e) s) s.
Proof.
  intros R1 r R2 HRe. induction rb as [|(c, v) rb IHr]; intros ra Hr s'; [reflexivity|].
  cbn [row_iters row_ents map foreach fst snd].
  assert (Hp : pos R (mkI (length R1) c (length (concat R1) + length ra)) v
                   (rest (length R1) (length (concat R1) + length ra + 1) rb R2)).
  { exists R1, ra, c, rb, R2. subst r. auto. }
  rewrite (pos_get _ _ _ _ _ HR Hp). cbn [bind it1 it2].
  destruct (g (length R1) c v s'); cbn [bind]; auto.
  replace (S (length (concat R1) + length ra)) with (length (concat R1) + length (ra ++ [(c, v)]))
    by (rewrite app_length; simpl; lia).
  apply IHr. rewrite Hr, <- app_assoc. reflexivity.
Qed.

Lemma rit_inc_row R1 ra c v rb R2 cn : rows_ok cn (R1 ++ (ra ++ (c, v) :: rb) :: R2) ->
  exists p, rit_inc (crs (R1 ++ (ra ++ (c, v) :: rb) :: R2) cn)
                    (mkI (length R1) c (length (concat R1) + length ra))
  = Ok (hd (mkI (length (R1 ++ (ra ++ (c, v) :: rb) :: R2)) cn p)
           (row_iters (length R1) (length (concat R1) + length ra + 1) rb)).
Proof.
  intros HR.
  assert (Hp : pos (R1 ++ (ra ++ (c, v) :: rb) :: R2) (mkI (length R1) c (length (concat R1) + length ra)) v
                   (rest (length R1) (length (concat R1) + length ra + 1) rb R2)).
  { exists R1, ra, c, rb, R2. auto. }
  unfold rit_inc. rewrite (pos_valid _ _ _ _ _ HR Hp). cbn [itp it1 it2].
  rewrite sc_len, rows_crs, cols_crs.
  set (p := length (concat R1) + length ra + 1).
  exists p.
  assert (Hnext : forall r2 R3, R2 = r2 :: R3 ->
     vget (srp (crs (R1 ++ (ra ++ (c, v) :: rb) :: R2) cn)) (length R1 + 1)
     = Ok (p + length rb)).
  { intros r2 R3 ->.
    replace (R1 ++ (ra ++ (c, v) :: rb) :: r2 :: R3) with ((R1 ++ [ra ++ (c, v) :: rb]) ++ r2 :: R3)
      by now rewrite <- app_assoc.
    replace (length R1 + 1) with (length (R1 ++ [ra ++ (c, v) :: rb])) by (rewrite app_length; simpl; lia).
    rewrite srp_at. f_equal. rewrite concat_app, app_length. simpl. rewrite app_nil_r, app_length. simpl.
    unfold p. lia. }
  rewrite (app_length R1). simpl length.
  destruct rb as [|(c', v') rb].
  - cbn [row_iters hd].
    destruct (length (concat (R1 ++ (ra ++ [(c, v)]) :: R2)) <=? p) eqn:E; [reflexivity|].
    apply Nat.leb_gt in E. rewrite concat_mid, !app_length in E. simpl in E.
    destruct R2 as [|r2 R3]; [simpl in E; unfold p in E; lia|].
    assert (Hc : exists c', vget (sc (crs (R1 ++ (ra ++ [(c, v)]) :: r2 :: R3) cn)) p = Ok c').
    { eexists. apply (vget_ok _ _ 0). rewrite sc_len, concat_mid, !app_length. exact E. }
    destruct Hc as (c' & ->). cbn [bind]. simpl length.
    replace (length R1 =? length R1 + S (S (length R3)) - 1) with false by (symmetry; apply Nat.eqb_neq; lia).
    cbn [negb]. rewrite (Hnext r2 R3 eq_refl). cbn [bind length].
    replace (p + 0 <=? p) with true by (symmetry; apply Nat.leb_le; lia). reflexivity.
  - cbn [row_iters hd].
    replace (length (concat (R1 ++ (ra ++ (c, v) :: (c', v') :: rb) :: R2)) <=? p) with false.
    2: { symmetry. apply Nat.leb_gt. rewrite concat_mid, !app_length. simpl. unfold p. lia. }
    assert (Hc : vget (sc (crs (R1 ++ (ra ++ (c, v) :: (c', v') :: rb) :: R2) cn)) p = Ok c').
    { replace (ra ++ (c, v) :: (c', v') :: rb) with ((ra ++ [(c, v)]) ++ (c', v') :: rb)
        by now rewrite <- app_assoc.
      apply sc_at. rewrite app_length; simpl; unfold p; lia. }
    rewrite Hc. cbn [bind].
    destruct R2 as [|r2 R3].
    + simpl length. replace (length R1 =? length R1 + 1 - 1) with true by (symmetry; apply Nat.eqb_eq; lia).
      reflexivity.
    + simpl length.
      replace (length R1 =? length R1 + S (S (length R3)) - 1) with false by (symmetry; apply Nat.eqb_neq; lia).
      cbn [negb]. rewrite (Hnext r2 R3 eq_refl). cbn [bind length].
      replace (p + S (length rb) <=? p) with false by (symmetry; apply Nat.leb_gt; lia). reflexivity.
Qed.

Lemma row_loop {St} R1 r R2 cn (f : sit -> St -> res St) :
  rows_ok cn (R1 ++ r :: R2) -> forall rb ra, r = ra ++ rb -> forall fuel it s,
  (rb = [] -> it_valid (crs (R1 ++ r :: R2) cn) it = false) ->
  (rb <> [] -> it = hd it (row_iters (length R1) (length (concat R1) + length ra) rb)) ->
  length rb < fuel ->
  it_loop fuel (crs (R1 ++ r :: R2) cn) rit_inc it f s
  = foreach (row_iters (length R1) (length (concat R1) + length ra) rb) f s.
Proof.
  intros HR. induction rb as [|(c, v) rb IH]; intros ra Hr fuel it s H0 H1 Hf;
    (destruct fuel as [|fuel]; [simpl in Hf; lia|]);
    cbn [it_loop foreach row_iters]; rewrite s_end_crs; cbn [bind].
  - rewrite it_eq_end by auto. reflexivity.
  - specialize (H1 ltac:(discriminate)). cbn [row_iters hd] in H1. subst it r.
    assert (Hp : pos (R1 ++ (ra ++ (c, v) :: rb) :: R2) (mkI (length R1) c (length (concat R1) + length ra)) v
                   (rest (length R1) (length (concat R1) + length ra + 1) rb R2)).
    { exists R1, ra, c, rb, R2. auto. }
    rewrite it_ne_end by (eapply pos_valid; eauto). cbn [negb].
    destruct (f _ s) as [s1| | | | |]; cbn [bind]; auto.
    destruct (rit_inc_row R1 ra c v rb R2 cn HR) as (p & ->). cbn [bind].
    replace (S (length (concat R1) + length ra)) with (length (concat R1) + length (ra ++ [(c, v)]))
      by (rewrite app_length; simpl; lia).
    replace (length (concat R1) + length ra + 1) with (length (concat R1) + length (ra ++ [(c, v)]))
      by (rewrite app_length; simpl; lia).
    apply IH.
    + rewrite <- app_assoc. reflexivity.
    + intros ->. cbn [row_iters hd]. apply end_invalid.
    + intros Hne. destruct rb as [|(c', v') rb]; [congruence|]. reflexivity.
    + simpl in Hf; lia.
Qed.

Lemma s_for_row_iters {St} R1 r R2 cn (f : sit -> St -> res St) s : rows_ok cn (R1 ++ r :: R2) ->
  s_for_row (crs (R1 ++ r :: R2) cn) (length R1) f s = foreach (row_iters (length R1) (length (concat R1)) r) f s.
Proof.
  intros HR. unfold s_for_row, s_row_begin.
  assert (Hlen : length r < S (s_filled (crs (R1 ++ r :: R2) cn))).
  { rewrite filled_crs, concat_mid, !app_length. lia. }
  destruct (s_empty (crs (R1 ++ r :: R2) cn)) eqn:He.
  - apply empty_crs in He. rewrite concat_mid in He.
    apply app_eq_nil in He as [H1 He]. apply app_eq_nil in He as [-> H2].
    rewrite s_end_crs. cbn [bind row_iters foreach it_loop]. rewrite s_end_crs. cbn [bind].
    rewrite it_eq_end by apply end_invalid. reflexivity.
  - rewrite rec_crs. cbn [bind].
    destruct r as [|(c, v) r].
    + cbn [length Nat.eqb]. rewrite s_end_crs. cbn [bind row_iters foreach it_loop]. rewrite s_end_crs. cbn [bind].
      rewrite it_eq_end by apply end_invalid. reflexivity.
    + cbn [length Nat.eqb].
      change ((c, v) :: r) with ([] ++ (c, v) :: r) at 1.
      rewrite sc_at by (simpl; lia). cbn [bind].
      change ((c, v) :: r) with ([] ++ (c, v) :: r) at 1.
      erewrite make_pos; [|reflexivity|exact HR]. cbn [bind length].
      pose proof (row_loop R1 ((c, v) :: r) R2 cn f HR ((c, v) :: r) [] eq_refl
        (S (s_filled (crs (R1 ++ ((c, v) :: r) :: R2) cn)))
        (mkI (length R1) c (length (concat R1) + 0)) s) as H.
      cbn [length] in H. rewrite Nat.add_0_r in *. apply H; auto; discriminate.
Qed.

Lemma s_for_row_ents {St} R1 r R2 cn (g : nat -> nat -> N -> St -> res St) s : rows_ok cn (R1 ++ r :: R2) ->
  s_for_row (crs (R1 ++ r :: R2) cn) (length R1)
    (fun it s => let* v := it_get (crs (R1 ++ r :: R2) cn) it in g (it1 it) (it2 it) v s) s
  = foreach (row_ents (length R1) r) (fun e s => g (fst (fst e)) (snd (fst e)) (snd e) s) s.
Proof.
  intros HR. rewrite s_for_row_iters by auto.
  pose proof (foreach_row_get _ cn g HR R1 r R2 eq_refl r [] eq_refl s) as H.
  cbn [length] in H. rewrite Nat.add_0_r in H. exact H.
Qed.

End SparseIter.
