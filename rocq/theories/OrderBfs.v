(** cuthill_mckee computes the Cuthill-McKee numbering. *)
From Coq Require Import List Arith Bool Lia Permutation Sorted.
From Verif Require Import Base BaseProofs Num Spec SpecProofs VectorModel VectorProofs SparseModel SparseSpec SparseProofs
  SparseEntries SparseOps SparseOps3 SparseFacts SparseFacts2 SparsePropProofs MatI MatIProofs MatOps MatOpsProofs OrderModel
  OrderSpec OrderProofs.
Import ListNotations.
Local Open Scope nat_scope.
Open Scope res_scope.

Lemma while_inv {S} (P : S -> Prop) (c : S -> bool) (f : S -> res S) :
  (forall s s', P s -> c s = true -> f s = Ok s' -> P s') ->
  forall fuel s s', P s -> while_ fuel (fun s => Ok (c s)) f s = Ok s' -> P s' /\ c s' = false.
Proof.
  intros Hf. induction fuel as [|fuel IH]; intros s s' Hs E; cbn [while_ bind] in E; [discriminate|].
  destruct (c s) eqn:Ec; [|injection E as <-; auto].
  destruct (f s) as [s1| | | | |] eqn:E1; try discriminate. cbn [bind] in E. exact (IH s1 s' (Hf _ _ Hs Ec E1) E).
Qed.

(** *** sorted multimaps *)
Definition lexb (x y : nat * nat) : Prop := fst x < fst y \/ fst x = fst y /\ snd x < snd y.
Lemma lexb_trans x y z : lexb x y -> lexb y z -> lexb x z.
Proof. unfold lexb. lia. Qed.
Lemma insert_sorted k v l : StronglySorted lexb l -> Forall (fun e => snd e < v) l -> StronglySorted lexb (mm_insert k v l).
Proof.
  induction l as [|(k', v') l IH]; intros Hs Hv; cbn [mm_insert]; [repeat constructor|].
  inversion Hs as [|? ? Hs' Ha]; subst. inversion Hv as [|? ? Hv1 Hv']; subst. cbn [snd] in Hv1.
  destruct (Nat.ltb_spec k k').
  - constructor; auto. constructor; [left; auto|]. eapply Forall_impl; [|exact Ha]. intros e He. apply lexb_trans with (k', v'); auto. left; auto.
  - constructor; auto. rewrite (mm_insert_perm k v l). constructor; auto. unfold lexb; cbn [fst snd]. lia.
Qed.
Lemma remove_sorted k v l l' : mm_remove k v l = Some l' -> StronglySorted lexb l -> StronglySorted lexb l'.
Proof.
  revert l'. induction l as [|(k', v') l IH]; intros l' E Hs; cbn [mm_remove] in E; [discriminate|].
  inversion Hs as [|? ? Hs' Ha]; subst. destruct ((k' =? k) && (v' =? v)); [injection E as <-; auto|].
  destruct (mm_remove k v l) as [t|] eqn:ER; [|discriminate]. injection E as <-. constructor; auto.
  apply mm_remove_some in ER. rewrite ER in Ha. now inversion Ha.
Qed.
Lemma filter_lt_sorted (f : nat -> bool) l : StronglySorted lt l -> StronglySorted lt (filter f l).
Proof.
  induction 1 as [|x l Hs IH Ha]; cbn [filter]; [constructor|]. destruct (f x); auto. constructor; auto.
  apply Forall_forall. intros y Hy. apply filter_In in Hy as [Hy _]. rewrite Forall_forall in Ha. auto.
Qed.
Definition isort (d : nat -> nat) (l : list nat) (acc : mmap) : mmap := fold_left (fun acc j => mm_insert (d j) j acc) l acc.
Lemma isort_ok d l : StronglySorted lt l -> forall acc, StronglySorted lexb acc ->
  Forall (fun e => Forall (fun j => snd e < j) l) acc ->
  StronglySorted lexb (isort d l acc) /\ Permutation (isort d l acc) (map (fun j => (d j, j)) l ++ acc).
Proof.
  unfold isort. induction 1 as [|x l Hs IH Ha]; intros acc Hacc Hb; cbn [fold_left map app]; [auto|].
  destruct (IH (mm_insert (d x) x acc)) as [I1 I2].
  - apply insert_sorted; auto. eapply Forall_impl; [|exact Hb]. intros e He. now inversion He.
  - rewrite (mm_insert_perm (d x) x acc). constructor; [exact Ha|]. eapply Forall_impl; [|exact Hb]. intros e He. now inversion He.
  - split; auto. rewrite I2. rewrite (mm_insert_perm (d x) x acc). symmetry. apply Permutation_middle.
Qed.
Lemma sorted_split (l1 l2 : mmap) x : StronglySorted lexb (l1 ++ x :: l2) -> Forall (lexb x) l2.
Proof.
  induction l1 as [|y l1 IH]; cbn [app]; intros H; inversion H; subst; auto.
Qed.

Section Bfs.
Context {N : Num} (HZ : ZeroLaws N).
Variables (n : nat) (m : smat N) (a : nat -> nat -> N).
Hypothesis Hb : built m.
Hypothesis Hr : reads m n n a.
Notation dg := (degree n a).

Lemma degree_ok i : i < n -> s_row_filled m i = Ok (dg i).
Proof. exact (deg_ok HZ n m a Hb Hr i). Qed.
Lemma degree_used i : (0 <? dg i) = true <-> row_used n a i.
Proof.
  unfold degree, row_used. rewrite Nat.ltb_lt. split.
  - intros H. destruct (filter (fun j => negb (is0 (a i j))) (seq 0 n)) as [|j l] eqn:E; [cbn in H; lia|].
    assert (Hi : In j (filter (fun j => negb (is0 (a i j))) (seq 0 n))) by (rewrite E; left; auto).
    apply filter_In in Hi as [Hi Hz]. apply in_seq in Hi. exists j. split; [lia|]. now destruct (is0 (a i j)).
  - intros (j & Hj & Hz). assert (Hi : In j (filter (fun j => negb (is0 (a i j))) (seq 0 n))).
    { apply filter_In. split; [apply in_seq; lia|now rewrite Hz]. }
    destruct (filter _ _); [destruct Hi|cbn; lia].
Qed.

(** The neighbours of row p in the order in which they are queued. *)
Definition nbs (p : nat) : list nat := filter (fun j => negb (j =? p) && (0 <? dg j)) (filter (fun j => negb (is0 (a p j))) (seq 0 n)).
Definition adjl (p : nat) : mmap := isort dg (nbs p) [].
Lemma adj_exact p : p < n -> o_adj m p = Ok (adjl p).
Proof.
  intros Hp. pose proof (built_inv HZ m Hb) as Hi. destruct (inv_reads HZ m n n a Hi Hr) as (Hs & _).
  destruct (for_rlist m n n _ p Hs Hp) as (_ & E).
  unfold o_adj. rewrite (E mmap (fun i j _ adj => if negb (j =? i) then
      let* mc := s_row_filled m j in Ok (if 0 <? mc then mm_insert mc j adj else adj) else Ok adj)).
  rewrite rlist_nonzeros. unfold adjl, nbs, isort.
  assert (Hl : forall j, In j (filter (fun j => negb (is0 (a p j))) (seq 0 n)) -> j < n).
  { intros j Hj. apply filter_In in Hj as [Hj _]. apply in_seq in Hj. lia. }
  revert Hl. generalize (@nil (nat * nat)) as acc. induction (filter (fun j => negb (is0 (a p j))) (seq 0 n)) as [|j l IH]; intros acc Hl; [reflexivity|].
  cbn [map foreach fst snd filter].
  destruct (Nat.eqb_spec j p); cbn [negb andb bind]; [apply IH; intros; apply Hl; now right|].
  rewrite degree_ok by (apply Hl; now left). cbn [bind]. destruct (0 <? dg j); cbn [fold_left]; apply IH; intros; apply Hl; now right.
Qed.
Lemma nbs_in p j : In j (nbs p) <-> neighbour n a p j.
Proof.
  unfold nbs, neighbour. rewrite !filter_In, in_seq, andb_true_iff, degree_used, !negb_true_iff, Nat.eqb_neq. intuition lia.
Qed.
Lemma adjl_ok p : StronglySorted lexb (adjl p) /\ forall k j, In (k, j) (adjl p) <-> k = dg j /\ neighbour n a p j.
Proof.
  assert (HS : StronglySorted lt (nbs p)) by (unfold nbs; apply filter_lt_sorted, filter_lt_sorted, SSorted_seq).
  destruct (isort_ok dg (nbs p) HS [] (SSorted_nil _) (Forall_nil _)) as [H1 H2].
  split; auto. intros k j. rewrite app_nil_r in H2. rewrite <- nbs_in. split.
  - intros H. apply (Permutation_in _ H2) in H. apply in_map_iff in H as (x & E & Hx). injection E as <- <-. auto.
  - intros [-> H]. apply (Permutation_in _ (Permutation_sym H2)). apply in_map_iff. exists j. auto.
Qed.
Lemma adjl_snd p j : In j (map snd (adjl p)) <-> neighbour n a p j.
Proof.
  rewrite in_map_iff. split.
  - intros ((k, x) & <- & H). now apply adjl_ok in H.
  - intros H. exists (dg j, j). split; auto. apply adjl_ok. auto.
Qed.

Lemma flat_split {A B} (f : A -> list B) (d : A) c Q : forall l pre, flat_map f l = pre ++ c :: Q ->
  exists s p1 p2, s < length l /\ f (nth s l d) = p1 ++ c :: p2 /\ incl p1 pre /\ forall s', s' < s -> incl (f (nth s' l d)) pre.
Proof.
  induction l as [|x l IH]; intros pre E; [destruct pre; discriminate|]. cbn [flat_map] in E.
  destruct (le_lt_dec (length (f x)) (length pre)) as [Hle|Hlt].
  - assert (E1 : exists pre', pre = f x ++ pre').
    { exists (skipn (length (f x)) pre). rewrite <- (firstn_skipn (length (f x)) pre) at 1. f_equal.
      apply (f_equal (firstn (length (f x)))) in E. rewrite firstn_app, Nat.sub_diag, firstn_all in E. cbn [firstn] in E. rewrite app_nil_r in E.
      rewrite firstn_app in E. replace (length (f x) - length pre) with 0 in E by lia. cbn [firstn] in E. now rewrite app_nil_r in E. }
    destruct E1 as (pre' & ->). rewrite <- app_assoc in E. apply app_inv_head in E.
    destruct (IH pre' E) as (s & p1 & p2 & H1 & H2 & H3 & H4). exists (S s), p1, p2. cbn [length nth]. split; [lia|]. split; auto. split.
    + intros y Hy. apply in_or_app. right. auto.
    + intros s' Hs'. destruct s' as [|s']; [intros y Hy; apply in_or_app; now left|]. intros y Hy. apply in_or_app. right. apply (H4 s'); auto. lia.
  - exists 0, pre, (skipn (S (length pre)) (f x)). cbn [length nth]. split; [lia|]. split; [|split; [apply incl_refl|intros; lia]].
    apply (f_equal (firstn (length (f x)))) in E. rewrite firstn_app, Nat.sub_diag, firstn_all in E. cbn [firstn] in E. rewrite app_nil_r in E.
    rewrite firstn_app in E. rewrite firstn_all2 in E by lia.
    destruct (length (f x) - length pre) as [|q] eqn:Eq; [lia|]. cbn [firstn] in E.
    rewrite E. f_equal. replace (S (length pre)) with (length (pre ++ [c])) by (rewrite app_length; cbn; lia).
    change (c :: firstn q Q) with ([c] ++ firstn q Q). rewrite app_assoc. rewrite skipn_app, skipn_all, Nat.sub_diag. reflexivity.
Qed.

Definition binv (s : ost) : Prop :=
  let '(R, cur, Q, Rows) := s in
  exists done pre, length done = cur /\ R = done ++ repeat 0 (n - cur) /\ length R = n /\ NoDup done /\
    (forall i, In i done -> i < n /\ row_used n a i) /\
    StronglySorted lexb Rows /\ (forall k j, In (k, j) Rows <-> k = dg j /\ j < n /\ row_used n a j /\ ~ In j done) /\
    flat_map (fun p => map snd (adjl p)) done = pre ++ Q /\ incl pre done /\
    forall t, t < cur -> numbering_rule n a done t.

Lemma rule_app done l t : t < length done -> numbering_rule n a done t -> numbering_rule n a (done ++ l) t.
Proof.
  intros Ht. unfold numbering_rule. rewrite firstn_app. replace (t - length done) with 0 by lia. cbn [firstn]. rewrite app_nil_r.
  rewrite app_nth1 by auto. intros [(s & Hs & H1 & H2)|[H1 H2]].
  - left. exists s. rewrite app_nth1 by lia. split; auto. split; auto. intros s' j Hs' Hj. rewrite app_nth1 in Hj by lia. eauto.
  - right. split; auto. intros s j Hs Hj. rewrite app_nth1 in Hj by lia. eauto.
Qed.

Lemma i_set_inv v i x w : i_set v i x = Ok w -> i < length v /\ w = upd v i x.
Proof.
  destruct (le_lt_dec (length v) i).
  - unfold i_set. replace (i <? length v) with false by (symmetry; apply Nat.ltb_ge; lia). discriminate.
  - rewrite i_set_ok by auto. intros E. injection E as <-. auto.
Qed.

(** Appending a row that satisfies the rule. *)
Lemma binv_take R cur Q Rows c Rows' R' : binv (R, cur, Q, Rows) ->
  i_set R cur c = Ok R' -> mm_remove (dg c) c Rows = Some Rows' ->
  (forall done pre, length done = cur -> (forall k j, In (k, j) Rows <-> k = dg j /\ j < n /\ row_used n a j /\ ~ In j done) ->
     flat_map (fun p => map snd (adjl p)) done = pre ++ Q -> incl pre done ->
     (exists Q', Q = c :: Q' \/ Q = [] /\ Q' = []) /\ numbering_rule n a (done ++ [c]) cur) ->
  binv (R', cur + 1, tl Q ++ map snd (adjl c), Rows').
Proof.
  intros (done & pre & H1 & H2 & H3 & H4 & H5 & H6 & H7 & H8 & H9 & H10) ES ER Hc.
  destruct (i_set_inv _ _ _ _ ES) as [Hcur ->]. destruct (Hc done pre H1 H7 H8 H9) as ((Q' & HQ) & Hrule).
  pose proof (mm_remove_some _ _ _ _ ER) as HP.
  assert (Hin : In (dg c, c) Rows) by (apply (Permutation_in _ (Permutation_sym HP)); now left).
  apply H7 in Hin as (_ & Hcn & Hcu & Hcd).
  exists (done ++ [c]), (pre ++ match Q with [] => [] | _ => [c] end).
  split; [rewrite app_length; cbn; lia|]. split; [subst R; apply write_done; auto; lia|]. split; [now rewrite upd_length|].
  split; [apply (Permutation_NoDup (l := c :: done)); [apply Permutation_cons_append|now constructor]|].
  split. { intros i Hi. apply in_app_iff in Hi as [Hi|[<-|[]]]; auto. }
  split; [eapply remove_sorted; eauto|]. split.
  { intros k j. rewrite in_app_iff. cbn [In]. split.
    - intros H. assert (Hk : In (k, j) Rows) by (apply (Permutation_in _ (Permutation_sym HP)); now right).
      apply H7 in Hk as (-> & Hj1 & Hj2 & Hj3). repeat split; auto. intros [Hd|[->|[]]]; auto.
      assert (ND : NoDup (map snd Rows)).
      { clear -H6 H7. assert (Hall : forall e, In e Rows -> fst e = dg (snd e)) by (intros (k, j) He; now apply H7 in He).
        clear H7. induction H6 as [|x l Hs IH Ha]; cbn [map]; constructor.
        - intros Hi. apply in_map_iff in Hi as (y & Ey & Hy). rewrite Forall_forall in Ha. specialize (Ha y Hy).
          unfold lexb in Ha.
          pose proof (Hall x (or_introl eq_refl)). pose proof (Hall y (or_intror Hy)). rewrite Ey in *. lia.
        - apply IH. intros e He. apply Hall. now right. }
      apply (Permutation_map snd) in HP. apply (Permutation_NoDup HP) in ND. cbn [map snd] in ND. inversion ND as [|? ? Hno _]; subst.
      apply Hno. apply in_map_iff. exists (dg j, j). auto.
    - intros (-> & Hj1 & Hj2 & Hj3). assert (Hk : In (dg j, j) Rows) by (apply H7; intuition).
      apply (Permutation_in _ HP) in Hk as [E|Hk]; auto. injection E as _ E. exfalso. apply Hj3. auto. }
  split.
  { rewrite flat_map_app, H8. cbn [flat_map]. rewrite app_nil_r. destruct HQ as [->|[-> ->]]; cbn [tl app]; rewrite <- ?app_assoc; reflexivity. }
  split.
  { intros y Hy. apply in_app_iff in Hy as [Hy|Hy]; apply in_or_app; [left; auto|]. right. destruct Q; auto. destruct Hy. }
  intros t Ht. destruct (Nat.eq_dec t cur) as [->|Hne]; auto. apply rule_app; [lia|]. apply H10. lia.
Qed.

Lemma neighbour_lt p j : neighbour n a p j -> j < n /\ row_used n a j.
Proof. unfold neighbour. tauto. Qed.

Lemma step_binv s s' : binv s -> q_nonempty s = true -> o_step m s = Ok s' -> binv s'.
Proof.
  destruct s as (((R, cur), Q), Rows). intros HI HQ E. destruct Q as [|c Q']; [discriminate|]. cbn [o_step] in E.
  pose proof HI as (done & pre & H1 & H2 & H3 & H4 & H5 & H6 & H7 & H8 & H9 & H10).
  assert (Hc : c < n /\ row_used n a c).
  { assert (Hi : In c (flat_map (fun p => map snd (adjl p)) done)) by (rewrite H8; apply in_or_app; right; now left).
    apply in_flat_map in Hi as (p & _ & Hi). apply adjl_snd in Hi. now apply neighbour_lt in Hi. }
  rewrite degree_ok in E by apply Hc. cbn [bind] in E. destruct (mm_remove (dg c) c Rows) as [Rows'|] eqn:ER.
  - destruct (i_set R cur c) as [R'| | | | |] eqn:ES; try discriminate. cbn [bind] in E. rewrite adj_exact in E by apply Hc. cbn [bind] in E.
    injection E as <-. apply (binv_take R cur (c :: Q') Rows c Rows' R' HI ES ER).
    clear - ER. intros done pre H1 H7 H8 H9. split; [exists Q'; now left|].
    destruct (flat_split _ 0 c Q' done pre H8) as (s & p1 & p2 & Hs & Ef & Hp1 & Hp).
    pose proof (mm_remove_some _ _ _ _ ER) as HP.
    assert (Hin : In (dg c, c) Rows) by (apply (Permutation_in _ (Permutation_sym HP)); now left).
    apply H7 in Hin as (_ & _ & _ & Hcd).
    left. exists s. rewrite <- H1, firstn_app, Nat.sub_diag, firstn_all. cbn [firstn]. rewrite app_nil_r.
    rewrite app_nth1 by auto. rewrite app_nth2, Nat.sub_diag by lia. cbn [nth]. split; auto. split.
    + intros s' j Hs' Hj Hf. rewrite app_nth1 in Hj by lia. apply Hf. apply H9. apply (Hp s' Hs'). now apply adjl_snd.
    + destruct (adjl_ok (nth s done 0)) as [HS HA].
      assert (Hcn : neighbour n a (nth s done 0) c) by (apply adjl_snd; rewrite Ef; apply in_or_app; right; now left).
      split; [auto|]. intros d [Hd Hf]. apply adjl_snd in Hd as Hd'. rewrite Ef in Hd'. apply in_app_iff in Hd' as [Hd'|[->|Hd']]; auto.
      { exfalso. apply Hf. auto. }
      right. apply map_eq_app in Ef. destruct Ef as (l1 & l2 & El & _ & El2).
      destruct l2 as [|e l2]; [discriminate|]. injection El2 as Ee El2. rewrite El in HS. apply sorted_split in HS.
      rewrite Forall_forall in HS. subst p2. apply in_map_iff in Hd' as (e' & Ee' & He').
      specialize (HS e' He').
      assert (F1 : fst e = dg c). { destruct e as (k, x). cbn [snd fst] in *. subst x. apply (HA k c). rewrite El. apply in_or_app. right. now left. }
      assert (F2 : fst e' = dg d). { destruct e' as (k, x). cbn [snd fst] in *. subst x. apply (HA k d). rewrite El. apply in_or_app. right. now right. }
      unfold lexb in HS. unfold before. rewrite F1, F2, Ee, Ee' in HS. exact HS.
  - injection E as <-. apply mm_remove_none in ER. exists done, (pre ++ [c]). repeat (split; [assumption|]).
    split; [rewrite H8, <- app_assoc; reflexivity|]. split; auto. intros y Hy. apply in_app_iff in Hy as [Hy|[<-|[]]]; auto.
    destruct (in_dec Nat.eq_dec c done) as [|Hno]; auto. exfalso. apply ER. apply H7. tauto.
Qed.

Lemma head_remove k p (Rows : mmap) : mm_remove k p ((k, p) :: Rows) = Some Rows.
Proof. cbn [mm_remove]. now rewrite !Nat.eqb_refl. Qed.
Lemma outer_binv s s' : binv s /\ q_nonempty s = false -> rows_nonempty s = true -> o_outer m s = Ok s' -> binv s' /\ q_nonempty s' = false.
Proof.
  destruct s as (((R, cur), Q), Rows). intros [HI HQ] HR E. destruct Rows as [|(k, p) Rows']; [discriminate|].
  destruct Q as [|? ?]; [|discriminate]. cbn [o_outer] in E.
  assert (Hp : k = dg p /\ p < n).
  { destruct HI as (done & pre & H1 & H2 & H3 & H4 & H5 & H6 & H7 & _). assert (Hi : In (k, p) ((k, p) :: Rows')) by now left.
    apply H7 in Hi. tauto. }
  destruct Hp as [-> Hp]. destruct (i_set R cur p) as [R'| | | | |] eqn:ES; try discriminate. cbn [bind] in E.
  rewrite adj_exact in E by auto. cbn [bind app] in E.
  apply (while_inv binv q_nonempty (o_step m) step_binv) in E; auto.
  change (map snd (adjl p)) with (tl (@nil nat) ++ map snd (adjl p)).
  apply (binv_take R cur [] ((dg p, p) :: Rows') p Rows' R' HI ES (head_remove _ _ _)).
  destruct HI as (_ & _ & _ & _ & _ & _ & _ & H6 & _).
  intros done pre H1 H7 H8 H9. split; [exists []; now right|]. right. rewrite app_nil_r in H8. subst pre.
  rewrite <- H1, firstn_app, Nat.sub_diag, firstn_all. cbn [firstn]. rewrite app_nil_r. rewrite app_nth2, Nat.sub_diag by lia. cbn [nth]. split.
  - intros s j Hs Hj Hf. rewrite app_nth1 in Hj by lia. apply Hf, H9. apply in_flat_map. exists (nth s done 0). split; [now apply nth_In|].
    now apply adjl_snd.
  - assert (Hi : In (dg p, p) ((dg p, p) :: Rows')) by now left. apply H7 in Hi. split; [tauto|].
    intros d (Hd1 & Hd2 & Hd3). assert (Hd : In (dg d, d) ((dg p, p) :: Rows')) by (apply H7; auto).
    destruct Hd as [Ed|Hd]; [injection Ed as _ Ed; now left|]. right. inversion H6 as [|? ? _ Ha]; subst. rewrite Forall_forall in Ha.
    exact (Ha _ Hd).
Qed.

Lemma init_binv Rows : for_ 0 n (fun i Rows => let* mc := s_row_filled m i in Ok (if 0 <? mc then mm_insert mc i Rows else Rows)) [] = Ok Rows ->
  binv (i_new n, 0, [], Rows).
Proof.
  intros E.
  assert (R : returns (for_ 0 n (fun i Rows => let* mc := s_row_filled m i in Ok (if 0 <? mc then mm_insert mc i Rows else Rows)) [])
    (fun r => r = isort dg (filter (fun j => 0 <? dg j) (seq 0 n)) [])).
  { apply (for_returns (fun k r => r = isort dg (filter (fun j => 0 <? dg j) (seq 0 k)) [])); auto; try lia.
    intros k r Hk ->. rewrite degree_ok by lia. cbn [bind]. eexists. split; [reflexivity|]. rewrite seq_S, filter_app. cbn [plus filter].
    unfold isort. rewrite fold_left_app. destruct (0 <? dg k); reflexivity. }
  destruct R as (r & E2 & ->). rewrite E in E2. injection E2 as ->.
  destruct (isort_ok dg (filter (fun j => 0 <? dg j) (seq 0 n)) (filter_lt_sorted _ _ (SSorted_seq n 0)) [] (SSorted_nil _) (Forall_nil _)) as [H1 H2].
  exists [], []. cbn [app length flat_map]. rewrite Nat.sub_0_r. split; auto. split; auto. split; [apply repeat_length|].
  split; [constructor|]. split; [intros i []|]. split; auto. split; [|split; [reflexivity|split; [intros y []|intros; lia]]].
  intros k j. rewrite app_nil_r in H2. split.
  - intros H. apply (Permutation_in _ H2) in H. apply in_map_iff in H as (x & Ex & Hx). injection Ex as <- <-.
    apply filter_In in Hx as [Hx1 Hx2]. apply in_seq in Hx1. apply degree_used in Hx2. repeat split; auto; lia.
  - intros (-> & Hj & Hu & _). apply (Permutation_in _ (Permutation_sym H2)). apply in_map_iff. exists j. split; auto.
    apply filter_In. split; [apply in_seq; lia|now apply degree_used].
Qed.

Lemma cuthill_numbering : returns (cuthill m) (fun R => exists l, R = l ++ repeat 0 (n - length l) /\ numbering n a l).
Proof.
  destruct (cuthill_ok HZ n m a Hb Hr) as (R & E & _). exists R. split; auto. revert E. unfold cuthill.
  pose proof Hr as (E1 & E2 & _). rewrite E1, E2, Nat.eqb_refl. cbn [negb].
  match goal with |- context [for_ 0 n ?f []] => destruct (for_ 0 n f []) as [Rows| | | | |] eqn:E0 end; try discriminate. cbn [bind].
  apply init_binv in E0.
  match goal with |- context [while_ (S n) ?c ?f ?x] => destruct (while_ (S n) c f x) as [s| | | | |] eqn:EW end; try discriminate. cbn [bind].
  apply (while_inv (fun s => binv s /\ q_nonempty s = false) rows_nonempty (o_outer m) outer_binv) in EW; [|split; auto].
  destruct EW as [[HI _] Hc]. destruct s as (((R1, cur), Q), Rws). intros E. injection E as <-. destruct Rws; [|discriminate].
  destruct HI as (done & pre & H1 & H2 & H3 & H4 & H5 & H6 & H7 & H8 & H9 & H10). exists done. split; [congruence|].
  constructor; auto; [|now rewrite H1].
  intros i. split; auto. intros [Hi Hu]. destruct (in_dec Nat.eq_dec i done) as [|Hno]; auto. exfalso.
  apply (proj2 (H7 (dg i) i)). auto.
Qed.

(** The rules determine the numbering. *)
Lemma least_unique P c d : least n a P c -> least n a P d -> c = d.
Proof.
  intros [Hc1 Hc2] [Hd1 Hd2]. destruct (Hc2 d Hd1) as [|H1]; auto. destruct (Hd2 c Hc1) as [|H2]; auto. unfold before in *. lia.
Qed.
Lemma numbering_unique l l' : numbering n a l -> numbering n a l' -> l = l'.
Proof.
  intros [N1 U1 R1] [N2 U2 R2].
  assert (HL : length l = length l').
  { apply Permutation_length. apply NoDup_Permutation; auto. intros i. now rewrite U1, U2. }
  assert (H : forall t, t <= length l -> firstn t l = firstn t l').
  { induction t as [|t IH]; intros Ht; [reflexivity|]. specialize (IH ltac:(lia)).
    assert (Hn : forall s, s < t -> nth s l 0 = nth s l' 0).
    { intros s Hs. rewrite <- (firstn_skipn t l), <- (firstn_skipn t l'). rewrite !app_nth1 by (rewrite firstn_length; lia). now rewrite IH. }
    assert (E : nth t l 0 = nth t l' 0).
    { specialize (R1 t ltac:(lia)). specialize (R2 t ltac:(lia)). unfold numbering_rule in R1, R2. rewrite IH in R1.
      destruct R1 as [(s & Hs & P1 & P2)|[P1 P2]], R2 as [(s' & Hs' & Q1 & Q2)|[Q1 Q2]].
      - rewrite <- Hn in Q2 by auto. assert (s = s').
        { destruct (lt_eq_lt_dec s s') as [[Hlt|]|Hgt]; auto; exfalso.
          - destruct P2 as [[P2 P3] _]. apply (Q1 s _ Hlt) in P3; auto. now rewrite <- Hn by lia.
          - destruct Q2 as [[Q2 Q3] _]. apply (P1 s' _ Hgt) in Q3; auto. }
        subst s'. eapply least_unique; eassumption.
      - exfalso. destruct P2 as [[P2 P3] _]. apply (Q1 s _ Hs) in P3; auto. now rewrite <- Hn by lia.
      - exfalso. destruct Q2 as [[Q2 Q3] _]. apply (P1 s' _ Hs') in Q3; auto. now rewrite Hn by lia.
      - eapply least_unique; eassumption. }
    rewrite <- (firstn_skipn t l), <- (firstn_skipn t l'), IH.
    assert (S1 : forall (w : list nat), t < length w -> firstn (S t) w = firstn t w ++ [nth t w 0]).
    { clear. induction t as [|t IH]; intros w Hw; (destruct w as [|x w]; [cbn in Hw; lia|]); cbn [firstn nth app]; auto.
      f_equal. apply IH. cbn in Hw. lia. }
    rewrite <- IH at 1. rewrite !firstn_skipn. rewrite !S1 by lia. now rewrite IH, E. }
  specialize (H (length l) (le_n _)). rewrite firstn_all in H. rewrite HL, firstn_all in H. exact H.
Qed.
End Bfs.

(** A relabelled tridiagonal pattern is recognised: the numbering runs along the path. *)
Section Path.
Context {N : Num}.
Variables (n : nat) (a : nat -> nat -> N) (p : list nat).
Hypothesis Hp : Permutation p (seq 0 n).
Hypothesis Hpat : forall i j, i < n -> j < n -> is0 (a (nth i p 0) (nth j p 0)) = negb ((i <=? S j) && (j <=? S i)).

Lemma path_used i : i < n -> row_used n a (nth i p 0).
Proof.
  intros Hi. exists (nth i p 0). split; [now apply perm_lt|]. rewrite Hpat by auto. rewrite !(proj2 (Nat.leb_le i (S i))) by lia. reflexivity.
Qed.
Lemma path_nbr i j : i < n -> j < n -> (neighbour n a (nth i p 0) (nth j p 0) <-> j = S i \/ i = S j).
Proof.
  intros Hi Hj. unfold neighbour. rewrite Hpat, negb_false_iff, andb_true_iff, !Nat.leb_le by auto. split.
  - intros (_ & Hne & H & _). destruct (Nat.eq_dec i j) as [->|]; [congruence|]. lia.
  - intros H. split; [now apply perm_lt|]. split; [intros E; apply (perm_inj p n) in E; auto; lia|]. split; [lia|now apply path_used].
Qed.
Lemma path_deg_inner i : 0 < i -> S i < n -> 3 <= degree n a (nth i p 0).
Proof.
  intros H1 H2. unfold degree. change 3 with (length [nth (i - 1) p 0; nth i p 0; nth (S i) p 0]). apply NoDup_incl_length.
  - repeat constructor; cbn [In]; intros H; repeat destruct H as [H|H]; try (apply (perm_inj p n) in H; auto; lia); auto.
  - assert (G : forall j, j < n -> i <= S j -> j <= S i -> In (nth j p 0) (filter (fun j => negb (is0 (a (nth i p 0) j))) (seq 0 n))).
    { intros j Hj Ha Hb. apply filter_In. split; [apply in_seq; pose proof (perm_lt p n j Hp Hj); lia|]. rewrite Hpat by lia.
      rewrite (proj2 (Nat.leb_le i (S j))), (proj2 (Nat.leb_le j (S i))) by lia. reflexivity. }
    intros x [<-|[<-|[<-|[]]]]; apply G; lia.
Qed.
Lemma path_deg_end : degree n a (nth 0 p 0) <= 2.
Proof.
  unfold degree. change 2 with (length [nth 0 p 0; nth 1 p 0]). apply NoDup_incl_length; [apply NoDup_filter, seq_NoDup|].
  intros x Hx. apply filter_In in Hx as [Hx Hz]. apply in_seq in Hx. destruct (perm_surj p n x Hp) as (j & Hj & <-); [lia|].
  rewrite Hpat, negb_involutive, andb_true_iff, !Nat.leb_le in Hz by lia. destruct j as [|[|j]]; cbn [In]; auto. lia.
Qed.
Lemma numbering_all l : numbering n a l -> Permutation l (seq 0 n).
Proof.
  intros [H1 H2 _]. apply NoDup_Permutation; auto using seq_NoDup. intros i. rewrite H2, in_seq. split; [lia|]. intros H. split; [lia|].
  destruct (perm_surj p n i Hp) as (j & Hj & <-); [lia|]. now apply path_used.
Qed.
(** If the numbering starts at the end p_0 it is p. *)
Lemma path_run l : numbering n a l -> nth 0 l 0 = nth 0 p 0 -> forall t, t < n -> nth t l 0 = nth t p 0.
Proof.
  intros HN H0. pose proof (numbering_all l HN) as HP. pose proof (perm_length _ _ HP) as HL.
  assert (G : forall t, t < n -> forall s, s <= t -> nth s l 0 = nth s p 0).
  { induction t as [|t IH]; intros Ht s Hs; [replace s with 0 by lia; auto|]. specialize (IH ltac:(lia)).
    destruct (Nat.eq_dec s (S t)) as [->|]; [|apply IH; lia].
    assert (F : forall j, j < n -> (In (nth j p 0) (firstn (S t) l) <-> j <= t)).
    { intros j Hj. split.
      - intros Hi. apply (In_nth _ _ 0) in Hi as (q & Hq & E). rewrite firstn_length in Hq.
        assert (E2 : nth q (firstn (S t) l) 0 = nth q l 0) by (rewrite <- (firstn_skipn (S t) l) at 2; rewrite app_nth1; auto; rewrite firstn_length; lia).
        rewrite E2, IH in E by lia. apply (perm_inj p n) in E; auto; lia.
      - intros Hle. rewrite <- (IH j) by lia. assert (E2 : nth j l 0 = nth j (firstn (S t) l) 0)
          by (rewrite <- (firstn_skipn (S t) l) at 1; rewrite app_nth1; auto; rewrite firstn_length; lia).
        rewrite E2. apply nth_In. rewrite firstn_length. lia. }
    pose proof (num_rule _ _ _ HN (S t) ltac:(lia)) as HR. unfold numbering_rule in HR. cbv zeta in HR.
    pose proof (perm_lt l n (S t) HP Ht) as Hc. destruct (perm_surj p n _ Hp Hc) as (q & Hq & Eq).
    destruct HR as [(s & Hs' & _ & [[H1 H2] _])|[H1 _]].
    - rewrite IH in H1 by lia. rewrite <- Eq in H1, H2. apply path_nbr in H1; try lia. rewrite F in H2 by auto.
      rewrite <- Eq. f_equal. lia.
    - exfalso. apply (H1 t (nth (S t) p 0)); [lia| |rewrite F by auto; lia]. rewrite IH by lia. apply path_nbr; auto; lia. }
  intros t Ht. now apply (G t Ht t).
Qed.
End Path.

Lemma path_rev {N : Num} n (a : nat -> nat -> N) p : Permutation p (seq 0 n) ->
  (forall i j, i < n -> j < n -> is0 (a (nth i p 0) (nth j p 0)) = negb ((i <=? S j) && (j <=? S i))) ->
  forall i j, i < n -> j < n -> is0 (a (nth i (rev p) 0) (nth j (rev p) 0)) = negb ((i <=? S j) && (j <=? S i)).
Proof.
  intros Hp H i j Hi Hj. pose proof (perm_length _ _ Hp). rewrite !rev_nth by lia. rewrite H by lia. f_equal.
  destruct (Nat.leb_spec (length p - S i) (S (length p - S j))), (Nat.leb_spec (length p - S j) (S (length p - S i))), (Nat.leb_spec i (S j)),
    (Nat.leb_spec j (S i)); cbn [andb]; auto; lia.
Qed.
Lemma path_found {N : Num} n (a : nat -> nat -> N) p l : 0 < n -> Permutation p (seq 0 n) ->
  (forall i j, i < n -> j < n -> is0 (a (nth i p 0) (nth j p 0)) = negb ((i <=? S j) && (j <=? S i))) ->
  numbering n a l -> l = p \/ l = rev p.
Proof.
  intros Hn Hp Hpat HN. pose proof (numbering_all n a p Hp Hpat l HN) as HP. pose proof (perm_length _ _ HP) as HL. pose proof (perm_length _ _ Hp) as HL'.
  pose proof (perm_lt l n 0 HP Hn) as H0. destruct (perm_surj p n _ Hp H0) as (q & Hq & Eq).
  assert (Hend : q = 0 \/ q = n - 1).
  { destruct (Nat.eq_dec q 0); auto. destruct (Nat.eq_dec q (n - 1)); auto. exfalso.
    pose proof (path_deg_inner n a p Hp Hpat q ltac:(lia) ltac:(lia)) as D1. pose proof (path_deg_end n a p Hp Hpat) as D2.
    pose proof (num_rule _ _ _ HN 0 ltac:(lia)) as HR. unfold numbering_rule in HR. cbv zeta in HR.
    destruct HR as [(s & Hs & _)|[_ [_ H]]]; [lia|]. rewrite <- Eq in H.
    destruct (H (nth 0 p 0)) as [E|Hb].
    - split; [now apply perm_lt|]. split; [now apply (path_used n a p Hp Hpat)|]. cbn [firstn In]. auto.
    - apply (perm_inj p n) in E; auto; lia.
    - unfold before in Hb. lia. }
  destruct Hend as [->| ->].
  - left. apply (list_eq_nth _ _ 0); [lia|]. rewrite HL. intros t Ht. now apply (path_run n a p Hp Hpat l HN).
  - right. pose proof (Permutation_trans (Permutation_sym (Permutation_rev p)) Hp) as Hr'.
    apply (list_eq_nth _ _ 0); [rewrite rev_length; lia|]. rewrite HL. intros t Ht.
    apply (path_run n a (rev p) Hr' (path_rev n a p Hp Hpat) l HN); auto. rewrite rev_nth by lia. rewrite <- Eq. f_equal. lia.
Qed.
