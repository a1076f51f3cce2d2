(** Proofs about writing through iterators. *)
From Coq Require Import List Arith Bool Lia.
From Verif Require Import Base BaseProofs Num Spec SpecProofs VectorModel SparseModel SparseSpec SparseProofs SparseIter SparseEntries SparseOps SparseOps2
  SparseFacts SparseFacts2 MatI DenseModel DenseSpec DenseProofs DensePropProofs IterWrite.
Import ListNotations.
Open Scope res_scope.

Section Dense.
Variable N : Num.
Implicit Types m : dmat N.
Lemma put_set m e it x : dwf m -> di1 it < dr m -> di2 it < dc m ->
  exists m', di_put (m, e) it x = Ok (m', e) /\ d_set m (di1 it) (di2 it) x = Ok m' /\ dwf m' /\ dr m' = dr m /\ dc m' = dc m /\
    forall i j, i < dr m -> j < dc m -> d_at m' i j = if (i =? di1 it) && (j =? di2 it) then Ok x else d_at m i j.
Proof.
  intros W Hi Hj. pose proof (idx_lt _ _ _ _ Hi Hj) as L. unfold di_put, di_valid, d_rows, d_cols. cbn [fst snd].
  rewrite (proj2 (Nat.ltb_lt _ _) Hi), (proj2 (Nat.ltb_lt _ _) Hj). cbn [andb].
  rewrite vset_ok by (unfold dwf in W; lia). eexists. split; [reflexivity|]. split; [now apply d_set_ok|].
  assert (W' : dwf (mkD (upd (dv m) (di1 it * dc m + di2 it) x) (dr m) (dc m))) by (unfold dwf in *; cbn [dv dr dc]; now rewrite upd_length).
  split; [exact W'|]. split; [reflexivity|]. split; [reflexivity|]. intros i j Hi' Hj'.
  rewrite !d_at_ok by auto. cbn [dv dc]. rewrite nth_upd. destruct (Nat.ltb_spec (di1 it * dc m + di2 it) (length (dv m))) as [_|G]; [|unfold dwf in W; lia].
  rewrite andb_true_r. destruct (Nat.eqb_spec (i * dc m + j) (di1 it * dc m + di2 it)) as [E|E].
  - destruct (idx_inj _ _ _ _ _ Hj' Hj E) as (-> & ->). now rewrite !Nat.eqb_refl.
  - destruct (Nat.eqb_spec i (di1 it)), (Nat.eqb_spec j (di2 it)); cbn [andb]; auto. subst. lia.
Qed.
Lemma ref_at m e it : dwf m -> di1 it < dr m -> di2 it < dc m -> di_ref (m, e) it = d_at m (di1 it) (di2 it).
Proof.
  intros W Hi Hj. pose proof (idx_lt _ _ _ _ Hi Hj) as L. unfold di_ref, di_valid, d_rows, d_cols. cbn [fst snd].
  rewrite (proj2 (Nat.ltb_lt _ _) Hi), (proj2 (Nat.ltb_lt _ _) Hj). cbn [andb].
  rewrite d_at_ok by auto. apply vget_ok. unfold dwf in W. lia.
Qed.
Definition inp (p : nat * nat) (l : list (nat * nat)) : bool := existsb (fun q => (fst p =? fst q) && (snd p =? snd q)) l.
Lemma inp_in p l : inp p l = true <-> In p l.
Proof.
  unfold inp. rewrite existsb_exists. destruct p as (i, j). split.
  - intros ((a, b) & H & E). cbn in E. apply andb_prop in E. destruct E as [E F]. apply Nat.eqb_eq in E, F. now subst.
  - intros H. exists (i, j). split; [exact H|]. cbn. now rewrite !Nat.eqb_refl.
Qed.
(** One pass over different valid positions. *)
Lemma pass (h : N -> N) e ps : forall m d1 d2 a, NoDup ps -> (forall p, In p ps -> fst p < d1 /\ snd p < d2) ->
  dbuilt m -> dreads m d1 d2 a ->
  exists m', foreach (map to_dit ps) (di_mod h) (m, e) = Ok (m', e) /\ dbuilt m' /\
    dreads m' d1 d2 (fun i j => if inp (i, j) ps then h (a i j) else a i j).
Proof.
  induction ps as [|p ps IH]; intros m d1 d2 a Hn Hp Hb Hr.
  - exists m. cbn. auto.
  - inversion Hn as [|? ? Hni Hn']; subst. destruct (Hp p (or_introl eq_refl)) as [Hi Hj].
    assert (R1 : dr m = d1 /\ dc m = d2) by (destruct Hr as (? & ? & _); auto). destruct R1 as [R1 R2].
    assert (W : dwf m) by now apply dbuilt_wf.
    destruct (put_set m e (to_dit p) (h (a (fst p) (snd p)))) as (m' & E & S & _ & D1 & D2 & A); cbn; try lia; auto.
    cbn [map foreach]. unfold di_mod at 1. rewrite ref_at by (cbn; lia || auto). destruct Hr as (Hr1 & Hr2 & Hr3).
    replace (d_at m (di1 (to_dit p)) (di2 (to_dit p))) with (Ok (a (fst p) (snd p))) by (symmetry; cbn; now apply Hr3). cbn [bind].
    rewrite E. cbn [bind].
    destruct (IH m' d1 d2 (fun i j => if (i =? fst p) && (j =? snd p) then h (a (fst p) (snd p)) else a i j)) as (m2 & E2 & B2 & Q2); auto.
    + intros q Hq. apply Hp. now right.
    + eapply db_set; eauto.
    + split; [unfold d_rows; congruence|]. split; [unfold d_cols; congruence|]. intros i j Hi' Hj'. rewrite A by lia. cbn [di1 di2 to_dit].
      destruct ((i =? fst p) && (j =? snd p)); auto.
    + exists m2. split; [exact E2|]. split; [exact B2|]. destruct Q2 as (Q1 & Q2 & Q3). split; [exact Q1|]. split; [exact Q2|].
      intros i j Hi' Hj'. rewrite Q3 by auto. f_equal. change (inp (i, j) (p :: ps)) with ((i =? fst p) && (j =? snd p) || inp (i, j) ps).
      destruct ((i =? fst p) && (j =? snd p)) eqn:Q; cbn [orb]; auto.
      apply andb_prop in Q. destruct Q as [Q Q']. apply Nat.eqb_eq in Q, Q'. subst. destruct (inp (fst p, snd p) ps) eqn:Z; auto.
      exfalso. apply Hni. destruct p. now apply inp_in.
Qed.
Lemma positions_nodup d1 d2 : NoDup (positions d1 d2).
Proof.
  unfold positions. generalize (seq_NoDup d1 0). induction (seq 0 d1) as [|i l IH]; intros H; [constructor|].
  inversion H; subst. cbn [list_prod].
  assert (G : forall A (x y : list A), NoDup x -> NoDup y -> (forall z, In z x -> ~ In z y) -> NoDup (x ++ y)).
  { clear. induction x as [|b x IH]; intros y Hx Hy D; [exact Hy|]. inversion Hx; subst. cbn. constructor.
    - rewrite in_app_iff. intros [F|F]; [auto|]. now apply (D b (or_introl eq_refl)).
    - apply IH; auto. intros z Hz. apply D. now right. }
  apply G; auto.
  - apply FinFun.Injective_map_NoDup; [|apply seq_NoDup]. intros x y E. now injection E.
  - intros (p, q) Hz. apply in_map_iff in Hz. destruct Hz as (? & [= <- <-] & _). rewrite in_prod_iff. tauto.
Qed.
Lemma positions_in d1 d2 i j : In (i, j) (positions d1 d2) <-> i < d1 /\ j < d2.
Proof. unfold positions. rewrite in_prod_iff, !in_seq. lia. Qed.
Lemma dreads_ext m d1 d2 a b : dreads m d1 d2 a -> (forall i j, i < d1 -> j < d2 -> a i j = b i j) -> dreads m d1 d2 b.
Proof. intros (H1 & H2 & H3) E. repeat split; auto. intros. rewrite <- E by auto. auto. Qed.
Theorem modify_ok m d1 d2 a h e : dbuilt m -> dreads m d1 d2 a ->
  exists m', d_modify h (m, e) = Ok (m', e) /\ dbuilt m' /\ dreads m' d1 d2 (fun i j => h (a i j)).
Proof.
  intros Hb Hr. unfold d_modify. rewrite d_for_ok. cbn [fst]. assert (R : dr m = d1 /\ dc m = d2) by (destruct Hr as (? & ? & _); auto).
  destruct R as [R1 R2]. rewrite R1, R2. destruct (pass h e (positions d1 d2) m d1 d2 a) as (m' & E & B & Q); auto using positions_nodup.
  - intros (i, j). apply positions_in.
  - exists m'. split; [exact E|]. split; [exact B|]. eapply dreads_ext; [exact Q|]. intros i j Hi Hj. cbn beta.
    rewrite (proj2 (inp_in (i, j) (positions d1 d2))); [reflexivity|]. now apply positions_in.
Qed.
Theorem modify_row_ok m d1 d2 a h e i : dbuilt m -> dreads m d1 d2 a ->
  (i < d1 -> exists m', d_modify_row h i (m, e) = Ok (m', e) /\ dbuilt m' /\ dreads m' d1 d2 (fun x y => if x =? i then h (a x y) else a x y)) /\
  (d1 <= i -> d_modify_row h i (m, e) = Abort).
Proof.
  intros Hb Hr. assert (R : dr m = d1 /\ dc m = d2) by (destruct Hr as (? & ? & _); auto). destruct R as [R1 R2]. split; intros Hi.
  - unfold d_modify_row. cbn [fst]. rewrite d_for_row_ok by lia. rewrite R2.
    destruct (pass h e (map (fun j => (i, j)) (seq 0 d2)) m d1 d2 a) as (m' & E & B & Q); auto.
    + apply FinFun.Injective_map_NoDup; [|apply seq_NoDup]. intros x y E. now injection E.
    + intros p Hp. apply in_map_iff in Hp. destruct Hp as (j & <- & Hj). apply in_seq in Hj. cbn. lia.
    + rewrite map_map in E. exists m'. split; [exact E|]. split; [exact B|]. eapply dreads_ext; [exact Q|]. intros x y Hx Hy. cbn beta.
      destruct (Nat.eqb_spec x i) as [->|Nx].
      * rewrite (proj2 (inp_in _ _)); [reflexivity|]. apply in_map_iff. exists y. split; [reflexivity|]. apply in_seq. lia.
      * destruct (inp (x, y) _) eqn:Z; [|reflexivity]. apply inp_in, in_map_iff in Z. destruct Z as (? & [= F _] & _). congruence.
  - unfold d_modify_row, d_for_row, d_row_begin, d_rows. cbn [fst]. now rewrite (proj2 (Nat.ltb_ge i (dr m))) by lia.
Qed.
Theorem modify_col_ok m d1 d2 a h e j : dbuilt m -> dreads m d1 d2 a ->
  (j < d2 -> exists m', d_modify_col h j (m, e) = Ok (m', e) /\ dbuilt m' /\ dreads m' d1 d2 (fun x y => if y =? j then h (a x y) else a x y)) /\
  (d2 <= j -> d_modify_col h j (m, e) = Abort).
Proof.
  intros Hb Hr. assert (R : dr m = d1 /\ dc m = d2) by (destruct Hr as (? & ? & _); auto). destruct R as [R1 R2]. split; intros Hj.
  - unfold d_modify_col. cbn [fst]. rewrite d_for_col_ok by lia. rewrite R1.
    destruct (pass h e (map (fun i => (i, j)) (seq 0 d1)) m d1 d2 a) as (m' & E & B & Q); auto.
    + apply FinFun.Injective_map_NoDup; [|apply seq_NoDup]. intros x y E. now injection E.
    + intros p Hp. apply in_map_iff in Hp. destruct Hp as (i & <- & Hi). apply in_seq in Hi. cbn. lia.
    + rewrite map_map in E. exists m'. split; [exact E|]. split; [exact B|]. eapply dreads_ext; [exact Q|]. intros x y Hx Hy. cbn beta.
      destruct (Nat.eqb_spec y j) as [->|Nx].
      * rewrite (proj2 (inp_in _ _)); [reflexivity|]. apply in_map_iff. exists x. split; [reflexivity|]. apply in_seq. lia.
      * destruct (inp (x, y) _) eqn:Z; [|reflexivity]. apply inp_in, in_map_iff in Z. destruct Z as (? & [= _ F] & _). congruence.
  - unfold d_modify_col, d_for_col, d_col_begin, d_cols. cbn [fst]. now rewrite (proj2 (Nat.ltb_ge j (dc m))) by lia.
Qed.
(** A single write. *)
Theorem put_ok m d1 d2 a e it x : dbuilt m -> dreads m d1 d2 a ->
  (di1 it < d1 -> di2 it < d2 -> exists m', di_put (m, e) it x = Ok (m', e) /\ dbuilt m' /\
     dreads m' d1 d2 (fun i j => if (i =? di1 it) && (j =? di2 it) then x else a i j)) /\
  (d1 <= di1 it \/ d2 <= di2 it -> di_put (m, e) it x = if is0 e then Ok (m, x) else Abort).
Proof.
  intros Hb Hr. assert (R : dr m = d1 /\ dc m = d2) by (destruct Hr as (? & ? & _); auto). destruct R as [R1 R2]. split.
  - intros Hi Hj. destruct (put_set m e it x) as (m' & E & S & _ & D1 & D2 & A); try lia; [now apply dbuilt_wf|].
    exists m'. split; [exact E|]. split; [eapply db_set; eauto|]. split; [unfold d_rows; congruence|]. split; [unfold d_cols; congruence|].
    intros i j Hi' Hj'. rewrite A by lia. destruct ((i =? di1 it) && (j =? di2 it)); [reflexivity|]. now apply Hr.
  - intros H. unfold di_put, di_valid, d_rows, d_cols, is0. cbn [fst snd]. rewrite R1, R2.
    replace ((di1 it <? d1) && (di2 it <? d2)) with false; [now destruct (neqb e n0)|].
    symmetry. apply andb_false_iff. rewrite !Nat.ltb_ge. lia.
Qed.
Theorem ref_end m d1 d2 a e it : dreads m d1 d2 a -> d1 <= di1 it \/ d2 <= di2 it ->
  di_ref (m, e) it = if is0 e then Ok e else Abort.
Proof.
  intros (R1 & R2 & _) H. unfold d_rows, d_cols in *. unfold di_ref, di_valid, d_rows, d_cols, is0. cbn [fst snd]. rewrite R1, R2.
  replace ((di1 it <? d1) && (di2 it <? d2)) with false; [now destruct (neqb e n0)|].
  symmetry. apply andb_false_iff. rewrite !Nat.ltb_ge. lia.
Qed.
End Dense.

Section Sparse.
Variable N : Num.
Variable HZ : ZeroLaws N.
Implicit Types m : smat N.
Lemma modify_step (h : N -> N) fuel cn R x v l R' : rows_ok cn R -> pos R x v l -> it_put (crs R cn) x (h v) = Ok (crs R' cn) ->
  s_modify_loop (S fuel) h (crs R cn) x = let* it' := it_inc (crs R' cn) x in s_modify_loop fuel h (crs R' cn) it'.
Proof.
  intros HR Hp Hput. cbn [s_modify_loop]. rewrite s_end_crs. cbn [bind]. rewrite it_ne_end by (eapply pos_valid; eauto). cbn [negb].
  rewrite (pos_get _ _ _ _ _ HR Hp). cbn [bind]. rewrite Hput. reflexivity.
Qed.
Lemma modify_srep h m d1 d2 f : srep m d1 d2 f ->
  exists m', s_modify h m = Ok m' /\ srep m' d1 d2 (fun i j => option_map h (f i j)).
Proof.
  intros (R & -> & HR & Hl & H1 & H2 & Hf). unfold s_modify.
  destruct (begins_ok R d2 HR) as [_ (it & -> & Hit)]. cbn [bind].
  destruct (inplace_all h (fun _ => True) d2 (fun fuel m it => s_modify_loop fuel h m it) R it) as (R' & G1 & G2 & G3 & G4); auto.
  - apply (inplace_loop h (fun _ => True) d2 (fun fuel m it => s_modify_loop fuel h m it)).
    + intros fuel m it' e He Heq. cbn [s_modify_loop]. rewrite He. cbn [bind]. now rewrite Heq.
    + intros fuel R0 x v l R' HR0 Hp Hput _ _ _. eapply modify_step; eauto.
  - exists (crs R' d2). split; auto. exists R'. repeat split; auto; [congruence|].
    intros i j Hi Hj. specialize (G4 i j). unfold lookR in G4; cbn [fst snd] in G4. rewrite G4, Hf by auto. reflexivity.
Qed.
Lemma modify_built h cn : forall l fuel it R m', rows_ok cn R -> at_list R cn it l -> built (crs R cn) ->
  (forall p v, In p (map key l) -> lookR R p = Some v -> neqb (h v) n0 = false) ->
  s_modify_loop fuel h (crs R cn) it = Ok m' -> built m'.
Proof.
  induction l as [|x l IH]; intros fuel it R m' HR Hit Hb Hg E; (destruct fuel as [|fuel]; [discriminate|]).
  - cbn [s_modify_loop] in E. rewrite s_end_crs in E. cbn [bind] in E. simpl in Hit. rewrite it_eq_end in E by exact Hit. cbn [negb] in E. congruence.
  - destruct Hit as [-> (v & Hp)].
    destruct (put_pos cn R x v l (h v) HR Hp) as (R' & H1 & H2 & H3 & H4 & H5 & H6 & H7).
    pose proof (pos_nodup cn R x v l HR Hp) as Hnd. inversion Hnd as [|? ? Hni _]; subst.
    pose proof (pos_look cn R x v l HR Hp) as Hlx.
    rewrite (modify_step h fuel cn R x v l R') in E by auto.
    destruct (pos_inc R' x (h v) l cn H2 H4) as (p & Ei). rewrite Ei in E. cbn [bind] in E.
    eapply (IH fuel _ R'); [exact H2|eapply at_list_next; eauto| | |exact E].
    + eapply b_set; [exact Hb|]. apply H6. apply (Hg (key x)); [left; reflexivity|exact Hlx].
    + intros (i, j) w Hin Hw. rewrite H5 in Hw. destruct ((i =? it1 x) && (j =? it2 x)) eqn:Eq.
      * exfalso. apply andb_true_iff in Eq as [Ea Eb]. apply Nat.eqb_eq in Ea, Eb. subst i j. apply Hni. exact Hin.
      * apply (Hg (i, j)); [now right|exact Hw].
Qed.
Theorem s_modify_ok m d1 d2 a h : built m -> reads m d1 d2 a ->
  exists m', s_modify h m = Ok m' /\
    reads m' d1 d2 (fun i j => if is0 (a i j) then a i j else h (a i j)) /\
    s_entries m' = Ok (map (fun p => (fst p, snd p, h (a (fst p) (snd p)))) (nonzeros d1 d2 a)) /\
    s_filled m' = s_filled m /\
    ((forall i j, i < d1 -> j < d2 -> is0 (a i j) = false -> is0 (h (a i j)) = false) -> built m').
Proof.
  intros Hb Hr. destruct (inv_reads HZ m d1 d2 a (built_inv HZ m Hb) Hr) as [Hs Hn].
  destruct (modify_srep h m d1 d2 _ Hs) as (m' & E & Hs').
  exists m'. split; [exact E|].
  assert (Hent : s_entries m' = Ok (map (fun p => (fst p, snd p, h (a (fst p) (snd p)))) (nonzeros d1 d2 a))).
  { destruct (for_elist m' d1 d2 _ Hs') as (_ & _ & F). unfold s_entries. rewrite (F _ (fun i j v acc => Ok (acc ++ [(i, j, v)]))).
    rewrite (foreach_collect (fun e => (fst (fst e), snd (fst e), snd e))). simpl. f_equal.
    unfold elist, nonzeros. induction (positions d1 d2) as [|p ps IH]; [reflexivity|]. cbn [flat_map filter]. rewrite map_app, IH.
    unfold nz, is0. destruct (neqb (a (fst p) (snd p)) n0); reflexivity. }
  split; [|split; [exact Hent|split]].
  - eapply reads_ext; [apply (srep_reads HZ); exact Hs'|]. intros i j Hi Hj. cbn beta. unfold nz, is0.
    specialize (Hn i j Hi Hj). unfold norm0, is0 in Hn. destruct (neqb (a i j) n0); [cbn; congruence|reflexivity].
  - assert (L : forall (k : smat N) c g, srep k d1 d2 g -> s_entries k = Ok c -> s_filled k = length c).
    { intros k c g Hk Hc. destruct (for_elist k d1 d2 _ Hk) as (F1 & _ & F). unfold s_entries in Hc.
      rewrite (F _ (fun i j v acc => Ok (acc ++ [(i, j, v)]))) in Hc.
      rewrite (foreach_collect (fun e => (fst (fst e), snd (fst e), snd e))) in Hc. injection Hc as <-. simpl. rewrite map_length. exact F1. }
    rewrite (L _ _ _ Hs' Hent), (L _ _ _ Hs (fact_entries HZ m d1 d2 a (built_inv HZ m Hb) Hr)). now rewrite !map_length.
  - intros Hh. destruct Hs as (R & -> & HR & Hl & H1 & H2 & Hf). unfold s_modify in E.
    destruct (begins_ok R d2 HR) as [_ (it & Eb & Hit)]. rewrite Eb in E. cbn [bind] in E.
    eapply (modify_built h d2 _ _ it R); eauto. intros (i, j) v Hin Hv.
    destruct (lookR_none_out d2 R i j HR) as [Hi Hj]; [congruence|]. unfold lookR in Hv; cbn [fst snd] in Hv. rewrite Hf in Hv by lia.
    unfold nz in Hv. destruct (neqb (a i j) n0) eqn:E0; [discriminate|]. injection Hv as <-. apply Hh; auto; lia.
Qed.
(** Writing through an end iterator: mEmpty. *)
Definition with_empty m (x : N) : smat N := mkS (sv m) (sc m) (srp m) (scn m) x.
Lemma search_empty m x i2 : forall n idx, s_search n (with_empty m x) i2 idx = s_search n m i2 idx.
Proof. induction n as [|n IH]; intros idx; [reflexivity|]. cbn [s_search with_empty sc]. destruct (vget (sc m) idx) as [c| | | | |]; [|reflexivity..]. cbn [bind]. destruct (c =? i2); [reflexivity|]. destruct (i2 <? c); [reflexivity|]. apply IH. Qed.
Lemma internal_empty m x i j v idx found : is0 (semp m) = true -> s_internal_at m i j false = Ok (v, idx, found) ->
  s_internal_at (with_empty m x) i j false = if found : bool then Ok (v, idx, true) else if is0 x then Ok (x, idx, false) else Abort.
Proof.
  intros H0 E. unfold s_internal_at in *. unfold is0 in H0. rewrite H0 in E. cbn [assert_ bind] in E.
  change (s_empty (with_empty m x)) with (s_empty m). change (s_row_entry_count (with_empty m x) i) with (s_row_entry_count m i).
  cbn [semp sv with_empty]. unfold is0.
  destruct (negb (s_empty m)).
  - destruct (s_row_entry_count m i) as [[s p]| | | | |]; try discriminate. cbn [bind] in *. rewrite Nat.eqb_refl in *.
    rewrite search_empty. destruct (s_search s m j p) as [[k f]| | | | |]; try discriminate. cbn [bind] in *. destruct f.
    + destruct (vget (sv m) k); try discriminate. cbn [bind] in *. injection E as <- <- <-. reflexivity.
    + injection E as <- <- <-. now destruct (neqb x n0).
  - injection E as <- <- <-. now destruct (neqb x n0).
Qed.
Theorem s_put_end m d1 d2 a it x : built m -> reads m d1 d2 a -> at_end m it ->
  exists m', it_put m it x = Ok m' /\ s_rows m' = d1 /\ s_cols m' = d2 /\
    forall i j, i < d1 -> j < d2 -> s_at m' i j = if is0 (a i j) then if is0 x then Ok x else Abort else Ok (a i j).
Proof.
  intros Hb Hr Ha. destruct (inv_reads HZ m d1 d2 a (built_inv HZ m Hb) Hr) as [Hs Hn].
  assert (Z0 : is0 (semp m) = true).
  { destruct Hs as (R & -> & _). unfold crs. cbn [semp]. unfold is0. apply (zl_refl HZ). }
  exists (with_empty m x). split; [|destruct Hr as (E1 & E2 & E3); split; [exact E1|split; [exact E2|]]].
  - unfold it_put. rewrite Ha. unfold is0 in Z0. rewrite Z0. reflexivity.
  - intros i j Hi Hj. unfold s_at. change (s_rows (with_empty m x)) with (s_rows m). change (s_cols (with_empty m x)) with (s_cols m).
    rewrite E1, E2, (proj2 (Nat.ltb_lt _ _) Hi), (proj2 (Nat.ltb_lt _ _) Hj). cbn [assert_ bind].
    destruct (srep_internal_at (zl_refl HZ) m d1 d2 _ i j Hs Hi Hj) as (idx & E).
    rewrite (internal_empty m x i j _ _ _ Z0 E). unfold nz, is0. destruct (neqb (a i j) n0); [|reflexivity]. now destruct (neqb x n0).
Qed.
(** Writing through a valid iterator. *)
Theorem s_put_ok m d1 d2 a it x : built m -> reads m d1 d2 a -> walks m it -> ~ at_end m it ->
  exists m', it_put m it x = Ok m' /\ reads m' d1 d2 (fun i j => if (i =? it1 it) && (j =? it2 it) then x else a i j) /\
    s_filled m' = s_filled m /\ (is0 x = false -> built m').
Proof.
  intros Hb Hr Hw Ha. destruct (inv_reads HZ m d1 d2 a (built_inv HZ m Hb) Hr) as [Hs Hn].
  destruct Hs as (R & -> & HR & Hl & H1 & H2 & Hf).
  destruct (walks_at R d2 it HR Hw) as (l & Hat). destruct l as [|y l]; [exfalso; apply Ha; exact Hat|].
  destruct Hat as [-> (w & Hp)].
  destruct (put_pos d2 R y w l x HR Hp) as (R' & E & HR' & Hl' & _ & Hlook & Hset & _).
  exists (crs R' d2). split; [exact E|].
  assert (Hs' : srep (crs R' d2) d1 d2 (fun i j => if (i =? it1 y) && (j =? it2 y) then Some x else nz (a i j))).
  { exists R'. split; [reflexivity|]. split; [|split; [|split; [|split]]]; auto; try lia.
    intros i j Hi Hj. specialize (Hlook i j). unfold lookR in Hlook; cbn [fst snd] in Hlook. rewrite Hlook.
    destruct ((i =? it1 y) && (j =? it2 y)); auto. }
  split; [|split].
  - eapply reads_ext; [apply (srep_reads HZ); exact Hs'|]. intros i j Hi Hj. cbn beta. destruct ((i =? it1 y) && (j =? it2 y)); [reflexivity|].
    rewrite val_nz. auto.
  - unfold it_put in E. rewrite (pos_valid _ _ _ _ _ HR Hp) in E.
    unfold vset in E. destruct (itp y <? length (sv (crs R d2))); [|discriminate]. cbn [bind] in E.
    assert (E2 : forall u v : smat N, Ok u = Ok v -> sv u = sv v) by (intros u v Q; injection Q as ->; reflexivity).
    apply E2 in E. cbn [sv] in E. unfold s_filled. rewrite <- E. now rewrite upd_length.
  - intros H0. eapply b_set; [exact Hb|]. now apply Hset.
Qed.
End Sparse.
