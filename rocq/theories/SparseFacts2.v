(** Interface-level facts about sparse matrices, continued: operators, products, aggregates. *)
From Coq Require Import List Arith Lia Bool Sorted Field_theory Ring Field.
From Verif Require Import Base BaseProofs Num Spec SpecProofs VectorModel SparseModel SparseSpec
  SparseProofs SparseIter SparseEntries SparseOps SparseOps2 SparseOps3 SparseFacts.
Import ListNotations.
Open Scope res_scope.

Section Facts2.
Context {N : Num}.
Hypothesis HZ : ZeroLaws N.
Let Hz : zero_refl N := zero_laws_refl N HZ.
Implicit Types m : smat N.
Implicit Types a b : nat -> nat -> N.

(** *** A op= A *)
Lemma fact_self op m d1 d2 a : inv m -> reads m d1 d2 a -> op n0 n0 = n0 ->
  (forall i j, i < d1 -> j < d2 -> is0 (a i j) = false -> is0 (op (a i j) (a i j)) = false) ->
  exists m', s_combine_self op m = Ok m' /\ inv m' /\ reads m' d1 d2 (fun i j => op (a i j) (a i j)).
Proof.
  intros Hi Hr H0 Hg. destruct (inv_reads HZ m d1 d2 a Hi Hr) as [Hs Hn].
  destruct (srep_combine_self op m d1 d2 _ Hs) as (m' & E & Hs').
  { intros i j v Hx Hy Hv. destruct (is0 (a i j)) eqn:E0.
    - rewrite (nz_none _ E0) in Hv. discriminate.
    - rewrite (nz_some _ E0) in Hv. injection Hv as <-. now apply Hg. }
  assert (Hs2 : srep m' d1 d2 (fun i j => nz (op (a i j) (a i j)))).
  { eapply srep_ext; [exact Hs'|]. intros i j Hx Hy. cbn beta. destruct (is0 (a i j)) eqn:E0.
    - rewrite (nz_none _ E0). rewrite <- (Hn i j Hx Hy), (norm0_0 _ E0), H0. simpl. symmetry. apply nz_n0; auto.
    - rewrite (nz_some _ E0). simpl. symmetry. apply nz_some. auto. }
  exists m'. split; auto. split; [eapply inv_nz; [auto|exact Hs2]|]. eapply reads_ext; [apply srep_reads_nz; [auto|exact Hs2]|].
  intros i j Hx Hy. cbn beta. destruct (is0 (a i j)) eqn:E0.
  - rewrite <- (Hn i j Hx Hy), (norm0_0 _ E0), H0. apply norm0_0. apply Hz.
  - apply norm0_nz. auto.
Qed.

(** *** Hadamard *)
Lemma fact_hadamard A B d1 d2 a b : inv A -> inv B -> reads A d1 d2 a -> reads B d1 d2 b ->
  (forall i j, i < d1 -> j < d2 -> (n0 * b i j)%num = n0) ->
  (forall i j, i < d1 -> j < d2 -> is0 (a i j) = false -> is0 (b i j) = true ->
     (exists j', j < j' /\ j' < d2 /\ is0 (a i j') = false) \/
     (forall i' j', i < i' -> i' < d1 -> j' < d2 -> is0 (a i' j') = true) \/
     ((exists j', S i < d1 /\ j' < d2 /\ is0 (a (S i) j') = false) /\
      exists j', j' < j /\ is0 (a i j') = false /\ is0 (b i j') = false)) ->
  exists C, s_hadamard_eq A B = Ok C /\
    reads C d1 d2 (fun i j => if is0 (a i j) || is0 (b i j) then n0 else (a i j * b i j)%num).
Proof.
  intros HA HB Ra Rb Hy HK. destruct (inv_reads HZ A d1 d2 a HA Ra) as [Sa Na].
  destruct (inv_reads HZ B d1 d2 b HB Rb) as [Sb Nb].
  destruct (srep_hadamard Hz A B d1 d2 _ _ Sa Sb) as (C & E & Sc).
  - intros i j y Hi Hj Hv. cbn beta in Hv. destruct (is0 (b i j)) eqn:E0.
    + rewrite (nz_none _ E0) in Hv. discriminate.
    + rewrite (nz_some _ E0) in Hv. injection Hv as <-. auto.
  - assert (Hs : forall x : N, nz x <> None <-> is0 x = false).
    { intros x. destruct (is0 x) eqn:E0; [rewrite (nz_none _ E0)|rewrite (nz_some _ E0)]; split; congruence. }
    assert (Hs' : forall x : N, nz x = None <-> is0 x = true).
    { intros x. destruct (is0 x) eqn:E0; [rewrite (nz_none _ E0)|rewrite (nz_some _ E0)]; split; congruence. }
    intros i j Hi Hj Hn Hb. apply Hs in Hn. apply Hs' in Hb.
    destruct (HK i j Hi Hj Hn Hb) as [(j' & K1 & K2 & K3)|[K|((j1 & K0 & K1 & K2) & j2 & K3 & K4 & K5)]].
    + left. exists j'. rewrite Hs. auto.
    + right; left. intros i' j' H1 H2 H3. apply Hs'. auto.
    + right; right. split; [exists j1|exists j2]; rewrite ?Hs; auto.
  - exists C. split; auto. eapply reads_ext; [eapply srep_reads; [auto|exact Sc]|]. intros i j _ _. cbn beta.
    destruct (is0 (b i j)) eqn:Eb.
    + rewrite (nz_none _ Eb), orb_true_r. reflexivity.
    + rewrite (nz_some _ Eb), orb_false_r. destruct (is0 (a i j)) eqn:Ea.
      * now rewrite (nz_none _ Ea).
      * now rewrite (nz_some _ Ea).
Qed.

(** *** Scaling by zero *)
Lemma fact_scale0 m f : is0 f = true -> exists m', s_scale m f = Ok m' /\ s_filled m' = 0.
Proof. intros H. unfold s_scale, s_scale_eq. unfold is0 in H. rewrite H. eexists. split; reflexivity. Qed.

(** *** erase: what the returned iterator designates *)
Lemma iters_pos (R : list (list (nat * N))) y l : forall pre, iters 0 0 R = pre ++ y :: l -> exists v, pos R y v l.
Proof.
  assert (Hw : forall pre x v, pos R x v (pre ++ y :: l) -> exists w, pos R y w l).
  { induction pre as [|z pre IH]; intros x v Hp; simpl in Hp.
    - eapply pos_next; eauto.
    - apply pos_next in Hp as (w & Hp). eauto. }
  intros [|x pre] H.
  - eapply pos_first; eauto.
  - destruct (pos_first R x _ H) as (v & Hp). eauto.
Qed.

Lemma srep_keys R d1 d2 a : rows_ok d2 R -> length R = d1 ->
  (forall i j, i < d1 -> j < d2 -> look (nth i R []) j = nz (a i j)) ->
  map key (iters 0 0 R) = nonzeros d1 d2 a.
Proof.
  intros HR Hl Hf. rewrite iters_keys.
  assert (E : ents 0 R = elist d1 d2 (fun i j => nz (a i j))).
  { apply (is_entries_unique d1 d2 (fun i j => nz (a i j))); [|apply elist_entries]. split.
    - eapply ents_sorted; eauto.
    - intros i j v. rewrite (ents_in d2 R 0 i j v HR). rewrite Nat.sub_0_r, Hl. simpl. split.
      + intros (_ & Hi & Hk).
        assert (Hj : j < d2). { destruct (lt_dec j d2); auto. exfalso.
          assert (Hro : row_ok d2 (nth i R [])) by (apply (proj1 (Forall_forall _ _) HR); apply nth_In; lia).
          rewrite (look_out d2 _ j Hro) in Hk by lia. discriminate. }
        rewrite Hf in Hk by auto. auto.
      + intros (Hi & Hj & Hk). rewrite Hf by auto. repeat split; auto; lia. }
  rewrite E, elist_nonzeros, map_map. cbn [with_value fst]. rewrite <- (map_id (nonzeros d1 d2 a)) at 2.
  apply map_ext. intros []; reflexivity.
Qed.

Lemma after_split p pre post : ~ In p pre -> after p (pre ++ p :: post) = hd_error post.
Proof.
  induction pre as [|q pre IH]; intros Hn; simpl.
  - now rewrite !Nat.eqb_refl.
  - destruct ((fst q =? fst p) && (snd q =? snd p)) eqn:E.
    + exfalso. apply Hn. left. apply andb_true_iff in E as [E1 E2]. apply Nat.eqb_eq in E1, E2.
      destruct p, q; simpl in *; congruence.
    + apply IH. intros H; apply Hn; now right.
Qed.

Lemma fact_erase m it d1 d2 a : inv m -> reads m d1 d2 a -> walks m it -> ~ at_end m it ->
  exists m' it', s_erase m it = Ok (m', it') /\ inv m' /\ reads m' d1 d2 (put a (it1 it) (it2 it) n0) /\
  match after (it1 it, it2 it) (nonzeros d1 d2 a) with
  | None => at_end m' it'
  | Some (x, y) => it2 it' = y /\ it_get m' it' = Ok (a x y) /\ it1 it' <= x /\
      (x = it1 it -> it1 it' = x) /\
      (x = it1 it + 1 -> (exists y', y' < it2 it /\ is0 (a (it1 it) y') = false) -> it1 it' = x)
  end.
Proof.
  intros Hi Hr Hw Hv. destruct (inv_reads HZ m d1 d2 a Hi Hr) as [Hs Hn].
  destruct Hs as (R & -> & HR & Hl & H1 & H2 & Hf).
  destruct (walks_at R d2 it HR Hw) as (l & Hat). destruct l as [|x l]; [exfalso; apply Hv; exact Hat|].
  destruct Hat as [-> (v & Hp)]. pose proof Hp as Hp0.
  destruct Hp as (R1 & ra & c & rb & R2 & HRe & Hx & Hle). 
  destruct (erase_pos d2 R1 ra c v rb R2) as (it' & He & HR' & Hnext); [rewrite <- HRe; auto|].
  rewrite <- HRe, <- Hx in He. exists (crs (R1 ++ (ra ++ rb) :: R2) d2), it'. split; [exact He|].
  destruct (inv_erase HZ _ _ _ _ a d1 d2 Hi Hr Hw He) as [Hi' Hr']. split; auto. split; [exact Hr'|].
  (* the entry following x *)
  destruct (pos_suffix _ _ _ _ Hp0) as (pre & Hsuf).
  pose proof (srep_keys R d1 d2 a HR Hl Hf) as Hk. rewrite Hsuf, map_app in Hk. cbn [map] in Hk.
  pose proof (iters_nodup d2 R HR) as Hnd. rewrite Hsuf, map_app in Hnd. cbn [map] in Hnd.
  rewrite <- Hk. change (it1 x, it2 x) with (key x).
  rewrite after_split by (apply NoDup_remove_2 in Hnd; intros Hc; apply Hnd; apply in_or_app; now left).
  set (p := length (concat R1) + length ra) in *.
  assert (Hkeys : map key l = map key (rest (length R1) p rb R2)) by (rewrite Hle; apply rest_keys).
  rewrite Hkeys. set (i := length R1) in *.
  assert (Hsuf' : exists pre', iters 0 0 (R1 ++ (ra ++ rb) :: R2) = pre' ++ rest i p rb R2).
  { exists (iters 0 0 R1 ++ row_iters i (length (concat R1)) ra). rewrite iters_app. simpl.
    rewrite row_iters_app, <- !app_assoc. f_equal. unfold rest. fold i p.
    rewrite app_length, Nat.add_assoc. fold p. reflexivity. }
  destruct Hsuf' as (pre' & Hsuf').
  destruct (rest i p rb R2) as [|y l'] eqn:Er; [exact Hnext|]. cbn [map hd_error].
  destruct Hnext as (N1 & N2 & N3 & N4).
  destruct (iters_pos _ y l' pre' Hsuf') as (w & Hpy).
  pose proof (pos_look d2 _ y w l' HR' Hpy) as Hly. unfold lookR, key in Hly. cbn [fst snd] in Hly.
  pose proof (pos_in _ _ _ _ _ HR' Hpy) as [Hy1 Hy2].
  assert (Hlen : length (R1 ++ (ra ++ rb) :: R2) = length R) by (rewrite HRe, !app_length; reflexivity).
  assert (Hky : In (key y) (map key (rest i (p + 1) rb R2))) by (rewrite (rest_keys i (p+1) p), Er; now left).
  assert (Hne : key y <> key x).
  { intros E. rewrite <- Hle in Hky. rewrite E in Hky. apply NoDup_remove_2 in Hnd. apply Hnd.
    apply in_or_app. now right. }
  assert (Hay : w = a (it1 y) (it2 y)).
  { pose proof (look_erase d2 R1 ra c v rb R2) as Hle2. rewrite <- HRe in Hle2. specialize (Hle2 HR (it1 y) (it2 y)).
    unfold lookR in Hle2. cbn [fst snd] in Hle2. rewrite Hly in Hle2.
    destruct ((it1 y =? length R1) && (it2 y =? c)); [discriminate|].
    rewrite Hf in Hle2 by lia. unfold nz in Hle2. destruct (neqb _ n0); congruence. }
  unfold key. split; auto. split; [|split; [exact N3|split]].
  - unfold it_get, it_valid. rewrite rows_crs, cols_crs, N1, N2.
    assert (Hg := pos_get _ _ _ _ _ HR' Hpy). unfold it_get in Hg. rewrite (pos_valid _ _ _ _ _ HR' Hpy) in Hg.
    bdec. rewrite Hg. congruence.
  - intros E. rewrite N4; auto. left. intros ->. unfold rest in Er. cbn [row_iters app length] in Er.
    destruct (iters_cases R2 (S i) (p + 0)) as [[E1 _]|(k & c' & v' & rb' & R3 & E1 & E2)]; [congruence|].
    rewrite E2 in Er. injection Er as <- _. rewrite Hx in E. cbn [it1] in E. lia.
  - intros E (y' & Hy' & Hny). rewrite N4; auto. destruct rb as [|e rb]; [|left; discriminate]. right. split.
    + intros ->. rewrite Hx in Hy', Hny. cbn [it1 it2] in Hy', Hny.
      assert (Hlk : look (nth i R []) y' = nz (a i y')).
      { assert (c < d2). { pose proof (pos_in _ _ _ _ _ HR Hp0) as [_ Hc]. rewrite Hx in Hc. exact Hc. }
        apply Hf; [|lia]. rewrite <- Hl, HRe, app_length. simpl. unfold i. lia. }
      rewrite (nz_some _ Hny) in Hlk. rewrite HRe in Hlk. unfold i in Hlk. rewrite nth_mid_eq in Hlk. simpl in Hlk.
      destruct (Nat.eqb_spec c y'); [lia|discriminate].
    + unfold rest in Er. cbn [row_iters app length] in Er.
      destruct (iters_cases R2 (S i) (p + 0)) as [[E1 _]|(k & c' & v' & rb' & R3 & E1 & E2)]; [congruence|].
      rewrite E2 in Er. injection Er as <- _. rewrite Hx in E. cbn [it1] in E.
      assert (k = 0) by lia. subst k. simpl in E1. exists ((c', v') :: rb'), R3. split; auto. discriminate.
Qed.

(** *** swap *)
Lemma fact_swap (A B : smat N) : s_cols A = s_cols B -> inv A -> inv B -> s_swap A B = (B, A).
Proof.
  intros E (a & R & EA & _) (b & Q & EB & _). unfold s_swap. rewrite EA, EB. rewrite E. reflexivity.
Qed.

(** *** equality *)
Lemma fact_eq (A B : smat N) d1 d2 e1 e2 a b : inv A -> inv B -> reads A d1 d2 a -> reads B e1 e2 b ->
  exists r, s_eq A B = Ok r /\
  (r = true <-> d1 = e1 /\ d2 = e2 /\ forall i j, i < d1 -> j < d2 -> neqb (a i j) (b i j) = true).
Proof.
  intros HA HB Ra Rb. destruct (Nat.eq_dec d1 e1) as [<-|Hd1]; [destruct (Nat.eq_dec d2 e2) as [<-|Hd2]|].
  - destruct (inv_reads HZ A d1 d2 a HA Ra) as [Sa Na]. destruct (inv_reads HZ B d1 d2 b HB Rb) as [Sb Nb].
    destruct (srep_eq Hz A B d1 d2 _ _ Sa Sb) as (r & E & Hiff). exists r. split; auto. rewrite Hiff. clear Hiff.
    assert (Hpt : forall i j, i < d1 -> j < d2 ->
      ((match nz (a i j) with
        | Some v => match nz (b i j) with Some w => neqb v w = true | None => False end
        | None => match nz (b i j) with Some _ => False | None => True end end) <-> neqb (a i j) (b i j) = true)).
    { intros i j Hi Hj. destruct (is0 (a i j)) eqn:Ea, (is0 (b i j)) eqn:Eb.
      - rewrite (nz_none _ Ea), (nz_none _ Eb), <- (Na i j), <- (Nb i j), (norm0_0 _ Ea), (norm0_0 _ Eb) by auto.
        split; auto; intros; apply Hz.
      - rewrite (nz_none _ Ea), (nz_some _ Eb), <- (Na i j), (norm0_0 _ Ea) by auto.
        rewrite (zl_sym0 HZ). unfold is0 in Eb. rewrite Eb. split; [tauto|discriminate].
      - rewrite (nz_some _ Ea), (nz_none _ Eb), <- (Nb i j), (norm0_0 _ Eb) by auto.
        unfold is0 in Ea. rewrite Ea. split; [tauto|discriminate].
      - rewrite (nz_some _ Ea), (nz_some _ Eb). tauto. }
    split.
    + intros H. repeat split; auto. intros i j Hi Hj. apply Hpt; auto. apply H; auto.
    + intros (_ & _ & H) i j Hi Hj. apply Hpt; auto.
  - exists false. split; [|split; [discriminate|tauto]]. unfold s_eq.
    destruct Ra as (-> & -> & _), Rb as (-> & -> & _).
    rewrite (proj2 (Nat.eqb_neq d2 e2)) by auto. now rewrite orb_true_r.
  - exists false. split; [|split; [discriminate|tauto]]. unfold s_eq.
    destruct Ra as (-> & -> & _), Rb as (-> & -> & _). now rewrite (proj2 (Nat.eqb_neq d1 e1)) by auto.
Qed.

(** *** vector products *)
Lemma fact_mulv m d1 d2 a v : inv m -> reads m d1 d2 a -> length v = d2 ->
  exists r, s_mulv m v = Ok r /\ length r = d1 /\
  forall i, i < d1 -> nth i r n0 = sparse_dot d2 (a i) (fun j => nth j v n0).
Proof.
  intros Hi Hr Hl. destruct (inv_reads HZ m d1 d2 a Hi Hr) as [Hs _].
  destruct (srep_mulv m d1 d2 _ v Hs Hl) as (r & E & H1 & H2). exists r. repeat split; auto.
  intros i Hx. rewrite H2 by auto. apply dotfold_sparse.
Qed.
Lemma fact_mulv_left m d1 d2 a v : inv m -> reads m d1 d2 a -> length v = d1 ->
  exists r, s_mulv_left m v = Ok r /\ length r = d2 /\
  forall j, j < d2 -> nth j r n0 = sparse_dot d1 (fun i => a i j) (fun i => nth i v n0).
Proof.
  intros Hi Hr Hl. destruct (inv_reads HZ m d1 d2 a Hi Hr) as [Hs _].
  destruct (srep_mulv_left m d1 d2 _ v Hs Hl) as (r & E & H1 & H2). exists r. repeat split; auto.
  intros j Hx. rewrite H2 by auto. apply (dotfold_sparse d1 (fun i => a i j)).
Qed.
Lemma mulv_mismatch m (v : list N) : s_cols m <> length v -> s_mulv m v = Throw MatrixMulMismatch.
Proof. intros H. unfold s_mulv, v_size. now rewrite (proj2 (Nat.eqb_neq _ _) H). Qed.
Lemma mulv_left_mismatch m (v : list N) : s_rows m <> length v -> s_mulv_left m v = Throw MatrixMulMismatch.
Proof. intros H. unfold s_mulv_left, v_size. now rewrite (proj2 (Nat.eqb_neq _ _) H). Qed.

(** *** aggregates *)
Lemma fact_values m d1 d2 a : inv m -> reads m d1 d2 a ->
  sv m = map (fun p => a (fst p) (snd p)) (nonzeros d1 d2 a).
Proof.
  intros Hi Hr. destruct (inv_reads HZ m d1 d2 a Hi Hr) as [Hs _].
  destruct (for_elist m d1 d2 _ Hs) as (_ & E & _). rewrite E, elist_nonzeros, map_map. reflexivity.
Qed.
Lemma fact_sum m d1 d2 a : inv m -> reads m d1 d2 a ->
  s_sum m = fold_left nadd (map (fun p => a (fst p) (snd p)) (nonzeros d1 d2 a)) n0.
Proof. intros Hi Hr. unfold s_sum. now rewrite (fact_values m d1 d2 a Hi Hr). Qed.
Lemma fact_trace m d1 d2 a : inv m -> reads m d1 d2 a -> s_trace m = Ok (bigsum (Nat.min d1 d2) (fun i => a i i)).
Proof.
  intros Hi (E1 & E2 & E3). unfold s_trace. rewrite E1, E2. unfold for_. rewrite Nat.sub_0_r.
  assert (H : forall n k s, k + n <= Nat.min d1 d2 ->
    for_n n k (fun i v => let* x := s_at m i i in Ok (v + x)%num) s
    = Ok (fold_left (fun v i => (v + a i i)%num) (seq k n) s)).
  { induction n as [|n IH]; intros k s Hk; auto. cbn [for_n]. rewrite E3 by lia. cbn [bind]. rewrite IH by lia. reflexivity. }
  rewrite H by lia. f_equal. generalize (Nat.min d1 d2) as n. clear. induction n as [|n IH]; auto.
  rewrite seq_S, fold_left_app, IH. reflexivity.
Qed.
Lemma fact_linear m d1 d2 a i j : inv m -> reads m d1 d2 a -> i < d1 -> j < d2 ->
  s_linear_at m (i * d2 + j) = s_at m i j /\ (forall v, s_linear_set m (i * d2 + j) v = s_set m i j v).
Proof.
  intros Hi (E1 & E2 & E3) Hx Hy.
  assert (Hd : (i * d2 + j) / d2 = i) by (rewrite Nat.div_add_l, Nat.div_small by lia; lia).
  assert (Hm : (i * d2 + j) mod d2 = j) by (rewrite Nat.add_comm, Nat.mod_add, Nat.mod_small by lia; lia).
  assert (Hlt : i * d2 + j < d1 * d2) by nia.
  unfold s_linear_at, s_linear_set, s_size. rewrite E1, E2, Hd, Hm. bdec. split; reflexivity.
Qed.
Lemma fact_isnan m d1 d2 a : inv m -> reads m d1 d2 a -> @nisnan N n0 = false ->
  (s_has_nan m = true <-> exists i j, i < d1 /\ j < d2 /\ nisnan (a i j) = true).
Proof.
  intros Hi Hr H0. unfold s_has_nan. rewrite (fact_values m d1 d2 a Hi Hr), existsb_exists.
  destruct (inv_reads HZ m d1 d2 a Hi Hr) as [_ Hn]. split.
  - intros (x & Hx & E). apply in_map_iff in Hx as ((i, j) & <- & Hp). apply filter_In in Hp as [Hp _].
    apply in_positions in Hp. exists i, j. tauto.
  - intros (i & j & H1 & H2 & E). exists (a i j). split; auto. apply in_map_iff. exists (i, j). split; auto.
    apply filter_In. split; [now apply in_positions|]. cbn [fst snd]. destruct (is0 (a i j)) eqn:E0; auto. exfalso.
    rewrite <- (Hn i j H1 H2), (norm0_0 _ E0) in E. congruence.
Qed.
Lemma fact_isinf m d1 d2 a : inv m -> reads m d1 d2 a -> @nisinf N n0 = false ->
  (s_has_inf m = true <-> exists i j, i < d1 /\ j < d2 /\ nisinf (a i j) = true).
Proof.
  intros Hi Hr H0. unfold s_has_inf. rewrite (fact_values m d1 d2 a Hi Hr), existsb_exists.
  destruct (inv_reads HZ m d1 d2 a Hi Hr) as [_ Hn]. split.
  - intros (x & Hx & E). apply in_map_iff in Hx as ((i, j) & <- & Hp). apply filter_In in Hp as [Hp _].
    apply in_positions in Hp. exists i, j. tauto.
  - intros (i & j & H1 & H2 & E). exists (a i j). split; auto. apply in_map_iff. exists (i, j). split; auto.
    apply filter_In. split; [now apply in_positions|]. cbn [fst snd]. destruct (is0 (a i j)) eqn:E0; auto. exfalso.
    rewrite <- (Hn i j H1 H2), (norm0_0 _ E0) in E. congruence.
Qed.
End Facts2.

(** ** Exact arithmetic *)
Section FieldFacts.
Context {N : Num}.
Hypothesis HF : FieldLaws N.
Let HZ : ZeroLaws N := field_zero_laws N HF.
Add Field nfield3 : (fl_field N HF).
Implicit Types m : smat N.
Implicit Types a b : nat -> nat -> N.

Lemma sparse_dot_bigsum d (x y : nat -> N) : sparse_dot d x y = bigsum d (fun j => (x j * y j)%num).
Proof.
  rewrite <- dotfold_sparse. rewrite (dotfold_field HF). apply bigsum_ext. intros j _.
  rewrite val_nz, (norm0_id HF). reflexivity.
Qed.

Lemma field_no_underflow (x y : N) : is0 x = false -> is0 y = false -> is0 (x * y)%num = false.
Proof.
  rewrite !(is0_false HF). intros Hx Hy H. apply Hx.
  assert (x = (x * y) / y)%num by (field; auto). rewrite H0, H. field. auto.
Qed.

Lemma field_sum d1 d2 a : fold_left nadd (map (fun p => a (fst p) (snd p)) (nonzeros d1 d2 a)) n0
  = bigsum d1 (fun i => bigsum d2 (fun j => a i j)).
Proof.
  assert (E : map (fun p => a (fst p) (snd p)) (nonzeros d1 d2 a) = map snd (elist d1 d2 (fun i j => nz (a i j)))).
  { rewrite elist_nonzeros, map_map. reflexivity. }
  rewrite E, (sum_field HF). apply bigsum_ext. intros i _. apply bigsum_ext. intros j _.
  rewrite val_nz. apply (norm0_id HF).
Qed.

Lemma mul_assoc_tables d2 d3 (a b c : nat -> nat -> N) i l :
  bigsum d3 (fun k => (bigsum d2 (fun j => a i j * b j k) * c k l)%num)
  = bigsum d2 (fun j => (a i j * bigsum d3 (fun k => b j k * c k l))%num).
Proof.
  rewrite (bigsum_ext _ _ (fun k => bigsum d2 (fun j => (a i j * b j k * c k l)%num))) by
    (intros k _; now rewrite (bigsum_mul_r HF)).
  rewrite (bigsum_swap HF). apply bigsum_ext. intros j _. rewrite <- (bigsum_mul_l HF). apply bigsum_ext.
  intros k _. ring.
Qed.
End FieldFacts.

(** ** Ordered exact arithmetic: max / min *)
Section OrdFacts.
Context {N : Num}.
Hypothesis HO : OrdFieldLaws N.
Let HF : FieldLaws N := of_field N HO.
Let HZ : ZeroLaws N := field_zero_laws N HF.
Implicit Types m : smat N.
Implicit Types a b : nat -> nat -> N.
Notation le x y := (nleb x y = true).

Lemma lt_le (x y : N) : nltb x y = true -> le x y.
Proof.
  rewrite (of_lt N HO), negb_true_iff. intros H. destruct (of_le_total N HO x y) as [E|E]; auto. congruence.
Qed.
Lemma nlt_le (x y : N) : nltb x y = false -> le y x.
Proof. rewrite (of_lt N HO), negb_false_iff. auto. Qed.

Lemma fold_max_spec (l : list N) : forall s,
  let M := fold_left (fun s l => if nltb s l then l else s) l s in
  le s M /\ (forall x, In x l -> le x M) /\ (M = s \/ In M l).
Proof.
  induction l as [|y l IH]; intros s; cbn [fold_left]; [split; [apply (of_le_refl N HO)|]; split; auto; intros ? []|].
  destruct (nltb s y) eqn:E.
  - destruct (IH y) as (H1 & H2 & H3). split; [|split].
    + eapply (of_le_trans N HO); [apply lt_le; exact E|exact H1].
    + intros x [<-|Hx]; auto.
    + destruct H3 as [->|H3]; right; [now left|now right].
  - destruct (IH s) as (H1 & H2 & H3). split; [|split]; auto.
    + intros x [<-|Hx]; auto. eapply (of_le_trans N HO); [apply nlt_le; exact E|exact H1].
    + destruct H3 as [->|H3]; auto. right. now right.
Qed.
Lemma fold_min_spec (l : list N) : forall s,
  let M := fold_left (fun s l => if nltb l s then l else s) l s in
  le M s /\ (forall x, In x l -> le M x) /\ (M = s \/ In M l).
Proof.
  induction l as [|y l IH]; intros s; cbn [fold_left]; [split; [apply (of_le_refl N HO)|]; split; auto; intros ? []|].
  destruct (nltb y s) eqn:E.
  - destruct (IH y) as (H1 & H2 & H3). split; [|split].
    + eapply (of_le_trans N HO); [exact H1|apply lt_le; exact E].
    + intros x [<-|Hx]; auto.
    + destruct H3 as [->|H3]; right; [now left|now right].
  - destruct (IH s) as (H1 & H2 & H3). split; [|split]; auto.
    + intros x [<-|Hx]; auto. eapply (of_le_trans N HO); [exact H1|apply nlt_le; exact E].
    + destruct H3 as [->|H3]; auto. right. now right.
Qed.

Lemma in_values d1 d2 a x : In x (map (fun p => a (fst p) (snd p)) (nonzeros d1 d2 a)) <->
  exists i j, i < d1 /\ j < d2 /\ a i j = x /\ is0 x = false.
Proof.
  rewrite in_map_iff. split.
  - intros ((i, j) & <- & Hp). apply filter_In in Hp as [Hp E]. apply in_positions in Hp. cbn [fst snd] in *.
    exists i, j. apply negb_true_iff in E. tauto.
  - intros (i & j & H1 & H2 & <- & E). exists (i, j). split; auto. apply filter_In. cbn [fst snd]. rewrite E.
    split; auto. now apply in_positions.
Qed.

Lemma fact_max m d1 d2 a : inv m -> reads m d1 d2 a -> nltb (@n0 N) nminpos = true ->
  (exists i j, i < d1 /\ j < d2 /\ le nminpos (a i j)) -> greatest d1 d2 a (s_max m).
Proof.
  intros Hi Hr Hp (i0 & j0 & Hi0 & Hj0 & Hx0). unfold s_max. rewrite (fact_values HZ m d1 d2 a Hi Hr).
  destruct (fold_max_spec (map (fun p => a (fst p) (snd p)) (nonzeros d1 d2 a)) nminpos) as (H1 & H2 & H3).
  set (M := fold_left _ _ _) in *. clearbody M.
  assert (H0M : le n0 M) by (eapply (of_le_trans N HO); [apply lt_le; exact Hp|exact H1]).
  replace (nltb M n0) with false by (symmetry; rewrite (of_lt N HO), negb_false_iff; exact H0M).
  rewrite andb_false_r.
  assert (Hst : forall i j, i < d1 -> j < d2 -> le (a i j) M).
  { intros i j H4 H5. destruct (is0 (a i j)) eqn:E0.
    - apply (is0_iff HF) in E0. now rewrite E0.
    - apply H2. apply in_values. exists i, j. auto. }
  split; auto. destruct H3 as [->|H3].
  - exists i0, j0. repeat split; auto. apply (of_le_antisym N HO); auto.
  - apply in_values in H3 as (i & j & ? & ? & ? & _). exists i, j. auto.
Qed.

Lemma fact_min m d1 d2 a : inv m -> reads m d1 d2 a -> nltb (@n0 N) nmax = true ->
  (exists i j, i < d1 /\ j < d2 /\ le (a i j) nmax) -> least d1 d2 a (s_min m).
Proof.
  intros Hi Hr Hp (i0 & j0 & Hi0 & Hj0 & Hx0). unfold s_min. rewrite (fact_values HZ m d1 d2 a Hi Hr).
  destruct (fold_min_spec (map (fun p => a (fst p) (snd p)) (nonzeros d1 d2 a)) nmax) as (H1 & H2 & H3).
  set (M := fold_left _ _ _) in *. clearbody M.
  fold (s_has_zero m). pose proof (fact_has_zero HZ m d1 d2 a Hi Hr) as Hzr.
  assert (Hst : forall i j, i < d1 -> j < d2 -> is0 (a i j) = false -> le M (a i j)).
  { intros i j H4 H5 E0. apply H2. apply in_values. exists i, j. auto. }
  destruct (s_has_zero m).
  - destruct (proj1 Hzr eq_refl) as (i & j & Hi' & Hj' & E). pose proof (proj1 (is0_iff HF _) E) as E'.
    destruct (nltb n0 M) eqn:E1; cbn [andb].
    + split; [exists i, j; auto|]. intros x y Hx Hy. destruct (is0 (a x y)) eqn:E0.
      * apply (is0_iff HF) in E0. rewrite E0. apply (of_le_refl N HO).
      * eapply (of_le_trans N HO); [apply lt_le; exact E1|auto].
    + apply nlt_le in E1. split.
      * destruct H3 as [->|H3]; [|apply in_values in H3 as (x & y & ? & ? & ? & _); exists x, y; auto].
        exfalso. rewrite (of_lt N HO) in Hp. rewrite E1 in Hp. discriminate.
      * intros x y Hx Hy. destruct (is0 (a x y)) eqn:E0; auto. apply (is0_iff HF) in E0. rewrite E0. auto.
  - cbn [andb].
    assert (Hall : forall i j, i < d1 -> j < d2 -> is0 (a i j) = false).
    { intros i j H4 H5. destruct (is0 (a i j)) eqn:E0; auto.
      assert (false = true) by (apply Hzr; exists i, j; auto). discriminate. }
    split; [|auto]. destruct H3 as [->|H3].
    + exists i0, j0. repeat split; auto. apply (of_le_antisym N HO); auto.
    + apply in_values in H3 as (x & y & ? & ? & ? & _). exists x, y. auto.
Qed.
End OrdFacts.
