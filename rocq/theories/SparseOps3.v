(** Elementwise product, list construction, aggregates of sparse matrices. *)
From Coq Require Import List Arith Lia Bool Sorted.
From Verif Require Import Base BaseProofs Num Spec SpecProofs VectorModel SparseModel SparseProofs SparseIter SparseEntries SparseOps SparseOps2.
Import ListNotations.
Open Scope res_scope.

Section SparseOps3.
Context {N : Num}.
Hypothesis Hz : zero_refl N.
Notation row := (list (nat * N)).
Notation entry := (nat * nat * N)%type.
Implicit Types R : list row.
Implicit Types r ra rb : row.
Implicit Types m : smat N.

(** ** Hadamard, first loop *)
Definition had_body (i j : nat) (y : N) (a : smat N) : res (smat N) :=
  let* (x, idx, found) := s_internal_at a i j false in
  if (found : bool) then
    let* v' := vset (sv a) idx (x * y)%num in Ok (mkS v' (sc a) (srp a) (scn a) (semp a))
  else Ok (mkS (sv a) (sc a) (srp a) (scn a) (x * y)%num).

Lemma had_step a d1 d2 f i j y : srep a d1 d2 f -> i < d1 -> j < d2 -> nmul n0 y = n0 ->
  exists a', had_body i j y a = Ok a' /\
  srep a' d1 d2 (fset f i j (option_map (fun x => (x * y)%num) (f i j))).
Proof.
  intros (R & -> & HR & Hl & H1 & H2 & Hf) Hi Hj Hy. unfold had_body.
  destruct (split_nth R i) as (R1 & R2 & HRe & Hlen); [lia|].
  pose proof (Hf i j Hi Hj) as Hfij.
  set (r := nth i R []) in *. clearbody r. subst R i.
  pose proof (rows_ok_mid _ _ _ _ HR) as Hr.
  destruct (row_cases d2 r j Hr) as [(ra & w & rb & -> & Ha & Hb) | (ra & rb & -> & Ha & Hb)].
  - rewrite look_found in Hfij by auto. rewrite <- Hfij. cbn [option_map].
    rewrite internal_at_found by auto. cbn [bind].
    destruct (replace_parts R1 ra j w (w * y)%num rb R2 d2 _ eq_refl) as (E1 & E2 & E3).
    rewrite E1. cbn [bind]. rewrite E2, E3. eexists. split; [reflexivity|].
    exists (R1 ++ (ra ++ (j, (w * y)%num) :: rb) :: R2).
    split; [reflexivity|]. split; [|split; [|split; [|split]]]; auto.
    + eapply rows_ok_upd; eauto. eapply row_ok_repl; eauto.
    + rewrite app_length in *; simpl in *; lia.
    + destruct (look_change d2 ra j [(j, w)] rb Hr Ha Hb (or_intror (ex_intro _ w eq_refl))) as [_ Lr].
      rewrite app_length in Hl; simpl in Hl.
      intros i' j' Hi' Hj'. eapply look_upd_case; eauto; try lia; intros; apply Hf; lia.
  - rewrite look_missing in Hfij by auto. rewrite <- Hfij. cbn [option_map].
    destruct (internal_at_missing Hz R1 ra rb j R2 d2 false Ha Hb) as (idx & E & _).
    rewrite E. cbn [bind]. rewrite Hy. eexists. split; [reflexivity|].
    exists (R1 ++ (ra ++ rb) :: R2). split; [reflexivity|]. split; [|split; [|split; [|split]]]; auto.
    intros i' j' Hi' Hj'. rewrite Hf by auto. unfold fset.
    destruct ((i' =? length R1) && (j' =? j)) eqn:Eq; auto.
    apply andb_true_iff in Eq as [Ea Eb]. apply Nat.eqb_eq in Ea, Eb. subst. auto.
Qed.

Lemma had_foreach d1 d2 : forall (E : list entry) m f, srep m d1 d2 f -> NoDup (map fst E) ->
  (forall e, In e E -> fst (fst e) < d1 /\ snd (fst e) < d2 /\ nmul n0 (snd e) = n0) ->
  exists m' f', foreach E (fun e s => had_body (fst (fst e)) (snd (fst e)) (snd e) s) m = Ok m' /\ srep m' d1 d2 f' /\
    (forall e, In e E -> f' (fst (fst e)) (snd (fst e)) = option_map (fun x => (x * snd e)%num) (f (fst (fst e)) (snd (fst e)))) /\
    (forall i j, ~ In (i, j) (map fst E) -> f' i j = f i j).
Proof.
  induction E as [|e E IH]; intros m f Hm Hnd Hr.
  - exists m, f. simpl. repeat split; auto. intros e [].
  - cbn [foreach]. destruct (Hr e (or_introl eq_refl)) as (Hi & Hj & Hy).
    destruct (had_step m d1 d2 f _ _ (snd e) Hm Hi Hj Hy) as (m1 & -> & Hm1).
    cbn [bind]. inversion Hnd as [|? ? Hni Hnd']; subst.
    destruct (IH m1 _ Hm1 Hnd') as (m' & f' & H1 & H2 & H3 & H4).
    { intros; apply Hr; now right. }
    assert (Hpe : fst e = (fst (fst e), snd (fst e))) by (destruct (fst e); reflexivity).
    exists m', f'. repeat split; auto.
    + intros x [<-|Hx].
      * rewrite H4.
        -- unfold fset. now rewrite !Nat.eqb_refl.
        -- rewrite <- Hpe. exact Hni.
      * rewrite H3 by auto. unfold fset.
        destruct ((fst (fst x) =? fst (fst e)) && (snd (fst x) =? snd (fst e))) eqn:Eq; auto.
        exfalso. apply andb_true_iff in Eq as [Ea Eb]. apply Nat.eqb_eq in Ea, Eb. apply Hni.
        replace (fst e) with (fst x); [now apply in_map|]. destruct (fst x), (fst e); simpl in *; congruence.
    + intros i j Hn. rewrite H4.
      * unfold fset. destruct ((i =? fst (fst e)) && (j =? snd (fst e))) eqn:Eq; auto.
        exfalso. apply andb_true_iff in Eq as [Ea Eb]. apply Nat.eqb_eq in Ea, Eb. apply Hn. left. simpl. congruence.
      * intros Hin. apply Hn. now right.
Qed.

Lemma srep_had_mul A B d1 d2 (fa fb : nat -> nat -> option N) : srep A d1 d2 fa -> srep B d1 d2 fb ->
  (forall i j y, i < d1 -> j < d2 -> fb i j = Some y -> nmul n0 y = n0) ->
  exists m', s_had_mul A B = Ok m' /\
  srep m' d1 d2 (fun i j => match fb i j with Some y => option_map (fun x => (x * y)%num) (fa i j) | None => fa i j end).
Proof.
  intros HA HB Hy. unfold s_had_mul.
  destruct (for_elist B d1 d2 fb HB) as (_ & _ & Hfor).
  rewrite (Hfor _ had_body).
  destruct (had_foreach d1 d2 (elist d1 d2 fb) A fa HA) as (C & fc & H1 & H2 & H3 & H4).
  - apply elist_nodup.
  - intros e He. apply elist_in in He as (E1 & E2 & E3). repeat split; auto. eapply Hy; eauto.
  - exists C. split; auto. eapply srep_ext; [exact H2|]. intros i j Hi Hj. cbn beta.
    destruct (fb i j) as [y|] eqn:Ey.
    + apply (H3 (i, j, y)). apply elist_in. simpl. auto.
    + apply H4. rewrite in_elist_pos. tauto.
Qed.

(** ** Hadamard, second loop: correct when the last entry of every row survives *)
Lemma rest_keys i p p' rb R2 : map key (rest i p rb R2) = map key (rest i p' rb R2).
Proof. unfold rest. now rewrite !map_app, !row_iters_keys, !iters_keys. Qed.

Lemma look_erase cn R1 ra c v rb R2 : rows_ok cn (R1 ++ (ra ++ (c, v) :: rb) :: R2) -> forall i j,
  lookR (R1 ++ (ra ++ rb) :: R2) (i, j)
  = if (i =? length R1) && (j =? c) then None else lookR (R1 ++ (ra ++ (c, v) :: rb) :: R2) (i, j).
Proof.
  intros HR i j. unfold lookR; cbn [fst snd].
  pose proof (rows_ok_mid _ _ _ _ HR) as Hr. destruct (sorted_left _ _ _ _ _ Hr) as [Ha Hb].
  destruct (look_change cn ra c [(c, v)] rb Hr Ha Hb (or_intror (ex_intro _ v eq_refl))) as [Ld _].
  destruct (i =? length R1) eqn:E; cbn [andb].
  - apply Nat.eqb_eq in E. subst. rewrite !nth_mid_eq. apply Ld.
  - apply Nat.eqb_neq in E. now rewrite (nth_mid_ne R1 (ra ++ rb) (ra ++ (c, v) :: rb)) by auto.
Qed.

Lemma rest_pos R1 (ra rb : row) R2 y l : rest (length R1) (length (concat R1) + length ra) rb R2 = y :: l ->
  exists v, pos (R1 ++ (ra ++ rb) :: R2) y v l.
Proof.
  unfold rest. destruct rb as [|(c', v') rb]; cbn [row_iters app].
  - destruct (iters_cases R2 (S (length R1)) (length (concat R1) + length ra + length (@nil (nat * N))))
      as [[H _]|(k & c' & v' & rb' & R3 & H1 & H2)]; [rewrite H; discriminate|].
    rewrite H2. intros [= <- <-]. subst R2. cbn [length]. rewrite app_nil_r, Nat.add_0_r.
    exists v', (R1 ++ ra :: repeat [] k), [], c', rb', R3. split; [|split].
    + rewrite <- app_assoc. reflexivity.
    + rewrite app_length. simpl. rewrite repeat_length, concat_snoc_nil. f_equal; lia.
    + rewrite app_length. simpl. rewrite repeat_length, concat_snoc_nil. f_equal; lia.
  - intros [= <- <-]. exists v', R1, ra, c', rb, R2. split; [|split]; auto.
    unfold rest. f_equal; [f_equal; lia|]. f_equal. simpl. lia.
Qed.
Lemma ents_rows_ge R : forall i x, In x (ents i R) -> i <= fst (fst x).
Proof.
  induction R as [|r R IH]; intros i x H; simpl in H; [contradiction|].
  apply in_app_or in H as [H|H].
  - unfold row_ents in H. apply in_map_iff in H as (cv & <- & _). simpl. lia.
  - apply IH in H. lia.
Qed.
Lemma rest_after n q c (rb : row) R2 : Forall (fun x => c < x) (map fst rb) -> forall i j,
  In (i, j) (map key (rest n q rb R2)) -> n < i \/ (i = n /\ c < j).
Proof.
  intros Hb i j H. unfold rest in H. rewrite map_app, row_iters_keys, iters_keys in H.
  apply in_app_or in H as [H|H]; apply in_map_iff in H as (x & E & H).
  - right. unfold row_ents in H. apply in_map_iff in H as (cv & <- & H). simpl in E. injection E as <- <-.
    split; auto. rewrite Forall_forall in Hb. apply Hb. now apply in_map.
  - left. apply ents_rows_ge in H. rewrite E in H. simpl in H. lia.
Qed.

Lemma had_filter_loop (B : smat N) d1 cn fb (HB : srep B d1 cn fb) :
  forall n l fuel R it, length l = n -> rows_ok cn R -> length R = d1 -> at_list R cn it l -> n < fuel ->
  (forall i j, lookR R (i, j) <> None -> ~ In (i, j) (map key l) -> fb i j <> None) ->
  (forall i j, lookR R (i, j) <> None -> fb i j = None ->
     (exists j', j < j' /\ lookR R (i, j') <> None) \/
     (forall i' j', i < i' -> lookR R (i', j') = None) \/
     ((exists j', lookR R (S i, j') <> None) /\ exists j', j' < j /\ lookR R (i, j') <> None /\ fb i j' <> None)) ->
  exists R', s_had_filter fuel B (crs R cn) it = Ok (crs R' cn) /\ rows_ok cn R' /\ length R' = d1 /\
    forall i j, lookR R' (i, j) = if some (fb i j) then lookR R (i, j) else None.
Proof.
  induction n as [|n IH]; intros l fuel R it Hl HR HlR Hit Hf Hkept HK; (destruct fuel as [|fuel]; [lia|]);
    cbn [s_had_filter]; rewrite s_end_crs; cbn [bind].
  - apply length_zero_iff_nil in Hl. subst l. rewrite it_eq_end by exact Hit. cbn [negb].
    exists R. repeat split; auto. intros i j. specialize (Hkept i j).
    destruct (lookR R (i, j)); destruct (fb i j); simpl; auto.
    exfalso. apply Hkept; auto; congruence.
  - destruct l as [|x l]; [discriminate|]. destruct Hit as [-> (v & Hp)].
    rewrite it_ne_end by (eapply pos_valid; eauto). cbn [negb].
    destruct (pos_in _ _ _ _ _ HR Hp) as [Hxi Hxj].
    rewrite (srep_has Hz B d1 cn fb) by (auto; lia). cbn [bind].
    pose proof (pos_look cn R x v l HR Hp) as Hlx. unfold key in Hlx.
    destruct (fb (it1 x) (it2 x)) as [y|] eqn:Ey; cbn [negb].
    + destruct (pos_inc R x v l cn HR Hp) as (p & ->). cbn [bind].
      apply (IH l); auto; try lia.
      * eapply at_list_next; eauto.
      * intros i j Hn Hni. destruct ((i =? it1 x) && (j =? it2 x)) eqn:Eq.
        -- apply andb_true_iff in Eq as [Ea Eb]. apply Nat.eqb_eq in Ea, Eb. subst. congruence.
        -- apply Hkept; auto. intros [Hk|Hk]; auto. unfold key in Hk. injection Hk as <- <-.
           rewrite !Nat.eqb_refl in Eq. discriminate.
    + destruct Hp as (R1 & ra & c & rb & R2 & -> & -> & ->). cbn [it1 it2] in *.
      (* the returned iterator is the next entry *)
      pose proof (rows_ok_mid _ _ _ _ HR) as Hr. destruct (sorted_left _ _ _ _ _ Hr) as [Ha Hb].
      destruct (erase_pos cn R1 ra c v rb R2 HR) as (it' & He & HR' & Hit').
      rewrite He. cbn [bind].
      set (p := length (concat R1) + length ra) in *.
      pose proof (look_erase cn R1 ra c v rb R2 HR) as Hle.
      assert (Hat : at_list (R1 ++ (ra ++ rb) :: R2) cn it' (rest (length R1) p rb R2)).
      { destruct (rest (length R1) p rb R2) as [|y l'] eqn:Er; [exact Hit'|].
        destruct Hit' as (_ & _ & _ & Hit').
        assert (Hg : rb <> [] \/ (ra <> [] /\ exists r2 R3, R2 = r2 :: R3 /\ r2 <> [])).
        { destruct rb as [|e rb]; [right|left; discriminate].
          destruct (HK (length R1) c) as [(j' & J1 & J2)|[K|((j1 & K1) & j2 & K2 & K3 & K4)]]; try congruence.
          - exfalso. apply J2. unfold lookR; cbn [fst snd]. rewrite nth_mid_eq. apply look_none.
            rewrite map_app. apply Forall_app. split.
            + eapply Forall_impl; [|exact Ha]. simpl; intros; lia.
            + constructor; [simpl; lia|constructor].
          - exfalso. unfold rest in Er. cbn [row_iters app] in Er.
            destruct (iters_cases R2 (S (length R1)) (p + length (@nil (nat * N)))) as [[E1 E2]|(k & c' & v' & rb' & R3 & E1 & E2)];
              [congruence|].
            specialize (K (length R1 + S k) c' ltac:(lia)). unfold lookR in K; cbn [fst snd] in K.
            rewrite app_nth2 in K by lia. replace (length R1 + S k - length R1) with (S k) in K by lia. cbn [nth] in K.
            subst R2. rewrite app_nth2 in K by (rewrite repeat_length; lia).
            rewrite repeat_length, Nat.sub_diag in K. cbn [nth] in K. simpl in K. rewrite Nat.eqb_refl in K. discriminate.
          - split.
            + intros ->. unfold lookR in K3; cbn [fst snd] in K3. rewrite nth_mid_eq in K3. apply K3.
              simpl. destruct (Nat.eqb_spec c j2); [lia|reflexivity].
            + unfold lookR in K1; cbn [fst snd] in K1. rewrite app_nth2 in K1 by lia.
              replace (S (length R1) - length R1) with 1 in K1 by lia. cbn [nth] in K1.
              destruct R2 as [|r2 R3]; [exfalso; apply K1; reflexivity|]. exists r2, R3. split; auto.
              intros ->. apply K1. reflexivity. }
        specialize (Hit' Hg). subst it'. split; auto. 
        eapply rest_pos. exact Er. }
      destruct (IH (rest (length R1) p rb R2) fuel (R1 ++ (ra ++ rb) :: R2) it') as (R' & G1 & G2 & G3 & G4); auto; try lia.
      * simpl in Hl. unfold rest in *. rewrite !app_length, !row_iters_length, !iters_length in *. simpl in *. lia.
      * rewrite app_length in *. simpl in *. lia.
      * intros i j Hn Hni. rewrite Hle in Hn.
        destruct ((i =? length R1) && (j =? c)) eqn:Eq; [congruence|].
        apply Hkept; auto. intros [Hk|Hk].
        -- unfold key in Hk; cbn [it1 it2] in Hk. injection Hk as <- <-. rewrite !Nat.eqb_refl in Eq. discriminate.
        -- apply Hni. rewrite (rest_keys _ _ (p + 1)). exact Hk.
      * (* the entry erased is the first one still to be looked at *)
        assert (Hold : forall i j, lookR (R1 ++ (ra ++ (c, v) :: rb) :: R2) (i, j) <> None ->
                  i < length R1 \/ (i = length R1 /\ j < c) -> fb i j <> None).
        { intros i j Hn Hlt. apply Hkept; auto. cbn [map]. intros [Hk|Hk].
          - unfold key in Hk; cbn [it1 it2] in Hk. injection Hk as <- <-. lia.
          - apply rest_after with (1 := Hb) in Hk. lia. }
        intros i j Hn Hfn. rewrite Hle in Hn.
        destruct ((i =? length R1) && (j =? c)) eqn:Eq; [congruence|].
        destruct (HK i j Hn Hfn) as [(j' & K1 & K2)|[K|((j1 & K1) & j2 & K2 & K3 & K4)]].
        -- left. exists j'. split; auto. rewrite Hle.
           destruct ((i =? length R1) && (j' =? c)) eqn:Eq'; auto.
           apply andb_true_iff in Eq' as [Ea Eb]. apply Nat.eqb_eq in Ea, Eb. subst.
           exfalso. apply (Hold (length R1) j Hn); auto.
        -- right; left. intros i' j' Hi'. rewrite Hle, K by auto. destruct ((i' =? length R1) && (j' =? c)); reflexivity.
        -- right; right. split.
           ++ exists j1. rewrite Hle. destruct ((S i =? length R1) && (j1 =? c)) eqn:Eq'; auto.
              apply andb_true_iff in Eq' as [Ea Eb]. apply Nat.eqb_eq in Ea.
              exfalso. apply (Hold i j Hn); auto. lia.
           ++ exists j2. split; auto. split; auto. rewrite Hle. 
              destruct ((i =? length R1) && (j2 =? c)) eqn:Eq'; auto.
              apply andb_true_iff in Eq' as [Ea Eb]. apply Nat.eqb_eq in Ea, Eb. subst. congruence.
      * exists R'. repeat split; auto. intros i j. rewrite G4, Hle.
        destruct ((i =? length R1) && (j =? c)) eqn:Eq; auto.
        apply andb_true_iff in Eq as [Ea Eb]. apply Nat.eqb_eq in Ea, Eb. subst. rewrite Ey. reflexivity.
Qed.

Lemma srep_hadamard A B d1 d2 (fa fb : nat -> nat -> option N) : srep A d1 d2 fa -> srep B d1 d2 fb ->
  (forall i j y, i < d1 -> j < d2 -> fb i j = Some y -> nmul n0 y = n0) ->
  (forall i j, i < d1 -> j < d2 -> fa i j <> None -> fb i j = None ->
     (exists j', j < j' /\ j' < d2 /\ fa i j' <> None) \/
     (forall i' j', i < i' -> i' < d1 -> j' < d2 -> fa i' j' = None) \/
     ((exists j', S i < d1 /\ j' < d2 /\ fa (S i) j' <> None) /\
      exists j', j' < j /\ fa i j' <> None /\ fb i j' <> None)) ->
  exists m', s_hadamard_eq A B = Ok m' /\
  srep m' d1 d2 (fun i j => match fb i j with Some y => option_map (fun x => (x * y)%num) (fa i j) | None => None end).
Proof.
  intros HA HB Hy HK. unfold s_hadamard_eq.
  destruct (srep_had_mul A B d1 d2 fa fb HA HB Hy) as (m1 & -> & Hm1). cbn [bind].
  destruct Hm1 as (R & -> & HR & Hl & H1 & H2 & Hf).
  destruct (begins_ok R d2 HR) as [_ (it & -> & Hit)]. cbn [bind].
  set (f1 := fun i j => match fb i j with Some y => option_map (fun x => (x * y)%num) (fa i j) | None => fa i j end) in *.
  assert (Hsome : forall i j, f1 i j <> None <-> fa i j <> None).
  { intros i j. unfold f1. destruct (fb i j); [|tauto]. destruct (fa i j); simpl; split; congruence. }
  destruct (had_filter_loop B d1 d2 (fun i j => if (i <? d1) && (j <? d2) then fb i j else None)) with
    (n := length (iters 0 0 R)) (l := iters 0 0 R) (fuel := S (s_filled (crs R d2))) (R := R) (it := it)
    as (R' & G1 & G2 & G3 & G4); auto.
  - eapply srep_ext; [exact HB|]. intros i j Hi Hj. cbn beta. bdec. reflexivity.
  - rewrite filled_crs, iters_length. lia.
  - intros i j Hn Hni. exfalso. apply Hni. apply (in_iters_keys d2); auto. apply (lookR_none_out d2 R i j HR Hn).
  - assert (Hlk : forall i j, i < d1 -> j < d2 -> (lookR R (i, j) <> None <-> fa i j <> None)).
    { intros i j Hi Hj. unfold lookR; cbn [fst snd]. rewrite Hf by auto. apply Hsome. }
    intros i j Hn Hfn. destruct (lookR_none_out d2 R i j HR Hn) as [Hi Hj]. rewrite Hl in Hi.
    apply Hlk in Hn; auto. replace ((i <? d1) && (j <? d2)) with true in Hfn by (bdec; reflexivity).
    destruct (HK i j Hi Hj Hn Hfn) as [(j' & K1 & K2 & K3)|[K|((j1 & K0 & K1 & K2) & j2 & K3 & K4 & K5)]].
    + left. exists j'. split; auto. apply Hlk; auto.
    + right; left. intros i' j' Hi'. destruct (lookR R (i', j')) as [w|] eqn:E; auto. exfalso.
      assert (Hne : lookR R (i', j') <> None) by congruence.
      destruct (lookR_none_out d2 R i' j' HR Hne) as [Hi2 Hj2]. rewrite Hl in Hi2.
      apply Hlk in Hne; auto.
    + right; right. split.
      * exists j1. apply Hlk; auto.
      * exists j2. split; auto. split; [apply Hlk; auto; lia|]. bdec. auto.
  - exists (crs R' d2). split; auto. exists R'. repeat split; auto.
    intros i j Hi Hj. specialize (G4 i j). unfold lookR in G4; cbn [fst snd] in G4. rewrite G4, Hf by auto.
    unfold f1. bdec. destruct (fb i j); reflexivity.
Qed.

(** ** set(it, v) *)
Lemma srep_erase R cn x v l : rows_ok cn R -> pos R x v l ->
  exists R' it', s_erase (crs R cn) x = Ok (crs R' cn, it') /\ rows_ok cn R' /\ length R' = length R /\
  (forall i j, lookR R' (i, j) = if (i =? it1 x) && (j =? it2 x) then None else lookR R (i, j)).
Proof.
  intros HR (R1 & ra & c & rb & R2 & -> & -> & ->).
  destruct (erase_pos cn R1 ra c v rb R2 HR) as (it' & He & HR' & _).
  exists (R1 ++ (ra ++ rb) :: R2), it'. rewrite He. repeat split; auto.
  - rewrite !app_length. reflexivity.
  - intros i j. cbn [it1 it2]. eapply look_erase; eauto.
Qed.

(** ** Construction from nested lists *)
Definition over (g f : option N) : option N := match g with Some x => Some x | None => f end.

Lemma of_list_row d1 d2 i : i < d1 -> forall (l : list N) j0 m f, srep m d1 d2 f -> j0 + length l <= d2 ->
  exists m', foreach l (fun w st2 =>
            let '(j, m2) := st2 in
            let* m3 := (if negb (neqb w n0) then s_set m2 i j w else Ok m2) in
            Ok (S j, m3)) (j0, m) = Ok (j0 + length l, m') /\
  srep m' d1 d2 (fun i' j' => if (i' =? i) && (j0 <=? j') && (j' <? j0 + length l)
                              then over (nz (nth (j' - j0) l n0)) (f i' j') else f i' j').
Proof.
  intros Hi. induction l as [|w l IH]; intros j0 m f Hm Hj.
  - exists m. simpl. rewrite Nat.add_0_r. split; auto. eapply srep_ext; [exact Hm|].
    intros i' j' _ _. cbn beta. destruct (Nat.leb_spec j0 j'); bdec; rewrite ?andb_false_r; auto.
  - cbn [foreach]. simpl in Hj.
    assert (Hstep : exists m1, (if negb (neqb w n0) then s_set m i j0 w else Ok m) = Ok m1 /\
              srep m1 d1 d2 (fset f i j0 (over (nz w) (f i j0)))).
    { unfold nz. destruct (neqb w n0) eqn:Ew; cbn [negb].
      - exists m. split; auto. eapply srep_ext; [exact Hm|]. intros i' j' _ _. unfold fset. simpl.
        destruct ((i' =? i) && (j' =? j0)) eqn:Eq; auto.
        apply andb_true_iff in Eq as [Ea Eb]. apply Nat.eqb_eq in Ea, Eb. now subst.
      - destruct (srep_set Hz m d1 d2 f i j0 w Hm Hi ltac:(lia)) as (m1 & H1 & H2). exists m1. split; auto.
        unfold nz in H2. rewrite Ew in H2. exact H2. }
    destruct Hstep as (m1 & -> & Hm1). cbn [bind].
    destruct (IH (S j0) m1 _ Hm1 ltac:(lia)) as (m' & H1 & H2).
    exists m'. rewrite H1. split; [f_equal; f_equal; simpl; lia|].
    eapply srep_ext; [exact H2|]. intros i' j' Hi' Hj'. unfold fset. simpl length.
    destruct (Nat.eqb_spec i' i) as [->|Hn]; cbn [andb]; auto.
    destruct (lt_eq_lt_dec j' j0) as [[Hlt| ->]|Hgt].
    + bdec. reflexivity.
    + bdec. rewrite Nat.sub_diag. simpl. reflexivity.
    + destruct (lt_dec j' (j0 + S (length l))).
      * bdec. replace (j' - j0) with (S (j' - S j0)) by lia. simpl. reflexivity.
      * bdec. reflexivity.
Qed.

Lemma nth_list_max (l : list (list N)) : forall i, i < length l -> length (nth i l []) <= list_max (map (@length N) l).
Proof.
  induction l as [|x l IH]; intros i Hi; simpl in *; [lia|].
  destruct i; [lia|]. specialize (IH i ltac:(lia)). lia.
Qed.

Lemma of_list_rows d1 d2 : forall (l : list (list N)) i0 m f, srep m d1 d2 f -> i0 + length l <= d1 ->
  (forall r : list N, In r l -> length r <= d2) ->
  exists m', foreach l (fun v st =>
        let '(i, m) := st in
        let* st2 := foreach v (fun w st2 =>
            let '(j, m2) := st2 in
            let* m3 := (if negb (neqb w n0) then s_set m2 i j w else Ok m2) in
            Ok (S j, m3)) (O, m) in
        Ok (S i, snd st2)) (i0, m) = Ok (i0 + length l, m') /\
  srep m' d1 d2 (fun i j => if (i0 <=? i) && (i <? i0 + length l)
     then over (nz (nth j (nth (i - i0) l []) n0)) (f i j) else f i j).
Proof.
  induction l as [|r l IH]; intros i0 m f Hm Hi Hr.
  - exists m. simpl. rewrite Nat.add_0_r. split; auto. eapply srep_ext; [exact Hm|].
    intros i j _ _. cbn beta. destruct (Nat.leb_spec i0 i); bdec; auto.
  - cbn [foreach]. simpl in Hi.
    destruct (of_list_row d1 d2 i0 ltac:(lia) r 0 m f Hm) as (m1 & H1 & H2).
    { simpl. apply Hr. now left. }
    rewrite H1. cbn [bind snd].
    destruct (IH (S i0) m1 _ H2 ltac:(lia)) as (m' & G1 & G2).
    { intros; apply Hr; now right. }
    exists m'. rewrite G1. split; [f_equal; f_equal; simpl; lia|].
    eapply srep_ext; [exact G2|]. intros i j Hi' Hj. cbn beta. simpl length.
    destruct (lt_eq_lt_dec i i0) as [[Hlt| ->]|Hgt].
    + bdec. reflexivity.
    + bdec. rewrite Nat.sub_diag, Nat.sub_0_r. simpl nth. destruct (j <? 0 + length r) eqn:Ej; auto.
      apply Nat.ltb_ge in Ej. rewrite nth_overflow by (simpl in Ej; lia). unfold nz. rewrite Hz. reflexivity.
    + destruct (lt_dec i (i0 + S (length l))).
      * bdec. replace (i - i0) with (S (i - S i0)) by lia. reflexivity.
      * bdec. reflexivity.
Qed.

Lemma srep_of_list (l : list (list N)) : l <> [] -> (exists r : list N, In r l /\ r <> []) ->
  exists m, s_of_list l = Ok m /\
  srep m (length l) (list_max (map (@length N) l)) (fun i j => nz (nth j (nth i l []) n0)).
Proof.
  intros Hne (r & Hr & Hrn). unfold s_of_list. destruct l as [|r0 l0] eqn:El; [congruence|]. rewrite <- El in *.
  assert (Hle : forall x, In x l -> length x <= list_max (map (@length N) l)).
  { intros x Hx. apply (In_nth _ _ []) in Hx as (k & Hk & <-). now apply nth_list_max. }
  assert (Hpos : 0 < list_max (map (@length N) l)).
  { specialize (Hle r Hr). destruct r; [congruence|]. simpl in Hle. lia. }
  destruct (srep_new (N := N) (length l) (list_max (map (@length N) l))) as (m0 & -> & Hm0); auto.
  { rewrite El. simpl. lia. }
  cbn [bind].
  destruct (of_list_rows _ _ l 0 m0 _ Hm0 ltac:(simpl; lia) Hle) as (m' & H1 & H2).
  rewrite H1. cbn [bind snd]. exists m'. split; auto. eapply srep_ext; [exact H2|].
  intros i j Hi Hj. cbn beta. bdec. rewrite Nat.sub_0_r. unfold over. now destruct (nz _).
Qed.

(** ** Entry lists in terms of values *)
Lemma elist_nonzeros d1 d2 (a : nat -> nat -> N) :
  elist d1 d2 (fun i j => nz (a i j)) = map (with_value a) (nonzeros d1 d2 a).
Proof.
  unfold elist, nonzeros. induction (positions d1 d2) as [|p l IH]; auto. cbn [flat_map filter].
  rewrite IH. unfold nz at 1, is0. destruct (neqb (a (fst p) (snd p)) n0); reflexivity.
Qed.
Lemma rlist_nonzeros d (a : nat -> N) :
  rlist d (fun j => nz (a j)) = map (fun j => (j, a j)) (filter (fun j => negb (is0 (a j))) (seq 0 d)).
Proof.
  unfold rlist. induction (seq 0 d) as [|p l IH]; auto. cbn [flat_map filter].
  rewrite IH. unfold nz at 1, is0. destruct (neqb (a p) n0); reflexivity.
Qed.

End SparseOps3.

(** ** Sums over stored entries, in a field *)
Section FieldOps.
Context {N : Num}.
Hypothesis HF : FieldLaws N.
Add Field nfield2 : (fl_field N HF).
Open Scope num_scope.

Lemma fold_add_acc {X} (h : X -> N) l : forall s : N,
  fold_left (fun s e => s + h e) l s = s + fold_left (fun s e => s + h e) l n0.
Proof.
  induction l as [|x l IH]; intros s; simpl; [ring|]. rewrite IH, (IH (n0 + h x)). ring.
Qed.

Lemma fold_seq_bigsum (h : nat -> N) d : fold_left (fun s j => s + h j) (seq 0 d) n0 = bigsum d h.
Proof.
  induction d as [|d IH]; auto. rewrite seq_S, fold_left_app, IH. reflexivity.
Qed.

Lemma dotfold_field d (fi : nat -> option N) (h : nat -> N) :
  dotfold (rlist d fi) h = bigsum d (fun j => val (fi j) * h j).
Proof.
  unfold dotfold, rlist. rewrite <- fold_seq_bigsum.
  assert (H : forall l (s : N), fold_left (fun s e => s + snd e * h (fst e)) (flat_map (fun j => olist (fi j) (fun v => (j, v))) l) s
              = fold_left (fun s j => s + val (fi j) * h j) l s).
  { induction l as [|j l IH]; intros s; auto. cbn [flat_map fold_left]. rewrite fold_left_app, IH. f_equal.
    destruct (fi j); simpl; ring. }
  apply H.
Qed.

Lemma sum_field d1 d2 (f : nat -> nat -> option N) :
  fold_left nadd (map snd (elist d1 d2 f)) n0 = bigsum d1 (fun i => bigsum d2 (fun j => val (f i j))).
Proof.
  rewrite fold_left_map. unfold elist, positions.
  assert (H : forall l (s : N), fold_left (fun s e => s + snd e)
      (flat_map (fun p => olist (f (fst p) (snd p)) (fun v => (fst p, snd p, v))) l) s
      = fold_left (fun s p => s + val (f (fst p) (snd p))) l s).
  { induction l as [|p l IH]; intros s; auto. cbn [flat_map fold_left]. rewrite fold_left_app, IH. f_equal.
    destruct (f (fst p) (snd p)); simpl; ring. }
  rewrite H. rewrite <- fold_seq_bigsum.
  generalize (seq 0 d1) as l. intros l. generalize (@n0 N) as s.
  induction l as [|i l IH]; intros s; auto. cbn [list_prod fold_left]. rewrite fold_left_app, IH. f_equal.
  rewrite fold_left_map. cbn [fst snd]. rewrite (fold_add_acc (fun j => val (f i j))). now rewrite fold_seq_bigsum.
Qed.
End FieldOps.
