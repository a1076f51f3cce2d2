(** Loops that modify the matrix they iterate over, equality, erasing, construction from a list. *)
From Coq Require Import List Arith Lia Bool Sorted.
From Verif Require Import Base BaseProofs Num Spec SpecProofs VectorModel SparseModel SparseProofs SparseIter SparseEntries SparseOps.
Import ListNotations.
Open Scope res_scope.

Section SparseOps2.
Context {N : Num}.
Hypothesis Hz : zero_refl N.
Notation row := (list (nat * N)).
Notation entry := (nat * nat * N)%type.
Implicit Types R : list row.
Implicit Types r ra rb : row.
Implicit Types m : smat N.

Definition key (it : sit) : nat * nat := (it1 it, it2 it).
Definition lookR R (p : nat * nat) : option N := look (nth (fst p) R []) (snd p).

Lemma row_iters_keys r : forall i p, map key (row_iters i p r) = map fst (row_ents i r).
Proof. induction r as [|(c, v) r IH]; intros; simpl; auto. now rewrite IH. Qed.
Lemma iters_keys R : forall i p, map key (iters i p R) = map fst (ents i R).
Proof.
  induction R as [|r R IH]; intros; simpl; auto. rewrite !map_app, row_iters_keys, IH. reflexivity.
Qed.
Lemma iters_nodup cn R : rows_ok cn R -> NoDup (map key (iters 0 0 R)).
Proof. intros HR. rewrite iters_keys. apply sorted_nodup_pos. eapply ents_sorted; eauto. Qed.

Definition suffix (l L : list sit) : Prop := exists pre, L = pre ++ l.

Lemma iters_app R1 : forall i p R2,
  iters i p (R1 ++ R2) = iters i p R1 ++ iters (i + length R1) (p + length (concat R1)) R2.
Proof.
  induction R1 as [|r R1 IH]; intros; simpl.
  - now rewrite !Nat.add_0_r.
  - rewrite IH, <- app_assoc, app_length. do 2 f_equal; f_equal; lia.
Qed.
Lemma row_iters_app ra : forall i p rb,
  row_iters i p (ra ++ rb) = row_iters i p ra ++ row_iters i (p + length ra) rb.
Proof.
  induction ra as [|(c, v) ra IH]; intros; simpl.
  - now rewrite Nat.add_0_r.
  - rewrite IH. do 3 f_equal. lia.
Qed.

Lemma pos_suffix R x v l : pos R x v l -> suffix (x :: l) (iters 0 0 R).
Proof.
  intros (R1 & ra & c & rb & R2 & -> & -> & ->).
  exists (iters 0 0 R1 ++ row_iters (length R1) (length (concat R1)) ra).
  rewrite iters_app. simpl. rewrite row_iters_app, <- !app_assoc. simpl.
  f_equal. f_equal. f_equal. unfold rest.
  replace (length (concat R1) + length ra + 1) with (S (length (concat R1) + length ra)) by lia.
  f_equal. f_equal. rewrite app_length; simpl. lia.
Qed.

Lemma pos_nodup cn R x v l : rows_ok cn R -> pos R x v l -> NoDup (map key (x :: l)).
Proof.
  intros HR Hp. destruct (pos_suffix _ _ _ _ Hp) as (pre & Hs).
  pose proof (iters_nodup cn R HR) as Hn. rewrite Hs, map_app in Hn.
  clear - Hn. induction (map key pre) as [|k pre' IH]; simpl in Hn; auto. apply IH. now inversion Hn.
Qed.

Lemma sorted_left cn ra c v rb : row_ok cn (ra ++ (c, v) :: rb) ->
  Forall (fun x => x < c) (map fst ra) /\ Forall (fun x => c < x) (map fst rb).
Proof.
  intros [Hs _]. rewrite map_app in Hs. simpl in Hs. induction (map fst ra) as [|a l IH]; simpl in *.
  - inversion Hs; subst. split; auto.
  - inversion Hs as [|? ? Hs' Ha]; subst. destruct (IH Hs') as [H1 H2]. split; auto. constructor; auto.
    rewrite Forall_app in Ha. destruct Ha as [_ Ha]. now inversion Ha.
Qed.

Lemma pos_look cn R x v l : rows_ok cn R -> pos R x v l -> lookR R (key x) = Some v.
Proof.
  intros HR (R1 & ra & c & rb & R2 & -> & -> & ->). unfold lookR. simpl. rewrite nth_mid_eq.
  apply rows_ok_mid in HR. apply look_found. eapply sorted_left; eauto.
Qed.

(** ** Replacing the value under an iterator *)
Lemma put_pos cn R x v l u : rows_ok cn R -> pos R x v l ->
  exists R', it_put (crs R cn) x u = Ok (crs R' cn) /\ rows_ok cn R' /\ length R' = length R /\
    pos R' x u l /\ (forall i j, lookR R' (i, j) = if (i =? it1 x) && (j =? it2 x) then Some u else lookR R (i, j)) /\
    (neqb u n0 = false -> s_set (crs R cn) (it1 x) (it2 x) u = Ok (crs R' cn)) /\
    s_at (crs R cn) (it1 x) (it2 x) = Ok v.
Proof.
  intros HR Hp. pose proof (pos_valid _ _ _ _ _ HR Hp) as Hv. pose proof (pos_in _ _ _ _ _ HR Hp) as [Hi Hj].
  destruct Hp as (R1 & ra & c & rb & R2 & -> & -> & ->). cbn [it1 it2] in *.
  pose proof (rows_ok_mid _ _ _ _ HR) as Hr. destruct (sorted_left _ _ _ _ _ Hr) as [Ha Hb].
  exists (R1 ++ (ra ++ (c, u) :: rb) :: R2).
  assert (Hok : rows_ok cn (R1 ++ (ra ++ (c, u) :: rb) :: R2)).
  { eapply rows_ok_upd; eauto. eapply row_ok_repl; eauto. }
  assert (Hlen : length (R1 ++ (ra ++ (c, u) :: rb) :: R2) = length (R1 ++ (ra ++ (c, v) :: rb) :: R2)).
  { rewrite !app_length. reflexivity. }
  split; [|split; [|split; [|split; [|split; [|split]]]]]; auto.
  - unfold it_put. rewrite Hv. cbn [itp].
    destruct (replace_parts R1 ra c v u rb R2 cn _ eq_refl) as (H1 & H2 & H3).
    rewrite H1, H2, H3. reflexivity.
  - exists R1, ra, c, rb, R2. auto.
  - intros i j. unfold lookR; cbn [fst snd].
    destruct (look_change cn ra c [(c, v)] rb Hr Ha Hb (or_intror (ex_intro _ v eq_refl))) as [_ Lr].
    destruct (i =? length R1) eqn:E; cbn [andb].
    + apply Nat.eqb_eq in E. subst. rewrite !nth_mid_eq. rewrite Lr. reflexivity.
    + apply Nat.eqb_neq in E. now rewrite (nth_mid_ne R1 (ra ++ (c, u) :: rb) (ra ++ (c, v) :: rb)) by auto.
  - intros Hu. unfold s_set. rewrite rows_crs, cols_crs. bdec. rewrite Hu. now apply set_at_found.
  - unfold s_at. rewrite rows_crs, cols_crs. bdec.
    rewrite internal_at_found by auto. reflexivity.
Qed.

(** A loop that replaces the value v of each entry by h v (never removing one). *)
Lemma inplace_loop (h : N -> N) (good : N -> Prop) cn (loop : nat -> smat N -> sit -> res (smat N))
  (Hend : forall fuel m it e, s_end m = Ok e -> it_eq m it e = true -> loop (S fuel) m it = Ok m)
  (Hstep : forall fuel R x v l R', rows_ok cn R -> pos R x v l ->
     it_put (crs R cn) x (h v) = Ok (crs R' cn) ->
     (neqb (h v) n0 = false -> s_set (crs R cn) (it1 x) (it2 x) (h v) = Ok (crs R' cn)) ->
     s_at (crs R cn) (it1 x) (it2 x) = Ok v ->
     good v ->
     loop (S fuel) (crs R cn) x = let* it' := it_inc (crs R' cn) x in loop fuel (crs R' cn) it') :
  forall l fuel it R, rows_ok cn R -> at_list R cn it l -> length l < fuel ->
  (forall p v, In p (map key l) -> lookR R p = Some v -> good v) ->
  exists R', loop fuel (crs R cn) it = Ok (crs R' cn) /\ rows_ok cn R' /\ length R' = length R /\
    (forall i j, (In (i, j) (map key l) -> lookR R' (i, j) = option_map h (lookR R (i, j))) /\
                 (~ In (i, j) (map key l) -> lookR R' (i, j) = lookR R (i, j))).
Proof.
  induction l as [|x l IH]; intros fuel it R HR Hit Hf Hg; (destruct fuel as [|fuel]; [simpl in Hf; lia|]).
  - exists R. split; [|repeat split; auto; intros []].
    eapply Hend; [apply s_end_crs|]. now apply it_eq_end.
  - destruct Hit as [-> (v & Hp)].
    destruct (put_pos cn R x v l (h v) HR Hp) as (R' & H1 & H2 & H3 & H4 & H5 & H6 & H7).
    pose proof (pos_nodup cn R x v l HR Hp) as Hnd. inversion Hnd as [|? ? Hni _]; subst.
    pose proof (pos_look cn R x v l HR Hp) as Hlx.
    rewrite (Hstep fuel R x v l R') by (auto; apply (Hg (key x) v); auto; left; reflexivity).
    destruct (pos_inc R' x (h v) l cn H2 H4) as (p & ->). cbn [bind].
    destruct (IH fuel (hd (mkI (length R') cn p) l) R' H2) as (R'' & G1 & G2 & G3 & G4).
    { eapply at_list_next; eauto. } { simpl in Hf; lia. }
    { intros (i, j) w Hin Hw. rewrite H5 in Hw.
      destruct ((i =? it1 x) && (j =? it2 x)) eqn:Eq.
      - exfalso. apply andb_true_iff in Eq as [Ea Eb]. apply Nat.eqb_eq in Ea, Eb. subst i j. apply Hni. exact Hin.
      - apply (Hg (i, j)); auto. now right. }
    exists R''. split; [|split; [|split]]; auto; [congruence|].
    intros i j. destruct (G4 i j) as [Gin Gout]. specialize (H5 i j).
    destruct ((i =? it1 x) && (j =? it2 x)) eqn:Eq.
    + apply andb_true_iff in Eq as [Ea Eb]. apply Nat.eqb_eq in Ea, Eb. subst i j. split.
      * intros _. rewrite Gout by exact Hni. rewrite H5. unfold key in Hlx. now rewrite Hlx.
      * intros Hn. exfalso. apply Hn. left. reflexivity.
    + assert (Hne : (i, j) <> key x).
      { intros He. unfold key in He. injection He as -> ->. rewrite !Nat.eqb_refl in Eq. discriminate. }
      split.
      * intros [Hi|Hi]; [congruence|]. rewrite Gin by auto. now rewrite H5.
      * intros Hn. rewrite Gout, H5; auto. intros Hi. apply Hn. now right.
Qed.

Lemma in_iters_keys cn R i j : rows_ok cn R -> i < length R ->
  (In (i, j) (map key (iters 0 0 R)) <-> lookR R (i, j) <> None).
Proof.
  intros HR Hi. rewrite iters_keys, in_map_iff. unfold lookR; cbn [fst snd]. split.
  - intros (((a, b), v) & [= -> ->] & Hin). apply (ents_in cn) in Hin as (_ & _ & Hin); auto.
    rewrite Nat.sub_0_r in Hin. congruence.
  - destruct (look (nth i R []) j) as [v|] eqn:E; [|congruence]. intros _. exists (i, j, v). split; auto.
    apply (ents_in cn); auto. rewrite Nat.sub_0_r. repeat split; auto; lia.
Qed.

Lemma lookR_none_out cn R i j : rows_ok cn R -> lookR R (i, j) <> None -> i < length R /\ j < cn.
Proof.
  intros HR H. unfold lookR in H; cbn [fst snd] in H. destruct (lt_dec i (length R)) as [Hi|Hi].
  - split; auto. destruct (look (nth i R []) j) eqn:E; [|congruence]. eapply row_ok_look; [|exact E].
    eapply Forall_nth; eauto.
  - exfalso. rewrite nth_overflow in H by lia. apply H. reflexivity.
Qed.

Lemma inplace_all (h : N -> N) (good : N -> Prop) cn loop R it :
  (forall l fuel it R, rows_ok cn R -> at_list R cn it l -> length l < fuel ->
   (forall p v, In p (map key l) -> lookR R p = Some v -> good v) ->
   exists R', loop fuel (crs R cn) it = Ok (crs R' cn) /\ rows_ok cn R' /\ length R' = length R /\
    (forall i j, (In (i, j) (map key l) -> lookR R' (i, j) = option_map h (lookR R (i, j))) /\
                 (~ In (i, j) (map key l) -> lookR R' (i, j) = lookR R (i, j)))) ->
  rows_ok cn R -> at_list R cn it (iters 0 0 R) -> (forall p v, lookR R p = Some v -> good v) ->
  exists R', loop (S (s_filled (crs R cn))) (crs R cn) it = Ok (crs R' cn) /\ rows_ok cn R' /\
    length R' = length R /\ forall i j, lookR R' (i, j) = option_map h (lookR R (i, j)).
Proof.
  intros Hl HR Hit Hg. destruct (Hl (iters 0 0 R) (S (s_filled (crs R cn))) it R HR Hit) as (R' & H1 & H2 & H3 & H4).
  { rewrite filled_crs, iters_length. lia. } { intros; eapply Hg; eauto. }
  exists R'. repeat split; auto. intros i j. destruct (H4 i j) as [Hin Hout].
  destruct (lookR R (i, j)) as [v|] eqn:E.
  - rewrite Hin; auto. assert (Hne : lookR R (i, j) <> None) by congruence.
    apply (in_iters_keys cn); auto. apply (lookR_none_out cn R i j HR Hne).
  - rewrite Hout; auto. intros Hi.
    destruct (lt_dec i (length R)) as [Hlt|Hge].
    + apply (in_iters_keys cn) in Hi; auto.
    + rewrite iters_keys, in_map_iff in Hi. destruct Hi as (((a, b), v) & [= -> ->] & Hin').
      apply (ents_in cn) in Hin'; auto. lia.
Qed.

(** operator*=(T) *)
Lemma scale_loop_all f cn R it : rows_ok cn R -> at_list R cn it (iters 0 0 R) ->
  exists R', s_scale_loop (S (s_filled (crs R cn))) f (crs R cn) it = Ok (crs R' cn) /\ rows_ok cn R' /\
    length R' = length R /\ forall i j, lookR R' (i, j) = option_map (fun x => (x * f)%num) (lookR R (i, j)).
Proof.
  intros HR Hit. apply (inplace_all (fun x => (x * f)%num) (fun _ => True) cn (fun fuel m it => s_scale_loop fuel f m it)); auto.
  apply (inplace_loop (fun x => (x * f)%num) (fun _ => True) cn (fun fuel m it => s_scale_loop fuel f m it)).
  - intros fuel m it' e He Heq. cbn [s_scale_loop]. rewrite He. cbn [bind]. now rewrite Heq.
  - intros fuel R0 x v l R' HR0 Hp Hput _ _ _. cbn [s_scale_loop]. rewrite s_end_crs. cbn [bind].
    rewrite it_ne_end by (eapply pos_valid; eauto). cbn [negb].
    rewrite (pos_get _ _ _ _ _ HR0 Hp). cbn [bind]. rewrite Hput. reflexivity.
Qed.

Lemma srep_scale m d1 d2 f x : srep m d1 d2 f ->
  exists m', s_scale_eq m x = Ok m' /\
  srep m' d1 d2 (fun i j => if neqb x n0 then None else option_map (fun y => (y * x)%num) (f i j)).
Proof.
  intros (R & -> & HR & Hl & H1 & H2 & Hf). unfold s_scale_eq. destruct (neqb x n0).
  - eexists. split; [reflexivity|]. exists (repeat [] d1). split; [|split; [|split; [|split; [|split]]]]; auto.
    + unfold crs. cbn [scn semp srp]. rewrite concat_nil, offsets_nil. cbn [map]. f_equal.
      rewrite <- Hl. clear. generalize 0 at 2. induction R as [|r R IH]; intros a; simpl; f_equal; auto.
    + apply Forall_forall. intros r Hr. apply repeat_spec in Hr. subst. split; constructor.
    + apply repeat_length.
    + intros i j _ _. now rewrite nth_repeat.
  - destruct (begins_ok R d2 HR) as [_ (it & -> & Hit)]. cbn [bind].
    destruct (scale_loop_all x d2 R it HR Hit) as (R' & G1 & G2 & G3 & G4).
    exists (crs R' d2). split; auto. exists R'. repeat split; auto; [congruence|].
    intros i j Hi Hj. specialize (G4 i j). unfold lookR in G4; cbn [fst snd] in G4.
    rewrite G4, Hf by auto. reflexivity.
Qed.

(** A += A and the like, when no result is zero *)
Lemma srep_combine_self op m d1 d2 f : srep m d1 d2 f ->
  (forall i j v, i < d1 -> j < d2 -> f i j = Some v -> neqb (op v v) n0 = false) ->
  exists m', s_combine_self op m = Ok m' /\ srep m' d1 d2 (fun i j => option_map (fun v => op v v) (f i j)).
Proof.
  intros (R & -> & HR & Hl & H1 & H2 & Hf) Hnz. unfold s_combine_self.
  destruct (begins_ok R d2 HR) as [(it & -> & Hit) _]. cbn [bind].
  destruct (inplace_all (fun v => op v v) (fun v => neqb (op v v) n0 = false) d2
     (fun fuel m it => s_combine_self_loop fuel op m it) R it) as (R' & G1 & G2 & G3 & G4); auto.
  - apply (inplace_loop (fun v => op v v) (fun v => neqb (op v v) n0 = false) d2
     (fun fuel m it => s_combine_self_loop fuel op m it)).
    + intros fuel m it' e He Heq. cbn [s_combine_self_loop]. rewrite He. cbn [bind]. now rewrite Heq.
    + intros fuel R0 x v l R' HR0 Hp _ Hset Hat Hg. cbn [s_combine_self_loop]. rewrite s_end_crs. cbn [bind].
      rewrite it_ne_end by (eapply pos_valid; eauto). cbn [negb].
      rewrite Hat. cbn [bind]. rewrite (pos_get _ _ _ _ _ HR0 Hp). cbn [bind]. rewrite (Hset Hg). reflexivity.
  - intros (i, j) v Hv. assert (Hne : lookR R (i, j) <> None) by congruence.
    apply (lookR_none_out d2) in Hne as [Hi Hj]; auto. unfold lookR in Hv; cbn [fst snd] in Hv.
    rewrite Hf in Hv by lia. apply (Hnz i j); auto; lia.
  - exists (crs R' d2). split; auto. exists R'. repeat split; auto; [congruence|].
    intros i j Hi Hj. specialize (G4 i j). unfold lookR in G4; cbn [fst snd] in G4.
    rewrite G4, Hf by auto. reflexivity.
Qed.

(** ** Equality *)
Lemma eq_loop cn R Q (HR : rows_ok cn R) (HQ : rows_ok cn Q) : forall l k fuel it jt,
  at_list R cn it l -> at_list Q cn jt k -> length l = length k -> length l < fuel ->
  exists b, s_eq_loop fuel (crs R cn) (crs Q cn) it jt = Ok b /\
  (b = true <-> map key l = map key k /\
     forall p v w, In p (map key l) -> lookR R p = Some v -> lookR Q p = Some w -> neqb v w = true).
Proof.
  induction l as [|x l IH]; intros k fuel it jt Hi Hj Hl Hf; (destruct fuel as [|fuel]; [simpl in Hf; lia|]);
    (destruct k as [|y k]; [|]); simpl in Hl; try lia; cbn [s_eq_loop]; rewrite !s_end_crs; cbn [bind].
  - rewrite (it_eq_end R cn it Hi), (it_eq_end Q cn jt Hj). cbn. exists true. split; [reflexivity|].
    split; auto; intros _; split; auto; intros p v w [].
  - destruct Hi as [-> (v & Hp)]. destruct Hj as [-> (w & Hq)].
    rewrite it_ne_end by (eapply pos_valid; eauto). rewrite it_ne_end by (eapply pos_valid; eauto).
    cbn [negb andb]. rewrite (pos_get _ _ _ _ _ HR Hp), (pos_get _ _ _ _ _ HQ Hq). cbn [bind].
    pose proof (pos_look cn R x v l HR Hp) as Lx. pose proof (pos_look cn Q y w k HQ Hq) as Ly.
    destruct (Nat.eqb_spec (it1 x) (it1 y)) as [E1|E1]; cbn [negb orb].
    2: { exists false. split; auto. split; [discriminate|]. intros [H _]. simpl in H. unfold key in H. congruence. }
    destruct (Nat.eqb_spec (it2 x) (it2 y)) as [E2|E2]; cbn [negb orb].
    2: { exists false. split; auto. split; [discriminate|]. intros [H _]. simpl in H. unfold key in H. congruence. }
    assert (Hk : key x = key y) by (unfold key; congruence).
    destruct (neqb v w) eqn:E3; cbn [negb orb].
    2: { exists false. split; auto. split; [discriminate|]. intros [_ H].
         assert (Ht : neqb v w = true) by (apply (H (key x) v w); [left; reflexivity|exact Lx|rewrite Hk; exact Ly]). congruence. }
    destruct (pos_inc R x v l cn HR Hp) as (p1 & ->). cbn [bind].
    destruct (pos_inc Q y w k cn HQ Hq) as (p2 & ->). cbn [bind].
    destruct (IH k fuel (hd (mkI (length R) cn p1) l) (hd (mkI (length Q) cn p2) k)) as (b & Hb & Hiff).
    + eapply at_list_next; eauto.
    + eapply at_list_next; eauto.
    + lia.
    + simpl in Hf; lia.
    + exists b. split; auto. rewrite Hiff. split.
      * intros [H1 H2]. split; [simpl; congruence|]. intros p v' w' [Hin|Hin] Hv Hw.
        -- subst p. rewrite Hk in Hw. assert (v' = v) by congruence. assert (w' = w) by congruence. congruence.
        -- eapply H2; eauto.
      * intros [H1 H2]. simpl in H1. split; [congruence|]. intros; eapply H2; eauto. now right.
Qed.

(** Same stored pattern and pairwise == values. *)
Lemma srep_eq A B d1 d2 (fa fb : nat -> nat -> option N) : srep A d1 d2 fa -> srep B d1 d2 fb ->
  exists b, s_eq A B = Ok b /\
  (b = true <-> forall i j, i < d1 -> j < d2 ->
     match fa i j, fb i j with None, None => True | Some v, Some w => neqb v w = true | _, _ => False end).
Proof.
  intros (R & -> & HR & Hl & H1 & H2 & Hf) (Q & -> & HQ & Hl' & _ & _ & Hg).
  unfold s_eq. rewrite !rows_crs, !cols_crs, Hl, Hl', !Nat.eqb_refl, !filled_crs. cbn [negb orb].
  assert (Hpat : (forall i j, i < d1 -> j < d2 ->
     match fa i j, fb i j with None, None => True | Some v, Some w => neqb v w = true | _, _ => False end) ->
     map key (iters 0 0 R) = map key (iters 0 0 Q)).
  { intros Hall. rewrite !iters_keys.
    assert (S1 := ents_sorted d2 R 0 HR). assert (S2 := ents_sorted d2 Q 0 HQ).
    assert (Hiff : forall p, In p (map fst (ents 0 R)) <-> In p (map fst (ents 0 Q))).
    { intros (i, j). rewrite <- (iters_keys R 0 0), <- (iters_keys Q 0 0).
      destruct (lt_dec i d1) as [Hi|Hi].
      - rewrite (in_iters_keys d2) by (auto; lia). rewrite (in_iters_keys d2) by (auto; lia).
        destruct (lt_dec j d2) as [Hj|Hj].
        + unfold lookR; cbn [fst snd]. rewrite Hf, Hg by auto. specialize (Hall i j Hi Hj).
          destruct (fa i j), (fb i j); try tauto; split; congruence.
        + split; intros Hn; apply (lookR_none_out d2) in Hn; auto; lia.
      - rewrite !iters_keys, !in_map_iff.
        split; intros (((a, b), v) & [= -> ->] & Hin); apply (ents_in d2) in Hin; auto; lia. }
    clear - S1 S2 Hiff.
    revert Hiff S1 S2. generalize (ents 0 R) (ents 0 Q). induction l as [|e E1 IH]; intros [|e2 E2] Hiff S1 S2; auto.
    - exfalso. apply (Hiff (fst e2)). now left.
    - exfalso. apply (Hiff (fst e)). now left.
    - inversion S1 as [|? ? S1' A1]; subst. inversion S2 as [|? ? S2' A2]; subst.
      rewrite Forall_forall in A1, A2. simpl.
      assert (B1 : forall p, In p (map fst E1) -> plt (fst e) p).
      { intros p Hp. apply in_map_iff in Hp as (x & <- & Hx). apply A1 in Hx. exact Hx. }
      assert (B2 : forall p, In p (map fst E2) -> plt (fst e2) p).
      { intros p Hp. apply in_map_iff in Hp as (x & <- & Hx). apply A2 in Hx. exact Hx. }
      assert (Hirr : forall a b, plt a b -> plt b a -> False) by (unfold plt; intros; lia).
      assert (He : fst e = fst e2).
      { destruct (proj1 (Hiff (fst e)) (or_introl eq_refl)) as [H|H]; auto.
        destruct (proj2 (Hiff (fst e2)) (or_introl eq_refl)) as [H'|H']; auto.
        exfalso. eapply Hirr; [apply B1, H'|apply B2, H]. }
      f_equal; auto. apply IH; auto. intros p. split; intros Hp.
      + destruct (proj1 (Hiff p) (or_intror Hp)) as [<-|H]; auto. exfalso. rewrite <- He in Hp.
        eapply Hirr; apply B1, Hp.
      + destruct (proj2 (Hiff p) (or_intror Hp)) as [<-|H]; auto. exfalso. rewrite He in Hp.
        eapply Hirr; apply B2, Hp. }
  destruct (length (concat R) =? length (concat Q)) eqn:Elen; cbn [negb].
  - apply Nat.eqb_eq in Elen.
    destruct (begins_ok R d2 HR) as [(it & -> & Hit) _]. cbn [bind].
    destruct (begins_ok Q d2 HQ) as [(jt & -> & Hjt) _]. cbn [bind].
    destruct (eq_loop d2 R Q HR HQ (iters 0 0 R) (iters 0 0 Q) (S (length (concat R))) it jt) as (b & Hb & Hiff); auto.
    + rewrite !iters_length. auto.
    + rewrite iters_length. lia.
    + exists b. split; auto. rewrite Hiff. split.
      * intros [K1 K2] i j Hi Hj. rewrite <- Hf, <- Hg by auto.
        assert (E1 := in_iters_keys d2 R i j HR ltac:(lia)). assert (E2 := in_iters_keys d2 Q i j HQ ltac:(lia)).
        rewrite <- K1 in E2. unfold lookR in *; cbn [fst snd] in *.
        destruct (look (nth i R []) j) as [v|] eqn:Ev, (look (nth i Q []) j) as [w|] eqn:Ew; auto.
        -- apply (K2 (i, j)); auto. apply E1. congruence.
        -- apply (proj1 E2); auto. apply E1. congruence.
        -- apply (proj1 E1); auto. apply E2. congruence.
      * intros Hall. split; auto. intros (i, j) v w _ Hv Hw.
        assert (Hne : lookR R (i, j) <> None) by congruence.
        apply (lookR_none_out d2) in Hne as [Hi Hj]; auto. unfold lookR in Hv, Hw; cbn [fst snd] in Hv, Hw.
        rewrite Hf in Hv by lia. rewrite Hg in Hw by lia. specialize (Hall i j ltac:(lia) Hj).
        now rewrite Hv, Hw in Hall.
  - exists false. split; auto. split; [discriminate|]. intros Hall. exfalso.
    apply Hpat in Hall. apply (f_equal (@length _)) in Hall. rewrite !map_length, !iters_length in Hall.
    apply Nat.eqb_neq in Elen. auto.
Qed.

(** ** Erasing through an iterator *)
Lemma erase_pos cn R1 ra c v rb R2 : rows_ok cn (R1 ++ (ra ++ (c, v) :: rb) :: R2) ->
  let R' := R1 ++ (ra ++ rb) :: R2 in
  let p := length (concat R1) + length ra in
  exists it', s_erase (crs (R1 ++ (ra ++ (c, v) :: rb) :: R2) cn) (mkI (length R1) c p) = Ok (crs R' cn, it') /\
  rows_ok cn R' /\
  match rest (length R1) p rb R2 with
  | [] => it_valid (crs R' cn) it' = false
  | y :: _ =>
      it2 it' = it2 y /\ itp it' = itp y /\ it1 it' <= it1 y /\
      ((rb <> [] \/ (ra <> [] /\ exists r2 R3, R2 = r2 :: R3 /\ r2 <> [])) -> it' = y)
  end.
Proof.
  intros HR R' p.
  assert (Hp : pos (R1 ++ (ra ++ (c, v) :: rb) :: R2) (mkI (length R1) c p) v (rest (length R1) (p + 1) rb R2)).
  { exists R1, ra, c, rb, R2. auto. }
  pose proof (rows_ok_mid _ _ _ _ HR) as Hr.
  assert (HR' : rows_ok cn R').
  { eapply rows_ok_upd; eauto. eapply row_ok_del; eauto. }
  unfold s_erase. rewrite (pos_valid _ _ _ _ _ HR Hp). cbn [itp it1 it2].
  destruct (erase_parts R1 ra (c, v) rb R2 cn p eq_refl) as (H1 & H2 & H3).
  rewrite H1, H2, H3. cbn [bind].
  assert (Hm : mkS (sv (crs R' cn)) (sc (crs R' cn)) (srp (crs R' cn))
                   (scn (crs (R1 ++ (ra ++ (c, v) :: rb) :: R2) cn)) (semp (crs (R1 ++ (ra ++ (c, v) :: rb) :: R2) cn)) = crs R' cn)
    by reflexivity.
  unfold R' in Hm. rewrite Hm. fold R'. rewrite sc_len.
  assert (Hlen : length R' = length (R1 ++ (ra ++ (c, v) :: rb) :: R2)) by (unfold R'; rewrite !app_length; reflexivity).
  rewrite rows_crs, cols_crs, <- Hlen.
  assert (HlR : length R' = length R1 + S (length R2)) by (unfold R'; rewrite app_length; reflexivity).
  destruct rb as [|(c', v') rb].
  - unfold rest. cbn [row_iters app length]. rewrite Nat.add_0_r.
    destruct (iters_cases R2 (S (length R1)) p) as [[E1 E2]|(k & c' & v' & rb' & R3 & E1 & E2)].
    + rewrite E1. replace (length (concat R') <=? p) with true.
      * eexists. split; [reflexivity|]. split; auto. apply end_invalid.
      * symmetry. apply Nat.leb_le. unfold R'. rewrite E2, concat_snoc_nil, app_nil_r. unfold p. lia.
    + rewrite E2. cbn [it1 it2 itp].
      replace (length (concat R') <=? p) with false.
      2: { symmetry. apply Nat.leb_gt. unfold R'. rewrite E1, concat_mid, concat_app, !app_length. simpl. unfold p. lia. }
      assert (Hc : vget (sc (crs R' cn)) p = Ok c').
      { unfold R'. rewrite E1, app_nil_r.
        replace (R1 ++ ra :: repeat [] k ++ ((c', v') :: rb') :: R3)
          with ((R1 ++ ra :: repeat [] k) ++ ([] ++ (c', v') :: rb') :: R3) by now rewrite <- app_assoc.
        apply sc_at. rewrite concat_snoc_nil. unfold p. simpl. lia. }
      rewrite Hc. cbn [bind].
      replace (length R' - length R1) with (S (length R2)) by lia. cbn [erase_row].
      assert (Hs1 : vget (srp (crs R' cn)) (length R1) = Ok (length (concat R1))) by apply srp_at.
      rewrite Hs1. cbn [bind].
      destruct ra as [|x ra].
      * unfold p at 1. cbn [length]. rewrite Nat.add_0_r, Nat.eqb_refl. cbn [bind].
        eexists. split; [reflexivity|]. split; auto. cbn [it1 it2 itp].
        split; [auto|split; [auto|split; [lia|]]]. intros [H|[H _]]; congruence.
      * replace (length (concat R1) =? p) with false by (symmetry; apply Nat.eqb_neq; unfold p; simpl; lia).
        replace (p <? length (concat R1)) with false by (symmetry; apply Nat.ltb_ge; unfold p; lia).
        rewrite E1. rewrite app_length, repeat_length. simpl length.
        assert (Hn : k + S (length R3) = S (k + length R3)) by lia. rewrite Hn. cbn [erase_row].
        assert (Hs2 : vget (srp (crs R' cn)) (length R1 + 1) = Ok p).
        { destruct R2 as [|r2 R2']; [destruct k; discriminate|].
          unfold R'. replace (R1 ++ ((x :: ra) ++ []) :: r2 :: R2') with ((R1 ++ [(x :: ra) ++ []]) ++ r2 :: R2') by now rewrite <- app_assoc.
          replace (length R1 + 1) with (length (R1 ++ [(x :: ra) ++ []])) by (rewrite app_length; simpl; lia).
          rewrite srp_at, concat_app, app_length. f_equal. unfold p. simpl. rewrite !app_nil_r. reflexivity. }
        rewrite Hs2. cbn [bind]. rewrite Nat.eqb_refl. cbn [bind].
        eexists. split; [reflexivity|]. split; auto. cbn [it1 it2 itp].
        split; [auto|split; [auto|split; [lia|]]]. intros [H|[_ (r2 & R3' & H & H')]]; [congruence|].
        destruct k as [|k].
        -- f_equal. lia.
        -- simpl in H. injection H as <- _. congruence.
  - unfold rest. cbn [row_iters app]. cbn [it1 it2 itp].
    replace (length (concat R') <=? p) with false.
    2: { symmetry. apply Nat.leb_gt. unfold R'. rewrite concat_mid, !app_length. simpl. unfold p. lia. }
    assert (Hc : vget (sc (crs R' cn)) p = Ok c') by (apply sc_at; reflexivity).
    rewrite Hc. cbn [bind].
    replace (length R' - length R1) with (S (length R2)) by lia. cbn [erase_row].
    assert (Hs1 : vget (srp (crs R' cn)) (length R1) = Ok (length (concat R1))) by apply srp_at.
    rewrite Hs1. cbn [bind].
    assert (Hrow : erase_row (length R2) (srp (crs R' cn)) p (length R1 + 1) (length R1) = Ok (length R1)).
    { destruct R2 as [|r2 R2']; [reflexivity|]. simpl length. cbn [erase_row].
      assert (Hs2 : exists a, vget (srp (crs R' cn)) (length R1 + 1) = Ok a /\ p < a).
      { exists (length (concat (R1 ++ [ra ++ (c', v') :: rb]))). split.
        - unfold R'. replace (R1 ++ (ra ++ (c', v') :: rb) :: r2 :: R2') with ((R1 ++ [ra ++ (c', v') :: rb]) ++ r2 :: R2') by now rewrite <- app_assoc.
          replace (length R1 + 1) with (length (R1 ++ [ra ++ (c', v') :: rb])) by (rewrite app_length; simpl; lia).
          apply srp_at.
        - rewrite concat_app, app_length. simpl. rewrite app_nil_r, app_length. simpl. unfold p. lia. }
      destruct Hs2 as (a & -> & Ha). cbn [bind]. bdec. reflexivity. }
    assert (Hr0 : (if length (concat R1) =? p then Ok (length R1)
                   else if p <? length (concat R1) then Ok (length R1)
                   else erase_row (length R2) (srp (crs R' cn)) p (length R1 + 1) (length R1)) = Ok (length R1)).
    { rewrite Hrow. destruct (_ =? _); auto. destruct (_ <? _); auto. }
    rewrite Hr0. cbn [bind]. eexists. split; [reflexivity|]. split; auto.
Qed.

End SparseOps2.
