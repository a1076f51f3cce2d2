(** Proofs about ilu0. *)
From Coq Require Import List Arith Bool Lia Ring Field Sorted.
From Verif Require Import Base BaseProofs Num Spec SpecProofs SparseModel SparseProofs SparseIter SparseEntries SparseOps SparseOps2
  SparseSpec SparseFacts SparsePropProofs MatI MatIProofs MatOps MatOpsProofs DetSpec DetProofs LUModel LUProofs.
Import ListNotations.
Local Open Scope nat_scope.
Open Scope res_scope.

Section ILU.
Context {N : Num} (HF : FieldLaws N).
Add Field ilufld : (fl_field N HF).
Hypothesis Htiny : tiny (@n0 N) = true.
Let Hz : zero_refl N := zero_laws_refl N (field_zero_laws N HF).
Notation row := (list (nat * N)).

Definition rval (r : row) (j : nat) : N := match look r j with Some v => v | None => n0 end.

Lemma at_crs (R : list row) cn i j : rows_ok cn R -> i < length R -> j < cn -> s_at (crs R cn) i j = Ok (rval (nth i R []) j).
Proof.
  intros HR Hi Hj.
  rewrite (srep_at Hz (crs R cn) (length R) cn (fun i j => look (nth i R []) j) i j); auto.
  exists R. repeat split; auto; lia.
Qed.

(** it stands at the head of the entries rb of row i, whose first has storage position p *)
Definition it_at (R : list row) cn (i p : nat) (rb : row) (it : sit) : Prop :=
  match rb with [] => it_valid (crs R cn) it = false | (c, _) :: _ => it = mkI i c p end.

Lemma valid_len (R R' : list row) cn it : length R = length R' -> it_valid (crs R cn) it = it_valid (crs R' cn) it.
Proof. intros H. unfold it_valid. now rewrite !rows_crs, !cols_crs, H. Qed.

Lemma put_here (R1 : list row) (ra : row) c (v : N) rb R2 cn (w : N) : rows_ok cn (R1 ++ (ra ++ (c, v) :: rb) :: R2) ->
  it_put (crs (R1 ++ (ra ++ (c, v) :: rb) :: R2) cn) (mkI (length R1) c (length (concat R1) + length ra)) w
  = Ok (crs (R1 ++ (ra ++ (c, w) :: rb) :: R2) cn).
Proof.
  intros HR.
  assert (Hp : pos (R1 ++ (ra ++ (c, v) :: rb) :: R2) (mkI (length R1) c (length (concat R1) + length ra)) v
                   (rest (length R1) (length (concat R1) + length ra + 1) rb R2)) by (exists R1, ra, c, rb, R2; auto).
  unfold it_put. rewrite (pos_valid _ _ _ _ _ HR Hp). cbn [itp].
  destruct (replace_parts R1 ra c v w rb R2 cn _ eq_refl) as (H1 & H2 & H3). rewrite H1, H2, H3. reflexivity.
Qed.
Lemma get_here (R1 : list row) (ra : row) c (v : N) rb R2 cn : rows_ok cn (R1 ++ (ra ++ (c, v) :: rb) :: R2) ->
  it_get (crs (R1 ++ (ra ++ (c, v) :: rb) :: R2) cn) (mkI (length R1) c (length (concat R1) + length ra)) = Ok v /\
  it_valid (crs (R1 ++ (ra ++ (c, v) :: rb) :: R2) cn) (mkI (length R1) c (length (concat R1) + length ra)) = true /\
  c < cn.
Proof.
  intros HR.
  assert (Hp : pos (R1 ++ (ra ++ (c, v) :: rb) :: R2) (mkI (length R1) c (length (concat R1) + length ra)) v
                   (rest (length R1) (length (concat R1) + length ra + 1) rb R2)) by (exists R1, ra, c, rb, R2; auto).
  split; [eapply pos_get; eauto|]. split; [eapply pos_valid; eauto|]. apply (pos_in _ _ _ _ _ HR Hp).
Qed.
Lemma inc_here (R1 : list row) (ra : row) c (v : N) rb R2 cn : rows_ok cn (R1 ++ (ra ++ (c, v) :: rb) :: R2) ->
  exists it', rit_inc (crs (R1 ++ (ra ++ (c, v) :: rb) :: R2) cn) (mkI (length R1) c (length (concat R1) + length ra)) = Ok it' /\
    forall R' v', length R' = length (R1 ++ (ra ++ (c, v) :: rb) :: R2) ->
    it_at R' cn (length R1) (length (concat R1) + length (ra ++ [(c, v')])) rb it'.
Proof.
  intros HR. destruct (rit_inc_row R1 ra c v rb R2 cn HR) as (p & E). rewrite E. eexists. split; [reflexivity|].
  intros R' v' HL. destruct rb as [|(c', w') rb]; cbn [row_iters hd it_at].
  - rewrite <- HL. apply end_invalid.
  - rewrite app_length. cbn [length]. f_equal. lia.
Qed.

Definition upd_by (r : row) (d : N) (e : nat * N) : nat * N := (fst e, (snd e - d * rval r (fst e))%num).

Lemma map_fst_upd r d rb : map fst (map (upd_by r d) rb) = map fst rb.
Proof. rewrite map_map. apply map_ext. reflexivity. Qed.
Lemma rows_ok_cols cn R1 (r r' : row) R2 : map fst r = map fst r' -> rows_ok cn (R1 ++ r :: R2) -> rows_ok cn (R1 ++ r' :: R2).
Proof.
  intros E H. eapply rows_ok_upd; [exact H|]. apply rows_ok_mid in H. unfold row_ok in *. now rewrite <- E.
Qed.

Lemma ilu_inner_ok (R1 R2 : list row) cn k (d : N) : k < length R1 -> forall rb ra fuel it, rows_ok cn (R1 ++ (ra ++ rb) :: R2) ->
  it_at (R1 ++ (ra ++ rb) :: R2) cn (length R1) (length (concat R1) + length ra) rb it -> length rb < fuel ->
  ilu_inner fuel k d (crs (R1 ++ (ra ++ rb) :: R2) cn) it
  = Ok (crs (R1 ++ (ra ++ map (upd_by (nth k R1 []) d) rb) :: R2) cn).
Proof.
  intros Hk. induction rb as [|(c, v) rb IH]; intros ra fuel it HR Hit Hf; (destruct fuel as [|fuel]; [cbn in Hf; lia|]);
    cbn [ilu_inner map]; rewrite s_end_crs; cbn [bind].
  - cbn in Hit. rewrite it_eq_end by auto. reflexivity.
  - cbn in Hit. subst it. destruct (get_here R1 ra c v rb R2 cn HR) as (E1 & E2 & E3).
    rewrite it_ne_end by auto. cbn [negb it2]. rewrite E1. cbn [bind].
    rewrite at_crs by (auto; rewrite app_length; cbn; lia). cbn [bind]. rewrite app_nth1 by auto.
    rewrite put_here by auto. cbn [bind].
    assert (HR' : rows_ok cn (R1 ++ (ra ++ (c, (v - d * rval (nth k R1 []) c)%num) :: rb) :: R2)).
    { eapply rows_ok_cols; [|exact HR]. now rewrite !map_app. }
    destruct (inc_here R1 ra c _ rb R2 cn HR') as (it' & E & Hat). rewrite E. cbn [bind].
    set (w := (v - d * rval (nth k R1 []) c)%num) in *.
    replace (ra ++ (c, w) :: rb) with ((ra ++ [(c, w)]) ++ rb) in * by now rewrite <- app_assoc.
    rewrite (IH (ra ++ [(c, w)]) fuel it' HR').
    + unfold upd_by at 2. cbn [fst snd]. fold w. rewrite <- app_assoc. reflexivity.
    + apply Hat. reflexivity.
    + cbn in Hf. lia.
Qed.

Lemma rval_app (ra rb : row) j : Forall (fun c => c <> j) (map fst ra) -> rval (ra ++ rb) j = rval rb j.
Proof. intros H. unfold rval. now rewrite look_app. Qed.
Lemma rval_0 (r : row) j : Forall (fun c => c <> j) (map fst r) -> rval r j = n0.
Proof. intros H. unfold rval. now rewrite look_none. Qed.
Lemma rval_snoc (r : row) c v j : ~ In c (map fst r) -> rval (r ++ [(c, v)]) j = if j =? c then v else rval r j.
Proof.
  intros Hc. unfold rval. induction r as [|(c', v') r IH]; cbn [app look map fst In] in *.
  - rewrite Nat.eqb_sym. bcase; auto.
  - destruct (Nat.eqb_spec c' j).
    + subst. destruct (Nat.eqb_spec j c); [tauto|auto].
    + apply IH. tauto.
Qed.
Lemma rval_snoc_app (r rb : row) c v j : row_ok j (r ++ (c, v) :: rb) \/ True -> rval (r ++ (c, v) :: rb) j = rval ((r ++ [(c, v)]) ++ rb) j.
Proof. intros _. now rewrite <- app_assoc. Qed.

(** State of one row during its elimination: don has been finished, rem is still to come. *)
Definition row_inv (R1 : list row) n (r0 don rem : row) : Prop :=
  map fst (don ++ rem) = map fst r0 /\
  Forall (fun c => c < length R1) (map fst don) /\
  (forall c x, In (c, x) don -> rval (nth c R1 []) c <> n0 /\
     (bigsum c (fun k => rval don k * rval (nth k R1 []) c) + x * rval (nth c R1 []) c)%num = rval r0 c) /\
  (forall c x, In (c, x) rem -> x = (rval r0 c - bigsum n (fun k => rval don k * rval (nth k R1 []) c))%num).

Lemma sorted_snoc cn (don rem : row) c v : row_ok cn (don ++ (c, v) :: rem) ->
  Forall (fun c' => c' < c) (map fst don) /\ Forall (fun c' => c < c') (map fst rem).
Proof. apply sorted_left. Qed.

Lemma ilu_row_ok (R1 R2 : list row) n (r0 : row) : length R1 < n -> length (R1 ++ r0 :: R2) = n -> forall rem don fuel it,
  rows_ok n (R1 ++ (don ++ rem) :: R2) -> row_inv R1 n r0 don rem ->
  it_at (R1 ++ (don ++ rem) :: R2) n (length R1) (length (concat R1) + length don) rem it -> length rem < fuel ->
  post (ilu_row fuel (length R1) (crs (R1 ++ (don ++ rem) :: R2) n) it)
    (fun m => exists don' rem', m = crs (R1 ++ (don' ++ rem') :: R2) n /\ rows_ok n (R1 ++ (don' ++ rem') :: R2) /\
       row_inv R1 n r0 don' rem' /\ Forall (fun c => length R1 <= c) (map fst rem'))
    (fun e => e = Singular /\ exists c, c < length R1 /\ In c (map fst r0) /\ tiny (rval (nth c R1 []) c) = true).
Proof.
  intros Hi Hlen rem. 
  assert (Hm : forall k (rem0 : row), length rem0 <= k -> forall don fuel it,
    rows_ok n (R1 ++ (don ++ rem0) :: R2) -> row_inv R1 n r0 don rem0 ->
    it_at (R1 ++ (don ++ rem0) :: R2) n (length R1) (length (concat R1) + length don) rem0 it -> length rem0 < fuel ->
    post (ilu_row fuel (length R1) (crs (R1 ++ (don ++ rem0) :: R2) n) it)
    (fun m => exists don' rem', m = crs (R1 ++ (don' ++ rem') :: R2) n /\ rows_ok n (R1 ++ (don' ++ rem') :: R2) /\
       row_inv R1 n r0 don' rem' /\ Forall (fun c => length R1 <= c) (map fst rem'))
    (fun e => e = Singular /\ exists c, c < length R1 /\ In c (map fst r0) /\ tiny (rval (nth c R1 []) c) = true)).
  2: { apply (Hm (length rem) rem). lia. }
  clear rem. induction k as [|k IH]; intros rem Hk don fuel it HR Hinv Hit Hf;
    (destruct fuel as [|fuel]; [cbn in Hf; lia|]); cbn [ilu_row]; rewrite s_end_crs; cbn [bind].
  - destruct rem; [|cbn in Hk; lia]. cbn in Hit. rewrite it_eq_end by auto. cbn [negb andb post]. exists don, []. cbn. auto.
  - destruct rem as [|(c, x) rem].
    { cbn in Hit. rewrite it_eq_end by auto. cbn [negb andb post]. exists don, []. cbn. auto. }
    cbn in Hit. subst it. destruct (get_here R1 don c x rem R2 n HR) as (E1 & E2 & E3).
    rewrite it_ne_end by auto. cbn [negb it2 andb].
    destruct (sorted_snoc n don rem c x (rows_ok_mid _ _ _ _ HR)) as [Sa Sb].
    destruct (Nat.ltb_spec c (length R1)) as [Hc|Hc].
    2: { cbn [post]. exists don, ((c, x) :: rem). split; auto. split; auto. split; auto. cbn [map fst]. constructor; auto.
         eapply Forall_impl; [|exact Sb]. cbn. intros; lia. }
    rewrite at_crs by (auto; rewrite app_length; lia). cbn [bind]. rewrite app_nth1 by auto.
    destruct (tiny (rval (nth c R1 []) c)) eqn:Et.
    { cbn [post]. split; auto. exists c. split; auto. split; auto. destruct Hinv as (I1 & _). rewrite <- I1, map_app. cbn.
      apply in_or_app. right. now left. }
    pose proof (not_tiny Htiny _ Et) as Hnz. rewrite E1. cbn [bind]. rewrite put_here by auto. cbn [bind].
    set (d := (x / rval (nth c R1 []) c)%num).
    assert (HR1 : rows_ok n (R1 ++ (don ++ (c, d) :: rem) :: R2)) by (eapply rows_ok_cols; [|exact HR]; now rewrite !map_app).
    destruct (inc_here R1 don c d rem R2 n HR1) as (nx & -> & Hat1). cbn [bind].
    replace (don ++ (c, d) :: rem) with ((don ++ [(c, d)]) ++ rem) in * by now rewrite <- app_assoc.
    rewrite (ilu_inner_ok R1 R2 n c d Hc rem (don ++ [(c, d)]) _ nx HR1).
    2: { apply Hat1. reflexivity. }
    2: { rewrite filled_crs, concat_mid, !app_length. lia. }
    cbn [bind]. set (rem1 := map (upd_by (nth c R1 []) d) rem).
    assert (HR2 : rows_ok n (R1 ++ ((don ++ [(c, d)]) ++ rem1) :: R2)).
    { eapply rows_ok_cols; [|exact HR1]. unfold rem1. now rewrite !map_app, map_fst_upd. }
    assert (HR3 : rows_ok n (R1 ++ (don ++ (c, d) :: rem1) :: R2)) by (rewrite <- app_assoc in HR2; exact HR2).
    destruct (inc_here R1 don c d rem1 R2 n HR3) as (it' & E' & Hat').
    replace (don ++ (c, d) :: rem1) with ((don ++ [(c, d)]) ++ rem1) in * by now rewrite <- app_assoc.
    rewrite E'. cbn [bind].
    apply IH; auto.
    + unfold rem1. rewrite map_length. cbn in Hk. lia.
    + destruct Hinv as (I1 & I2 & I3 & I4).
      assert (Hnin : ~ In c (map fst don)).
      { intros X. rewrite Forall_forall in Sa. specialize (Sa c X). lia. }
      assert (Hsn : forall j, rval (don ++ [(c, d)]) j = if j =? c then d else rval don j) by (intros; now apply rval_snoc).
      assert (Hdc : rval don c = n0).
      { apply rval_0. eapply Forall_impl; [|exact Sa]. cbn. intros; lia. }
      split; [|split; [|split]].
      * unfold rem1. rewrite !map_app, map_fst_upd. rewrite <- I1, !map_app. cbn. now rewrite <- app_assoc.
      * rewrite map_app, Forall_app. split; auto. cbn. constructor; auto.
      * intros c' x' Hin. apply in_app_or in Hin. destruct Hin as [Hin|[[= <- <-]|[]]].
        -- destruct (I3 c' x' Hin) as [J1 J2]. split; auto. rewrite <- J2. f_equal. apply bigsum_ext. intros t Ht. rewrite Hsn.
           rewrite Forall_forall in Sa. specialize (Sa c' (in_map fst _ _ Hin)). bcase. auto.
        -- split; auto. rewrite (bigsum_ext c _ (fun k => rval don k * rval (nth k R1 []) c)%num) by (intros t Ht; rewrite Hsn; bcase; auto).
           unfold d. rewrite (I4 c x) by (now left).
           rewrite (bigsum_trunc HF n c).
           { field. auto. } { lia. }
           intros t Ht. rewrite (rval_0 don); [ring|]. eapply Forall_impl; [|exact Sa]. cbn. intros; lia.
      * intros c' x' Hin. unfold rem1 in Hin. apply in_map_iff in Hin. destruct Hin as ((c0, x0) & [= <- <-] & Hin). cbn [fst snd].
        rewrite (I4 c0 x0) by (now right).
        rewrite (bigsum_ext n (fun k => rval (don ++ [(c, d)]) k * rval (nth k R1 []) c0)%num
          (fun k => rval don k * rval (nth k R1 []) c0 + (if k =? c then d * rval (nth c R1 []) c0 else n0))%num).
        -- rewrite (bigsum_plus HF). rewrite (bigsum_single HF n c (fun k => if k =? c then _ else _)); [rewrite Nat.eqb_refl; ring|lia|].
           intros t Ht Hne. bcase. auto.
        -- intros t Ht. rewrite Hsn. bcase; subst; rewrite ?Hdc; ring.
    + unfold rem1. rewrite map_length. cbn in Hf. lia.
Qed.

Lemma row_begin_at (R1 : list row) (r : row) R2 cn : rows_ok cn (R1 ++ r :: R2) ->
  exists it, s_row_begin (crs (R1 ++ r :: R2) cn) (length R1) = Ok it /\
    it_at (R1 ++ r :: R2) cn (length R1) (length (concat R1) + 0) r it.
Proof.
  intros HR. unfold s_row_begin.
  destruct (s_empty (crs (R1 ++ r :: R2) cn)) eqn:He.
  - apply empty_crs in He. rewrite concat_mid in He. apply app_eq_nil in He as [H1 He]. apply app_eq_nil in He as [-> H2].
    rewrite s_end_crs. eexists. split; [reflexivity|]. cbn. apply end_invalid.
  - rewrite rec_crs. cbn [bind]. destruct r as [|(c, v) r].
    + cbn [length Nat.eqb]. rewrite s_end_crs. eexists. split; [reflexivity|]. cbn. apply end_invalid.
    + cbn [length Nat.eqb]. change ((c, v) :: r) with ([] ++ (c, v) :: r) at 1.
      rewrite sc_at by (simpl; lia). cbn [bind]. change ((c, v) :: r) with ([] ++ (c, v) :: r) at 1.
      erewrite make_pos; [|reflexivity|exact HR]. eexists. split; [reflexivity|]. reflexivity.
Qed.

(** What the finished row number [length R1] satisfies. *)
Definition row_done (R1 : list row) (r0 r : row) : Prop :=
  map fst r = map fst r0 /\
  forall c x, In (c, x) r ->
    if c <? length R1
    then (bigsum c (fun k => rval r k * rval (nth k R1 []) c) + x * rval (nth c R1 []) c)%num = rval r0 c
    else (bigsum (length R1) (fun k => rval r k * rval (nth k R1 []) c) + x)%num = rval r0 c.

Lemma rval_app_l (ra rb : row) j : ~ In j (map fst rb) -> rval (ra ++ rb) j = rval ra j.
Proof.
  intros H. unfold rval. induction ra as [|(c, v) ra IH]; cbn [app look].
  - rewrite look_none; auto. apply Forall_forall. intros x Hx ->. auto.
  - destruct (c =? j); auto.
Qed.
Lemma rval_in cn (r : row) c x : row_ok cn r -> In (c, x) r -> rval r c = x.
Proof. intros Hr Hi. unfold rval. now rewrite (proj2 (look_in cn r c x Hr) Hi). Qed.

Lemma row_inv_done cn (R1 : list row) n (r0 don rem : row) : length R1 <= n -> row_ok cn (don ++ rem) -> row_inv R1 n r0 don rem ->
  Forall (fun c => length R1 <= c) (map fst rem) -> row_done R1 r0 (don ++ rem).
Proof.
  intros Hn Hr (I1 & I2 & I3 & I4) Hge. split; auto. rewrite Forall_forall in Hge, I2.
  assert (Hv : forall k, k < length R1 -> rval (don ++ rem) k = rval don k).
  { intros k Hk. apply rval_app_l. intros X. specialize (Hge k X). lia. }
  intros c x Hin. apply in_app_or in Hin. destruct Hin as [Hin|Hin].
  - specialize (I2 c (in_map fst _ _ Hin)). cbn in I2. bcase. destruct (I3 c x Hin) as [_ J]. rewrite <- J. f_equal.
    apply bigsum_ext. intros t Ht. rewrite Hv by lia. auto.
  - specialize (Hge c (in_map fst _ _ Hin)). cbn in Hge. bcase. rewrite (I4 c x Hin).
    rewrite (bigsum_trunc HF n (length R1)); auto.
    + rewrite (bigsum_ext (length R1) (fun k => rval (don ++ rem) k * rval (nth k R1 []) c)%num
         (fun k => rval don k * rval (nth k R1 []) c)%num) by (intros t Ht; rewrite Hv by lia; auto). ring.
    + intros t Ht. rewrite (nth_overflow R1) by lia. unfold rval at 2. cbn. ring.
Qed.

(** After the elimination: same pattern, and the equations of the incomplete factorisation. *)
Definition ilu_eqs (n m : nat) (R0 R : list row) : Prop :=
  length R = m /\ rows_ok n R /\
  forall i, i < m -> row_done (firstn i R) (nth i R0 []) (nth i R []).

Lemma skipn_S {A} : forall (l : list A) i x t, x :: t = skipn i l -> skipn (S i) l = t.
Proof. induction l; intros [|i] x t H; cbn in *; try congruence. apply (IHl i x t H). Qed.

Lemma ilu_elim n (R0 : list row) : length R0 = n -> 0 < n -> rows_ok n R0 ->
  post (for_ 1 n (fun i m => let* it := s_row_begin m i in ilu_row (S (s_filled m)) i m it) (crs R0 n))
    (fun m => exists R, m = crs R n /\ ilu_eqs n n R0 R)
    (fun e => e = Singular /\ exists m R c, m < n /\ c < m /\ ilu_eqs n m R0 R /\ In c (map fst (nth m R0 [])) /\
       tiny (rval (nth c R []) c) = true).
Proof.
  intros Hlen Hn HR0. match goal with |- post _ _ ?X => set (EX := X) end.
  set (P := fun i (m : smat N) => exists R1 R2, m = crs (R1 ++ R2) n /\ length R1 = i /\ R2 = skipn i R0 /\
     rows_ok n (R1 ++ R2) /\ forall t, t < i -> row_done (firstn t R1) (nth t R0 []) (nth t R1 [])).
  assert (H : post (for_ 1 n (fun i m => let* it := s_row_begin m i in ilu_row (S (s_filled m)) i m it) (crs R0 n))
     (P n) EX).
  { apply for_post; [lia| |].
    - destruct R0 as [|r0 R0]; [cbn in Hlen; lia|]. exists [r0], R0. repeat split; auto.
      + assert (t = 0) by lia. subst. reflexivity.
      + assert (t = 0) by lia. subst t. cbn [nth firstn length]. intros c x Hin. cbn.
        rewrite (rval_in n r0 c x) by (auto; apply (rows_ok_mid n [] r0 R0 HR0)). ring.
    - intros i m Hi (R1 & R2 & -> & HL1 & HR2 & HR & Hd).
      destruct R2 as [|r R2].
      { apply (f_equal (@length _)) in HR2. rewrite skipn_length in HR2. cbn in HR2. lia. }
      assert (Hr : nth i R0 [] = r /\ skipn (S i) R0 = R2).
      { rewrite <- (firstn_skipn i R0), <- HR2 at 1. rewrite app_nth2; rewrite firstn_length; [|lia].
        replace (i - Nat.min i (length R0)) with 0 by lia. split; auto.
        now apply (skipn_S R0 i r R2). }
      destruct Hr as [Hr HR2'].
      assert (HL : length (R1 ++ r :: R2) = n).
      { rewrite app_length. rewrite HR2, skipn_length. lia. }
      destruct (row_begin_at R1 r R2 n HR) as (it & E & Hat). rewrite <- HL1. rewrite E. cbn [bind].
      apply (post_mono _ _ _ _ _ (ilu_row_ok R1 R2 n r ltac:(lia) HL r [] (S (s_filled (crs (R1 ++ r :: R2) n))) it HR
         ltac:(
           split; [reflexivity|split; [constructor|split; [intros ? ? []|]]];
           intros c x Hin; rewrite (rval_in n r c x) by (auto; eapply rows_ok_mid; eauto);
           rewrite (bigsum_0 HF) by (intros; cbn; ring); ring) Hat ltac:(rewrite filled_crs, concat_mid, !app_length; lia)));
        [|intros e (-> & c & Hc & Hin & Ht); split; auto; exists i, R1, c; rewrite <- HL1 at 2; rewrite Hr; repeat split; auto; try lia;
          [unfold rows_ok in HR; rewrite Forall_app in HR; tauto|apply Hd; lia|apply Hd; lia]].
      intros m (don & rem & -> & Hok & Hinv & Hge). exists (R1 ++ [don ++ rem]), R2.
      rewrite <- app_assoc. split; auto. split; [rewrite app_length; cbn; lia|]. split; [rewrite HL1; congruence|]. split; auto.
      intros t Ht. destruct (Nat.eq_dec t i).
      + subst t. rewrite firstn_app, HL1, Nat.sub_diag. cbn [firstn]. rewrite app_nil_r, <- HL1, firstn_all.
        rewrite app_nth2, Nat.sub_diag by lia. cbn [nth]. rewrite HL1, Hr.
        apply (row_inv_done n R1 n r don rem); auto; [lia|]. eapply rows_ok_mid; eauto.
      + rewrite app_nth1 by lia. rewrite firstn_app. replace (t - length R1) with 0 by lia. cbn [firstn]. rewrite app_nil_r.
        apply Hd. lia. }
  eapply post_mono; [exact H| |auto]. intros m (R1 & R2 & -> & HL1 & HR2 & HR & Hd).
  assert (R2 = []) by (rewrite HR2; apply skipn_all2; lia). rewrite H0, app_nil_r in *. exists R1. repeat split; auto; apply Hd; auto.
Qed.

Lemma nth_firstn {A} (d : A) : forall i k l, k < i -> nth k (firstn i l) d = nth k l d.
Proof. induction i; intros k l H; [lia|]. destruct l; [now destruct k|]. destruct k; auto. cbn. apply IHi. lia. Qed.

(** the equations, as plain tables *)
Lemma ilu_eqs_table n m R0 R : ilu_eqs n m R0 R -> m <= n -> forall i j x, i < m -> look (nth i R []) j = Some x ->
  if j <? i
  then (bigsum j (fun k => rval (nth i R []) k * rval (nth k R []) j) + x * rval (nth j R []) j)%num = rval (nth i R0 []) j
  else (bigsum i (fun k => rval (nth i R []) k * rval (nth k R []) j) + x)%num = rval (nth i R0 []) j.
Proof.
  intros (HL & HR & Hd) Hmn i j x Hi Hx. destruct (Hd i Hi) as [_ D].
  assert (Hok : row_ok n (nth i R [])) by (eapply Forall_nth; eauto; lia).
  specialize (D j x (proj1 (look_in n _ _ _ Hok) Hx)). rewrite firstn_length in D.
  replace (Nat.min i (length R)) with i in D by lia.
  destruct (Nat.ltb_spec j i).
  - rewrite (nth_firstn [] i j) in D by lia. rewrite <- D. f_equal. apply bigsum_ext. intros t Ht. rewrite nth_firstn by lia. auto.
  - rewrite <- D. f_equal. apply bigsum_ext. intros t Ht. rewrite nth_firstn by lia. auto.
Qed.
Lemma ilu_eqs_pattern n m R0 R : ilu_eqs n m R0 R -> forall i j, i < m ->
  look (nth i R []) j = None <-> look (nth i R0 []) j = None.
Proof.
  intros (HL & HR & Hd) i j Hi. destruct (Hd i Hi) as [D _].
  assert (G : forall r : row, look r j = None <-> ~ In j (map fst r)).
  { induction r as [|(c, v) r IH]; cbn; [tauto|]. destruct (Nat.eqb_spec c j); [intuition congruence|]. rewrite IH. tauto. }
  rewrite !G, D. tauto.
Qed.

(** split into L and U *)
Definition lfin (l0 : nat -> nat -> N) (R : list row) i j : N :=
  match look (nth i R []) j with
  | Some x => if j =? i then n1 else if j <? i then x else l0 i j
  | None => l0 i j
  end.
Definition ufin (u0 : nat -> nat -> N) (R : list row) i j : N :=
  match look (nth i R []) j with Some x => if i <=? j then x else u0 i j | None => u0 i j end.

Let HL := sparse_laws N HF.

Lemma classic_in (done : list (nat * nat * N)) i j : (exists v, In (i, j, v) done) \/ (forall v, ~ In (i, j, v) done).
Proof.
  induction done as [|((a, b), x) done IH]; [right; auto|].
  destruct (Nat.eq_dec a i); [destruct (Nat.eq_dec b j)|]; subst; [left; exists x; now left| |];
    (destruct IH as [(v & H)|H]; [left; exists v; now right|right; intros v [[= ]|X]; [congruence|now apply (H v)]]).
Qed.

Lemma ilu_split_ok n (R : list row) (L U : smat N) l0 u0 : length R = n -> rows_ok n R ->
  @holds N (SparseI N) L n n l0 -> @holds N (SparseI N) U n n u0 ->
  returns (ilu_split (crs R n) L U) (fun LU => @holds N (SparseI N) (fst LU) n n (lfin l0 R) /\ @holds N (SparseI N) (snd LU) n n (ufin u0 R)).
Proof.
  intros HLen HR HL0 HU0. unfold ilu_split.
  rewrite (s_for_ents R n (fun i j x LU =>
    if j =? i then
      let* L := s_set (fst LU) i j n1 in
      let* U := s_set (snd LU) i j x in
      Ok (L, U)
    else if j <? i then
      let* L := s_set (fst LU) i j x in Ok (L, snd LU)
    else
      let* U := s_set (snd LU) i j x in Ok (fst LU, U)) (L, U) HR).
  set (Q := fun (done : list (nat * nat * N)) (LU : smat N * smat N) => exists l u,
    @holds N (SparseI N) (fst LU) n n l /\ @holds N (SparseI N) (snd LU) n n u /\
    forall i j, i < n -> j < n ->
      ((exists v, In (i, j, v) done) -> l i j = lfin l0 R i j /\ u i j = ufin u0 R i j) /\
      ((forall v, ~ In (i, j, v) done) -> l i j = l0 i j /\ u i j = u0 i j)).
  assert (Hp : post (foreach (ents 0 R) (fun e LU => (fun i j x LU =>
    if j =? i then
      let* L := s_set (fst LU) i j n1 in
      let* U := s_set (snd LU) i j x in
      Ok (L, U)
    else if j <? i then
      let* L := s_set (fst LU) i j x in Ok (L, snd LU)
    else
      let* U := s_set (snd LU) i j x in Ok (fst LU, U)) (fst (fst e)) (snd (fst e)) (snd e) LU) (L, U)) (Q ([] ++ ents 0 R)) (fun _ => False)).
  { apply foreach_post.
    - exists l0, u0. split; [exact HL0|]. split; [exact HU0|]. intros i j _ _. split; [intros (v & [])|auto].
    - intros ((i, j), x) done (L1, U1) Hin (l & u & Hl & Hu & Hq). cbn [fst snd] in *.
      apply (ents_in n) in Hin; auto. rewrite Nat.sub_0_r in Hin. destruct Hin as (_ & Hi & Hx). cbn in Hi.
      assert (Hj : j < n) by (eapply row_ok_look; [|exact Hx]; eapply Forall_nth; eauto).
      assert (Step : forall l1 u1, (forall i' j', i' < n -> j' < n -> l1 i' j' = if (i' =? i) && (j' =? j) then lfin l0 R i j else l i' j') ->
         (forall i' j', i' < n -> j' < n -> u1 i' j' = if (i' =? i) && (j' =? j) then ufin u0 R i j else u i' j') ->
         forall i' j', i' < n -> j' < n ->
          ((exists v, In (i', j', v) (done ++ [(i, j, x)])) -> l1 i' j' = lfin l0 R i' j' /\ u1 i' j' = ufin u0 R i' j') /\
          ((forall v, ~ In (i', j', v) (done ++ [(i, j, x)])) -> l1 i' j' = l0 i' j' /\ u1 i' j' = u0 i' j')).
      { intros l1 u1 H1 H2 i' j' Hi' Hj'. rewrite H1, H2 by auto.
        destruct (Nat.eqb_spec i' i); [destruct (Nat.eqb_spec j' j)|]; cbn [andb].
        - subst. split; [auto|]. intros X. exfalso. apply (X x). apply in_or_app. right. now left.
        - destruct (Hq i' j' Hi' Hj') as [Q1 Q2]. split.
          + intros (v & Hv). apply Q1. apply in_app_or in Hv. destruct Hv as [Hv|[[= ? ? ?]|[]]]; [eauto|congruence].
          + intros X. apply Q2. intros v Hv. apply (X v). apply in_or_app. auto.
        - destruct (Hq i' j' Hi' Hj') as [Q1 Q2]. split.
          + intros (v & Hv). apply Q1. apply in_app_or in Hv. destruct Hv as [Hv|[[= ? ? ?]|[]]]; [eauto|congruence].
          + intros X. apply Q2. intros v Hv. apply (X v). apply in_or_app. auto. }
      assert (Hkeep : forall (h : nat -> nat -> N) i' j' w, w = h i j -> h i' j' = if (i' =? i) && (j' =? j) then w else h i' j').
      { intros h i' j' w ->. destruct (Nat.eqb_spec i' i); [destruct (Nat.eqb_spec j' j)|]; cbn [andb]; subst; auto. }
      assert (Hold : ~ (j <= i) -> lfin l0 R i j = l i j).
      { intros Hlt. assert (lfin l0 R i j = l0 i j) by (unfold lfin; rewrite Hx; bcase; auto).
        destruct (Hq i j ltac:(lia) Hj) as [Q1 Q2].
        destruct (classic_in done i j) as [X|X]; [destruct (Q1 X); auto|destruct (Q2 X); congruence]. }
      assert (Hold' : ~ (i <= j) -> ufin u0 R i j = u i j).
      { intros Hlt. assert (ufin u0 R i j = u0 i j) by (unfold ufin; rewrite Hx; bcase; auto).
        destruct (Hq i j ltac:(lia) Hj) as [Q1 Q2].
        destruct (classic_in done i j) as [X|X]; [destruct (Q1 X); auto|destruct (Q2 X); congruence]. }
      destruct (Nat.eqb_spec j i) as [->|Hne]; [|destruct (Nat.ltb_spec j i)].
      + destruct (holds_set HL L1 n n l i i n1 Hl) as (L2 & E1 & H2); try lia.
        destruct (holds_set HL U1 n n u i i x Hu) as (U2 & E2 & H3); try lia.
        cbn in E1, E2. rewrite E1. cbn [bind]. rewrite E2. cbn [bind post]. exists (put2 l i i n1), (put2 u i i x). cbn [fst snd].
        split; auto. split; auto. apply Step; intros i' j' _ _; unfold put2, lfin, ufin; rewrite Hx; bcase; auto.
      + destruct (holds_set HL L1 n n l i j x Hl) as (L2 & E1 & H2); try lia.
        cbn in E1. rewrite E1. cbn [bind post]. exists (put2 l i j x), u. cbn [fst snd].
        split; auto. split; auto. apply Step; intros i' j' _ _.
        * unfold put2, lfin; rewrite Hx; bcase; auto.
        * apply Hkeep. apply Hold'. lia.
      + destruct (holds_set HL U1 n n u i j x Hu) as (U2 & E2 & H3); try lia.
        cbn in E2. rewrite E2. cbn [bind post]. exists l, (put2 u i j x). cbn [fst snd].
        split; auto. split; auto. apply Step; intros i' j' _ _.
        * apply Hkeep. apply Hold. lia.
        * unfold put2, ufin; rewrite Hx; bcase; auto. }
  apply returns_post. eapply post_mono; [exact Hp| |auto]. intros (L1, U1) (l & u & Hl & Hu & Hq). cbn [app fst snd] in *.
  assert (Hfin : forall i j, i < n -> j < n -> l i j = lfin l0 R i j /\ u i j = ufin u0 R i j).
  { intros i j Hi Hj. destruct (Hq i j Hi Hj) as [Q1 Q2]. destruct (look (nth i R []) j) as [v|] eqn:E.
    - apply Q1. exists v. apply (ents_in n); auto. rewrite Nat.sub_0_r. repeat split; auto; lia.
    - unfold lfin, ufin. rewrite E. apply Q2. intros v Hv. apply (ents_in n) in Hv; auto. rewrite Nat.sub_0_r in Hv.
      destruct Hv as (_ & _ & Hv). congruence. }
  split; (eapply holds_ext; [eassumption|]); intros i j Hi Hj; apply Hfin; auto.
Qed.

Lemma ilu_eqs_tables n m a (R0 R : list row) : m <= n -> ilu_eqs n m R0 R ->
  (forall i j, i < n -> j < n -> rval (nth i R0 []) j = a i j) ->
  (forall i j, i < n -> j < n -> look (nth i R0 []) j = None <-> a i j = n0) ->
  (forall i, i < n -> a i i <> n0) ->
  ilu_tables n m a (lfin (fun _ _ => n0) R) (ufin (fun _ _ => n0) R).
Proof.
  intros Hmn HE Hval Hst Hdiag.
  assert (Hpat : forall i j, i < m -> j < n -> look (nth i R []) j = None <-> a i j = n0).
  { intros i j Hi Hj. rewrite <- Hst by (auto; lia). apply (ilu_eqs_pattern n m R0 R HE). auto. }
  split; [|split; [|split; [|split]]].
  - intros i j Hi Hj Hlt. unfold lfin. destruct (look _ _); auto. bcase; auto.
  - intros i Hi. unfold lfin. destruct (look (nth i R []) i) eqn:E; [bcase; auto|].
    apply Hpat in E; auto; [|lia]. apply Hdiag in E; [contradiction|lia].
  - intros i j Hi Hj Hlt. unfold ufin. destruct (look _ _); auto. bcase; auto.
  - intros i j Hi Hj E. apply Hpat in E; auto. unfold lfin, ufin. now rewrite E.
  - intros i j Hi Hj Hne. destruct (look (nth i R []) j) as [x|] eqn:E; [|now apply Hpat in E].
    pose proof (ilu_eqs_table n m R0 R HE Hmn i j x Hi E) as T. rewrite (Hval i j ltac:(lia) Hj) in T.
    assert (Hx : rval (nth i R []) j = x) by (unfold rval; now rewrite E).
    assert (Hl : forall k, k < i -> lfin (fun _ _ => n0) R i k = rval (nth i R []) k).
    { intros k Hk. unfold lfin, rval. match goal with |- context [look ?r ?c] => destruct (look r c) end; auto. bcase; auto. }
    assert (Hu : forall k, k <= j -> ufin (fun _ _ => n0) R k j = rval (nth k R []) j).
    { intros k Hk. unfold ufin, rval. match goal with |- context [look ?r ?c] => destruct (look r c) end; auto. bcase; auto. }
    assert (Hu0 : forall k, j < k -> ufin (fun _ _ => n0) R k j = n0).
    { intros k Hk. unfold ufin. match goal with |- context [look ?r ?c] => destruct (look r c) end; auto. bcase; auto. }
    assert (Hl0 : forall k, i < k -> lfin (fun _ _ => n0) R i k = n0).
    { intros k Hk. unfold lfin. match goal with |- context [look ?r ?c] => destruct (look r c) end; auto. bcase; auto. }
    destruct (Nat.ltb_spec j i).
    + rewrite <- T. rewrite (bigsum_trunc HF n (S j)); [|lia|].
      * cbn [bigsum]. rewrite Hl, Hu, Hx by lia. f_equal. apply bigsum_ext. intros t Ht. rewrite Hl, Hu by lia. auto.
      * intros t Ht. rewrite (Hu0 t) by lia. ring.
    + rewrite <- T. rewrite (bigsum_trunc HF n (S i)); [|lia|].
      * cbn [bigsum]. assert (El : lfin (fun _ _ => n0) R i i = n1).
        { unfold lfin. destruct (look (nth i R []) i) eqn:E'; [bcase; auto|]. apply Hpat in E'; auto; [|lia]. apply Hdiag in E'; [contradiction|lia]. }
        rewrite El, Hu, Hx by lia. rewrite (bigsum_ext i _ (fun k => rval (nth i R []) k * rval (nth k R []) j)%num); [ring|].
        intros t Ht. rewrite Hl, Hu by lia. auto.
      * intros t Ht. rewrite (Hl0 t) by lia. ring.
Qed.

(** Singular is thrown only when the factorisation of the first m rows has a tiny pivot u(c,c) that row m has to be divided by. *)
Theorem ilu0_ok n a (A L U : smat N) : 0 < n -> @holds N (SparseI N) A n n a ->
  @holds N (SparseI N) L n n (fun _ _ => n0) -> @holds N (SparseI N) U n n (fun _ _ => n0) ->
  (forall i, i < n -> a i i <> n0) ->
  post (ilu0 A L U) (fun LU => exists l u,
    @holds N (SparseI N) (fst LU) n n l /\ @holds N (SparseI N) (snd LU) n n u /\ ilu_tables n n a l u)
    (fun e => e = Singular /\ exists m c l u, c < m /\ m < n /\ ilu_tables n m a l u /\ a m c <> n0 /\ tiny (u c c) = true).
Proof.
  intros Hn HA HL0 HU0 Hdiag. unfold ilu0.
  apply (proj1 (s_holds N A n n a)) in HA. destruct HA as [HbA (RA & CA & HatA)].
  destruct (built_inv (field_zero_laws N HF) A HbA) as (a' & R0 & EA & HR0 & HLen & _ & _ & Hlk).
  rewrite RA, CA in *. rewrite Nat.eqb_refl. cbn [negb].
  assert (Hval : forall i j, i < n -> j < n -> rval (nth i R0 []) j = a i j).
  { intros i j Hi Hj. assert (E := HatA i j Hi Hj). rewrite EA, at_crs in E by (auto; lia). congruence. }
  assert (Hst : forall i j, i < n -> j < n -> look (nth i R0 []) j = None <-> a i j = n0).
  { intros i j Hi Hj. rewrite <- Hval by auto. unfold rval. rewrite Hlk by auto. unfold nz. destruct (neqb (a' i j) n0) eqn:E.
    - tauto.
    - split; [discriminate|]. intros X. rewrite X, Hz in E. discriminate. }
  rewrite EA. apply post_bind. eapply post_mono; [apply (ilu_elim n R0); auto| |].
  - intros m (R & -> & HE). assert (HE' := HE). destruct HE as (HL1 & HR & HD).
    destruct (ilu_split_ok n R L U _ _ HL1 HR HL0 HU0) as ((L1, U1) & -> & HLL & HUU). cbn [post fst snd].
    exists (lfin (fun _ _ => n0) R), (ufin (fun _ _ => n0) R). split; auto. split; auto.
    apply (ilu_eqs_tables n n a R0 R); auto.
  - intros e (-> & m & R & c & Hm & Hc & HE & Hin & Ht). split; auto.
    exists m, c, (lfin (fun _ _ => n0) R), (ufin (fun _ _ => n0) R). split; auto. split; auto.
    split; [apply (ilu_eqs_tables n m a R0 R); auto; lia|]. split.
    + intros E. apply Hst in E; [|lia|lia]. assert (G : forall r : row, look r c = None -> ~ In c (map fst r)).
      { induction r as [|(c', v) r IH]; cbn; [tauto|]. destruct (Nat.eqb_spec c' c); [discriminate|]. intros E' [|]; [auto|now apply IH]. }
      now apply G in E.
    + replace (ufin (fun _ _ => n0) R c c) with (rval (nth c R []) c); auto. unfold ufin, rval.
      destruct (look (nth c R []) c); auto. bcase; auto.
Qed.
End ILU.
