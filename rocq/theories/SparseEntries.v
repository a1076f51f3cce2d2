(** The entries a matrix stores, as a sorted list; loops as folds over it. *)
From Coq Require Import List Arith Lia Bool Sorted.
From Verif Require Import Base BaseProofs Num VectorModel SparseModel SparseProofs SparseIter.
Import ListNotations.
Open Scope res_scope.

Section SparseEntries.
Context {N : Num}.
Hypothesis Hz : zero_refl N.
Notation row := (list (nat * N)).
Notation entry := (nat * nat * N)%type.
Implicit Types R : list row.
Implicit Types r ra rb : row.
Implicit Types m : smat N.
Implicit Types v w : N.

(** row-major order of positions *)
Definition lexlt (a b : entry) : Prop :=
  fst (fst a) < fst (fst b) \/ (fst (fst a) = fst (fst b) /\ snd (fst a) < snd (fst b)).

(** E lists the stored entries f of a d1 x d2 matrix, in row-major order. *)
Definition is_entries (d1 d2 : nat) (f : nat -> nat -> option N) (E : list entry) : Prop :=
  StronglySorted lexlt E /\
  forall i j v, In (i, j, v) E <-> i < d1 /\ j < d2 /\ f i j = Some v.

Fixpoint elook (E : list entry) (i j : nat) : option N :=
  match E with
  | [] => None
  | (a, b, v) :: E' => if (a =? i) && (b =? j) then Some v else elook E' i j
  end.

Lemma row_ents_in i r a j v : In (a, j, v) (row_ents i r) <-> a = i /\ In (j, v) r.
Proof.
  unfold row_ents. rewrite in_map_iff. split.
  - intros ((c, u) & He & Hi). simpl in He. injection He as <- <- <-. auto.
  - intros [-> Hi]. exists (j, v). auto.
Qed.

Lemma ents_in cn R : forall i0 i j v, rows_ok cn R ->
  (In (i, j, v) (ents i0 R) <-> i0 <= i /\ i < i0 + length R /\ look (nth (i - i0) R []) j = Some v).
Proof.
  induction R as [|r R IH]; intros i0 i j v HR; simpl.
  - split; [tauto|]. lia.
  - inversion HR as [|? ? Hr HR']; subst. rewrite in_app_iff, row_ents_in, (IH (S i0)) by auto.
    rewrite <- (look_in cn) by auto. split.
    + intros [[-> H]|(H1 & H2 & H3)].
      * rewrite Nat.sub_diag. repeat split; auto; lia.
      * replace (i - i0) with (S (i - S i0)) by lia. repeat split; auto; lia.
    + intros (H1 & H2 & H3). destruct (i - i0) as [|k] eqn:E.
      * left. split; [lia|auto].
      * right. replace (i - S i0) with k by lia. repeat split; auto; lia.
Qed.

Lemma SSorted_app {A} (P : A -> A -> Prop) l1 l2 :
  StronglySorted P l1 -> StronglySorted P l2 -> (forall x y, In x l1 -> In y l2 -> P x y) ->
  StronglySorted P (l1 ++ l2).
Proof.
  induction l1 as [|a l1 IH]; intros H1 H2 Hx; simpl; auto.
  inversion H1; subst. constructor.
  - apply IH; auto. intros; apply Hx; simpl; auto.
  - rewrite Forall_app. split; auto. apply Forall_forall. intros y Hy. apply Hx; simpl; auto.
Qed.

Lemma row_ents_sorted cn i r : row_ok cn r -> StronglySorted lexlt (row_ents i r).
Proof.
  intros [Hs _]. induction r as [|(c, v) r IH]; simpl; constructor.
  - apply IH. now inversion Hs.
  - simpl in Hs. inversion Hs as [|? ? _ Ha]; subst. apply Forall_forall. intros ((a, b), w) Hi.
    apply row_ents_in in Hi as [-> Hi]. right. simpl. split; auto.
    rewrite Forall_forall in Ha. apply Ha. apply (in_map fst _ _ Hi).
Qed.

Lemma ents_sorted cn R : forall i0, rows_ok cn R -> StronglySorted lexlt (ents i0 R).
Proof.
  induction R as [|r R IH]; intros i0 HR; simpl; [constructor|].
  inversion HR; subst. apply SSorted_app; auto.
  - eapply row_ents_sorted; eauto.
  - intros ((a, b), v) ((a', b'), v') H1' H2'.
    apply row_ents_in in H1' as [-> _]. apply (ents_in cn) in H2' as (H & _); auto.
    left. simpl. lia.
Qed.

Lemma ents_length R : forall i, length (ents i R) = length (concat R).
Proof. induction R as [|r R IH]; intros; simpl; auto. rewrite !app_length, IH. unfold row_ents. now rewrite map_length. Qed.
Lemma ents_vals R : forall i, map snd (ents i R) = map snd (concat R).
Proof.
  induction R as [|r R IH]; intros; simpl; auto. rewrite !map_app, IH. f_equal.
  unfold row_ents. rewrite map_map. reflexivity.
Qed.

(** Strictly sorted lists have one entry per position. *)
Lemma sorted_unique E : StronglySorted lexlt E -> forall i j v w,
  In (i, j, v) E -> In (i, j, w) E -> v = w.
Proof.
  induction E as [|e E IH]; intros Hs i j v w H1 H2; [destruct H1|].
  inversion Hs as [|? ? Hs' Ha]; subst. rewrite Forall_forall in Ha.
  destruct H1 as [->|H1], H2 as [H2|H2].
  - congruence.
  - specialize (Ha _ H2). unfold lexlt in Ha; simpl in Ha. lia.
  - subst e. specialize (Ha _ H1). unfold lexlt in Ha; simpl in Ha. lia.
  - eapply IH; eauto.
Qed.

Lemma elook_in E i j v : elook E i j = Some v -> In (i, j, v) E.
Proof.
  induction E as [|((a, b), w) E IH]; simpl; [discriminate|].
  destruct ((a =? i) && (b =? j)) eqn:Eq.
  - apply andb_true_iff in Eq as [H1 H2]. apply Nat.eqb_eq in H1, H2. intros [= ->]. left. congruence.
  - auto.
Qed.
Lemma elook_none E i j : elook E i j = None -> forall v, ~ In (i, j, v) E.
Proof.
  induction E as [|((a, b), w) E IH]; simpl; [tauto|].
  destruct ((a =? i) && (b =? j)) eqn:Eq; [discriminate|].
  intros H v [H1|H1].
  - injection H1 as -> -> ->. rewrite !Nat.eqb_refl in Eq. discriminate.
  - eapply IH; eauto.
Qed.
Lemma elook_some E i j v : StronglySorted lexlt E -> In (i, j, v) E -> elook E i j = Some v.
Proof.
  intros Hs Hi. destruct (elook E i j) eqn:El.
  - f_equal. eapply sorted_unique; eauto. now apply elook_in.
  - exfalso. eapply elook_none; eauto.
Qed.

Lemma is_entries_elook d1 d2 f E i j : is_entries d1 d2 f E -> i < d1 -> j < d2 -> elook E i j = f i j.
Proof.
  intros [Hs Hi] Hi1 Hj. destruct (f i j) eqn:Ef.
  - apply elook_some; auto. apply Hi. auto.
  - destruct (elook E i j) eqn:El; auto. apply elook_in in El. apply Hi in El as (_ & _ & H). congruence.
Qed.

Lemma elook_app E1 E2 i j : elook (E1 ++ E2) i j = match elook E1 i j with Some v => Some v | None => elook E2 i j end.
Proof.
  induction E1 as [|((a, b), w) E1 IH]; simpl; auto. destruct ((a =? i) && (b =? j)); auto.
Qed.

(** is_entries determines the list *)
Lemma is_entries_unique d1 d2 f : forall E1 E2, is_entries d1 d2 f E1 -> is_entries d1 d2 f E2 -> E1 = E2.
Proof.
  intros E1 E2 [S1 I1] [S2 I2].
  assert (Hiff : forall e, In e E1 <-> In e E2).
  { intros ((i, j), v). now rewrite I1, I2. }
  clear I1 I2. revert E2 S2 Hiff. induction E1 as [|e E1 IH]; intros [|e2 E2] S2 Hiff; auto.
  - exfalso. apply (Hiff e2). now left.
  - exfalso. apply (Hiff e). now left.
  - inversion S1 as [|? ? S1' A1]; subst. inversion S2 as [|? ? S2' A2]; subst.
    rewrite Forall_forall in A1, A2.
    assert (Hirr : forall x, ~ lexlt x x) by (unfold lexlt; intros; lia).
    assert (e = e2).
    { destruct (proj1 (Hiff e) (or_introl eq_refl)) as [H|H]; auto.
      destruct (proj2 (Hiff e2) (or_introl eq_refl)) as [H'|H']; auto.
      pose proof (A1 _ H'). pose proof (A2 _ H). unfold lexlt in *. lia. }
    subst e2. f_equal. apply IH; auto. intros x. split; intros Hx.
    + destruct (proj1 (Hiff x) (or_intror Hx)) as [->|H]; auto. exfalso. eapply Hirr, A1, Hx.
    + destruct (proj2 (Hiff x) (or_intror Hx)) as [->|H]; auto. exfalso. eapply Hirr, A2, Hx.
Qed.

(** ** From the representation to entries *)
Lemma srep_for m d1 d2 f : srep m d1 d2 f ->
  exists E, is_entries d1 d2 f E /\ length E = s_filled m /\ map snd E = sv m /\
  forall St (g : nat -> nat -> N -> St -> res St) s,
    s_for m (fun it s => let* v := it_get m it in g (it1 it) (it2 it) v s) s
    = foreach E (fun e s => g (fst (fst e)) (snd (fst e)) (snd e) s) s.
Proof.
  intros (R & -> & HR & Hl & H1 & H2 & Hf). exists (ents 0 R). split; [|split; [|split]].
  - split.
    + eapply ents_sorted; eauto.
    + intros i j v. rewrite (ents_in d2) by auto. rewrite Nat.sub_0_r. simpl. split.
      * intros (_ & Hi & Hk). assert (j < d2).
        { eapply row_ok_look; [|exact Hk]. eapply Forall_nth; eauto. }
        rewrite <- Hf by lia. repeat split; auto; lia.
      * intros (Hi & Hj & Hk). rewrite Hf by lia. repeat split; auto; lia.
  - rewrite ents_length, filled_crs. reflexivity.
  - rewrite ents_vals. reflexivity.
  - intros. now apply s_for_ents.
Qed.

(** Row i: the stored columns, ascending. *)
Definition is_row (d2 : nat) (fi : nat -> option N) (E : list (nat * N)) : Prop :=
  StronglySorted (fun a b => fst a < fst b) E /\
  forall j v, In (j, v) E <-> j < d2 /\ fi j = Some v.

Lemma row_sorted_pairs cn r : row_ok cn r -> StronglySorted (fun a b : nat * N => fst a < fst b) r.
Proof.
  intros [Hs _]. induction r as [|a r IH]; constructor; simpl in Hs; inversion Hs as [|? ? Hs' Ha]; subst; auto.
  apply Forall_forall. intros x Hx. rewrite Forall_forall in Ha. apply Ha. now apply in_map.
Qed.

Lemma foreach_map {A B St} (h : A -> B) (f : B -> St -> res St) l : forall s,
  foreach (map h l) f s = foreach l (fun x => f (h x)) s.
Proof.
  induction l as [|x l IH]; intros s; simpl; auto. destruct (f (h x) s); simpl; auto.
Qed.
Lemma foreach_ext {A St} (f g : A -> St -> res St) l : (forall x s, In x l -> f x s = g x s) ->
  forall s, foreach l f s = foreach l g s.
Proof.
  induction l as [|x l IH]; intros H s; simpl; auto. rewrite H by (now left).
  destruct (g x s); simpl; auto. apply IH. intros; apply H; now right.
Qed.

Lemma srep_for_row m d1 d2 f i : srep m d1 d2 f -> i < d1 ->
  exists E, is_row d2 (f i) E /\
  (forall St (g : nat -> nat -> N -> St -> res St) s,
    s_for_row m i (fun it s => let* v := it_get m it in g (it1 it) (it2 it) v s) s
    = foreach E (fun e s => g i (fst e) (snd e) s) s) /\
  s_row_filled m i = Ok (length E).
Proof.
  intros (R & -> & HR & Hl & H1 & H2 & Hf) Hi.
  destruct (split_nth R i) as (R1 & R2 & HRe & Hlen); [lia|].
  assert (Hr : row_ok d2 (nth i R [])).
  { eapply Forall_nth; eauto. lia. }
  exists (nth i R []). split; [split|split].
  - eapply row_sorted_pairs; eauto.
  - intros j v. rewrite <- (look_in d2) by auto. split.
    + intros Hk. assert (j < d2) by (eapply row_ok_look; eauto). rewrite <- Hf by auto. auto.
    + intros [Hj Hk]. rewrite Hf; auto.
  - intros St g s. set (r := nth i R []) in *. clearbody r. subst R i.
    rewrite s_for_row_ents by auto. unfold row_ents. rewrite foreach_map. reflexivity.
  - set (r := nth i R []) in *. clearbody r. subst R i. unfold s_row_filled.
    rewrite s_for_row_iters by auto.
    assert (H : forall l k, foreach l (fun (_ : sit) i => Ok (S i)) k = Ok (length l + k)).
    { induction l as [|x l IH]; intros k; simpl; auto. rewrite IH. f_equal. lia. }
    rewrite H, row_iters_length. f_equal. lia.
Qed.

Lemma s_row_out m d1 d2 f i : srep m d1 d2 f -> d1 <= i -> forall St (g : sit -> St -> res St) s,
  s_for_row m i g s = Ok s.
Proof.
  intros (R & -> & HR & Hl & H1 & H2 & Hf) Hi St g s. unfold s_for_row, s_row_begin.
  assert (He : (if s_empty (crs R d2) then s_end (crs R d2)
     else let* (c, p) := s_row_entry_count (crs R d2) i in
          if c =? 0 then s_end (crs R d2) else let* cc := vget (sc (crs R d2)) p in it_make (crs R d2) i cc)
     = Ok (mkI (length R) d2 0)).
  { destruct (s_empty (crs R d2)); [apply s_end_crs|]. rewrite rec_out by lia. cbn. apply s_end_crs. }
  rewrite He. cbn [bind it_loop]. rewrite s_end_crs. cbn [bind].
  rewrite it_eq_end by apply end_invalid. reflexivity.
Qed.

(** ** Column iteration *)
Fixpoint col_ents (i j : nat) R : list entry :=
  match R with
  | [] => []
  | r :: R' => match look r j with Some v => (i, j, v) :: col_ents (S i) j R' | None => col_ents (S i) j R' end
  end.

Lemma search_row cn R1 r R2 j : row_ok cn r ->
  exists idx, s_search (length r) (crs (R1 ++ r :: R2) cn) j (length (concat R1))
     = Ok (idx, match look r j with Some _ => true | None => false end) /\
     (forall v, look r j = Some v -> vget (sv (crs (R1 ++ r :: R2) cn)) idx = Ok v).
Proof.
  intros Hr. destruct (row_cases cn r j Hr) as [(ra & w & rb & -> & Ha & Hb) | (ra & rb & -> & Ha & Hb)].
  - rewrite look_found by auto. exists (length (concat R1) + length ra). split.
    + unfold crs. rewrite app_length. simpl length.
      rewrite <- (map_length fst ra), <- (map_length fst (concat R1)).
      apply (search_found _ _ _ _ _ _ (map fst ra) (map fst (concat R1))
             (map fst rb ++ map fst (concat R2)) (length rb)); auto.
      rewrite concat_mid, !map_app, <- app_assoc. reflexivity.
    + intros v [= <-]. simpl. rewrite concat_mid, <- app_assoc, app_assoc. simpl.
      erewrite vget_map_mid; [reflexivity|]. now rewrite app_length.
  - rewrite look_missing by auto. exists (length (concat R1) + length ra). split; [|discriminate].
    unfold crs. rewrite app_length.
    rewrite <- (map_length fst ra), <- (map_length fst rb), <- (map_length fst (concat R1)).
    apply search_missing with (Y := map fst (concat R2)); auto.
    rewrite concat_mid, !map_app, <- !app_assoc. reflexivity.
Qed.

Definition it_at R cn (it : sit) (e : entry) : Prop :=
  it1 it = fst (fst e) /\ it2 it = snd (fst e) /\ it1 it < length R /\ it2 it < cn /\
  vget (sv (crs R cn)) (itp it) = Ok (snd e).

(** iterator designating the head of l (or end) *)
Definition heads R cn (it : sit) (l : list entry) : Prop :=
  match l with [] => it_valid (crs R cn) it = false | e :: _ => it_at R cn it e end.

Lemma it_at_valid R cn it e : it_at R cn it e -> it_valid (crs R cn) it = true.
Proof.
  intros (_ & _ & H1 & H2 & _). unfold it_valid. rewrite rows_crs, cols_crs.
  apply andb_true_iff. split; now apply Nat.ltb_lt.
Qed.
Lemma it_at_get R cn it e : it_at R cn it e -> it_get (crs R cn) it = Ok (snd e).
Proof. intros H. unfold it_get. rewrite (it_at_valid _ _ _ _ H). apply H. Qed.

Lemma cit_loop_ok R cn j : rows_ok cn R -> j < cn -> forall R2 R1 n i p,
  R = R1 ++ R2 -> length R1 = i + 1 -> length R2 < n ->
  exists it, cit_inc_loop n (crs R cn) i j p = Ok it /\ heads R cn it (col_ents (i + 1) j R2).
Proof.
  intros HR Hj. induction R2 as [|r R2 IH]; intros R1 n i p HRe Hl Hn; (destruct n as [|n]; [simpl in Hn; lia|]);
    cbn [cit_inc_loop]; rewrite rows_crs.
  - rewrite HRe, app_nil_r. replace (length R1 <=? i + 1) with true by (symmetry; apply Nat.leb_le; lia).
    eexists. split; [reflexivity|]. simpl. rewrite ?cols_crs. apply end_invalid.
  - replace (length R <=? i + 1) with false
      by (symmetry; apply Nat.leb_gt; rewrite HRe, app_length; simpl; lia).
    rewrite <- Hl, HRe, rec_crs. cbn [bind].
    assert (Hr : row_ok cn r) by (apply (rows_ok_mid cn R1 r R2); now rewrite <- HRe).
    destruct (search_row cn R1 r R2 j Hr) as (idx & -> & Hv). cbn [bind].
    cbn [col_ents]. destruct (look r j) as [v|] eqn:El.
    + eexists. split; [reflexivity|]. repeat split; cbn [it1 it2 itp fst snd]; auto.
      rewrite app_length; simpl; lia.
    + rewrite <- HRe.
      destruct (IH (R1 ++ [r]) n (length R1) idx) as (it & H1 & H2).
      * rewrite HRe, <- app_assoc. reflexivity.
      * rewrite app_length; simpl; lia.
      * simpl in Hn; lia.
      * exists it. split; auto. now replace (S (length R1)) with (length R1 + 1) by lia.
Qed.

Lemma col_ents_in R j : forall i a b v,
  In (a, b, v) (col_ents i j R) <-> b = j /\ i <= a /\ a < i + length R /\ look (nth (a - i) R []) j = Some v.
Proof.
  induction R as [|r R IH]; intros i a b v; simpl; [split; [tauto|lia]|].
  assert (Hc : In (a, b, v) (col_ents (S i) j R) <->
               b = j /\ S i <= a /\ a < i + S (length R) /\ look (nth (a - i) (r :: R) []) j = Some v).
  { rewrite IH. split; intros (H1 & H2 & H3 & H4); repeat split; auto; try lia.
    - replace (a - i) with (S (a - S i)) by lia. exact H4.
    - replace (a - i) with (S (a - S i)) in H4 by lia. exact H4. }
  destruct (look r j) as [w|] eqn:El; simpl; rewrite Hc; split.
  - intros [H|(H1 & H2 & H3 & H4)]; [injection H as <- <- <-|]; auto.
    + rewrite Nat.sub_diag. repeat split; auto; lia.
    + repeat split; auto; lia.
  - intros (H1 & H2 & H3 & H4). destruct (Nat.eq_dec a i) as [->|Hne].
    + left. rewrite Nat.sub_diag in H4. simpl in H4. congruence.
    + right. repeat split; auto; lia.
  - intros (H1 & H2 & H3 & H4). repeat split; auto; lia.
  - intros (H1 & H2 & H3 & H4). destruct (Nat.eq_dec a i) as [->|Hne].
    + rewrite Nat.sub_diag in H4. simpl in H4. congruence.
    + repeat split; auto; lia.
Qed.

Lemma col_ents_sorted R j : forall i, StronglySorted lexlt (col_ents i j R).
Proof.
  induction R as [|r R IH]; intros i; simpl; [constructor|].
  destruct (look r j); auto. constructor; auto. apply Forall_forall. intros ((a, b), w) H.
  apply col_ents_in in H. left. simpl. lia.
Qed.

Lemma col_loop {St} R cn j (HR : rows_ok cn R) (Hj : j < cn) (g : nat -> nat -> N -> St -> res St) :
  forall l fuel it s R1 R2,
  R = R1 ++ R2 -> l = col_ents (length R1) j R2 ->
  heads R cn it l -> length l < fuel ->
  it_loop fuel (crs R cn) cit_inc it (fun it s => let* v := it_get (crs R cn) it in g (it1 it) (it2 it) v s) s
  = foreach l (fun e s => g (fst (fst e)) (snd (fst e)) (snd e) s) s.
Proof.
  induction l as [|e l IH]; intros fuel it s R1 R2 HRe Hl Hit Hf; (destruct fuel as [|fuel]; [simpl in Hf; lia|]);
    cbn [it_loop foreach]; rewrite s_end_crs; cbn [bind]; simpl in Hit.
  - rewrite it_eq_end by auto. reflexivity.
  - rewrite it_ne_end by (eapply it_at_valid; eauto). cbn [negb].
    rewrite (it_at_get _ _ _ _ Hit). cbn [bind].
    assert (HIn : In e (col_ents (length R1) j R2)) by (rewrite <- Hl; now left).
    pose proof Hit as (H1 & H2 & H3 & H4 & _). rewrite H1, H2.
    destruct (g _ _ _ s) as [s1| | | | |]; cbn [bind]; auto.
    unfold cit_inc. rewrite (it_at_valid _ _ _ _ Hit), rows_crs.
    (* split R2 at the row of e *)
    assert (Hsplit : exists Ra r Rb, R2 = Ra ++ r :: Rb /\ length R1 + length Ra = it1 it /\ it2 it = j /\
                     l = col_ents (it1 it + 1) j Rb).
    { clear - Hl H1 H2 HIn. assert (Hji : it2 it = j).
      { destruct e as ((a, b), v). apply col_ents_in in HIn. simpl in *. lia. }
      rewrite H1. clear H1 HIn. revert Hl. generalize (length R1). induction R2 as [|r R2 IH]; intros n Hl; simpl in Hl; [discriminate|].
      destruct (look r j).
      - injection Hl as -> ->. exists [], r, R2. simpl. repeat split; auto. now replace (n + 1) with (S n) by lia.
      - destruct (IH (S n) Hl) as (Ra & r' & Rb & -> & H & H' & H''). exists (r :: Ra), r', Rb.
        repeat split; auto. simpl; lia. }
    destruct Hsplit as (Ra & r & Rb & -> & Hla & Hji & Hlr). rewrite Hji.
    destruct (cit_loop_ok R cn j HR Hj Rb (R1 ++ Ra ++ [r]) (length R - it1 it) (it1 it) (itp it)) as (it' & Hi1 & Hi2).
    + rewrite HRe, <- !app_assoc. reflexivity.
    + rewrite !app_length. simpl. lia.
    + rewrite HRe, !app_length. simpl. lia.
    + rewrite Hi1. cbn [bind]. apply IH with (R1 := R1 ++ Ra ++ [r]) (R2 := Rb).
      * rewrite HRe, <- !app_assoc. reflexivity.
      * rewrite Hlr. f_equal. rewrite !app_length. simpl. lia.
      * rewrite Hlr. exact Hi2.
      * simpl in Hf; lia.
Qed.

(** column j, top to bottom *)
Definition is_col (d1 : nat) (fj : nat -> option N) (E : list (nat * N)) : Prop :=
  StronglySorted (fun a b => fst a < fst b) E /\
  forall i v, In (i, v) E <-> i < d1 /\ fj i = Some v.

Lemma col_ents_len R j : forall i, length (col_ents i j R) <= length R.
Proof. induction R as [|r R IH]; intros i; simpl; auto. specialize (IH (S i)). destruct (look r j); simpl; lia. Qed.

Lemma srep_crs R cn d1 : rows_ok cn R -> length R = d1 -> 0 < d1 -> 0 < cn ->
  srep (crs R cn) d1 cn (fun i j => look (nth i R []) j).
Proof. intros. exists R. repeat split; auto. Qed.

Lemma col_first_ok R cn j (HR : rows_ok cn R) (Hj : j < cn) : forall R2 R1 fuel,
  R = R1 ++ R2 -> length R2 < fuel ->
  s_col_first fuel (crs R cn) j (length R1)
  = match col_ents (length R1) j R2 with [] => Abort | (i, _, _) :: _ => Ok i end.
Proof.
  induction R2 as [|r R2 IH]; intros R1 fuel HRe Hf; (destruct fuel as [|fuel]; [simpl in Hf; lia|]); cbn [s_col_first].
  - simpl. unfold s_has. rewrite rows_crs, HRe, app_nil_r, Nat.ltb_irrefl. reflexivity.
  - assert (Hlen : length R1 < length R) by (rewrite HRe, app_length; simpl; lia).
    rewrite (srep_has Hz _ _ _ _ (length R1) j (srep_crs R cn (length R) HR eq_refl ltac:(lia) ltac:(lia)) Hlen Hj).
    cbn [bind]. replace (nth (length R1) R []) with r by (rewrite HRe; now rewrite nth_mid_eq). cbn [col_ents].
    rewrite rows_crs. destruct (look r j) as [v|]; cbn [negb andb]; auto.
    replace (length R1 =? length R) with false by (symmetry; apply Nat.eqb_neq; lia). cbn [negb].
    replace (length R1 + 1) with (length (R1 ++ [r])) by (rewrite app_length; simpl; lia).
    rewrite (IH (R1 ++ [r])).
    + rewrite app_length. simpl. now replace (length R1 + 1) with (S (length R1)) by lia.
    + rewrite HRe, <- app_assoc. reflexivity.
    + simpl in Hf; lia.
Qed.

Lemma make_look R cn i j v : rows_ok cn R -> i < length R -> j < cn -> look (nth i R []) j = Some v ->
  exists it, it_make (crs R cn) i j = Ok it /\ it_at R cn it (i, j, v).
Proof.
  intros HR Hi Hj Hk. destruct (split_nth R i Hi) as (R1 & R2 & HRe & Hlen).
  assert (Hr : row_ok cn (nth i R [])) by (eapply Forall_nth; eauto).
  destruct (row_cases cn _ j Hr) as [(ra & w & rb & Hr' & Ha & Hb) | (ra & rb & Hr' & Ha & Hb)].
  - rewrite Hr' in *. rewrite look_found in Hk by auto. injection Hk as ->.
    eexists. split.
    + rewrite <- Hlen. eapply make_pos; eauto.
    + subst i. repeat split; simpl; auto. rewrite HRe at 1. simpl.
      rewrite concat_mid, <- app_assoc, app_assoc. simpl. erewrite vget_map_mid; [reflexivity|]. now rewrite app_length.
  - rewrite Hr', look_missing in Hk by auto. discriminate.
Qed.

Lemma srep_for_col m d1 d2 f j : srep m d1 d2 f -> j < d2 ->
  exists E, is_col d1 (fun i => f i j) E /\
  forall St (g : nat -> nat -> N -> St -> res St) s,
    s_for_col m j (fun it s => let* v := it_get m it in g (it1 it) (it2 it) v s) s
    = match E with
      | [] => if s_empty m then Ok s else Abort
      | _ => foreach E (fun e s => g (fst e) j (snd e) s) s
      end.
Proof.
  intros (R & -> & HR & Hl & H1 & H2 & Hf) Hj.
  exists (map (fun e => (fst (fst e), snd e)) (col_ents 0 j R)). split; [split|].
  - pose proof (col_ents_sorted R j 0) as Hs.
    assert (Hall : forall a b v, In (a, b, v) (col_ents 0 j R) -> b = j) by (intros a b v Hi; apply col_ents_in in Hi; tauto).
    induction (col_ents 0 j R) as [|e l IH]; simpl; constructor.
    + apply IH. { now inversion Hs. } intros; eapply Hall; right; eauto.
    + inversion Hs as [|? ? _ Ha]; subst. rewrite Forall_forall in *. intros x Hx.
      apply in_map_iff in Hx as (((a, b), v) & <- & Hx). pose proof (Ha _ Hx) as Hlt.
      destruct e as ((a', b'), v'). pose proof (Hall _ _ _ (or_introl eq_refl)). pose proof (Hall _ _ _ (or_intror Hx)).
      unfold lexlt in Hlt; simpl in *. lia.
  - intros i v. rewrite in_map_iff. split.
    + intros (((a, b), w) & [= <- <-] & Hx). apply col_ents_in in Hx as (-> & _ & Ha & Hk).
      rewrite Nat.sub_0_r in Hk. simpl in Ha. rewrite Hf in Hk by lia. split; [simpl; lia|]. exact Hk.
    + intros [Hi Hk]. exists (i, j, v). split; auto. apply col_ents_in. rewrite Nat.sub_0_r, Hf by lia.
      repeat split; auto; lia.
  - intros St g s. unfold s_for_col, s_col_begin.
    destruct (s_empty (crs R d2)) eqn:He.
    + rewrite s_end_crs. cbn [bind it_loop]. rewrite s_end_crs. cbn [bind].
      rewrite it_eq_end by apply end_invalid. cbn [negb].
      apply empty_crs in He.
      assert (Hnil : col_ents 0 j R = []).
      { clear - He. generalize 0. induction R as [|r R IH]; intros n; simpl; auto. simpl in He.
        apply app_eq_nil in He as [-> He]. simpl. auto. }
      rewrite Hnil. reflexivity.
    + rewrite rows_crs. pose proof (col_first_ok R d2 j HR Hj R [] (length R + 1) eq_refl ltac:(lia)) as Hcf.
      cbn [length] in Hcf. rewrite Hcf.
      destruct (col_ents 0 j R) as [|((i, b), v) l] eqn:Ec; [reflexivity|].
      cbn [bind].
      assert (HIn : In (i, b, v) (col_ents 0 j R)) by (rewrite Ec; now left).
      apply col_ents_in in HIn as (-> & _ & Hi & Hk). rewrite Nat.sub_0_r in Hk.
      replace (i =? length R) with false by (symmetry; apply Nat.eqb_neq; lia).
      destruct (make_look R d2 i j v HR Hi Hj Hk) as (it & -> & Hat). cbn [bind].
      rewrite (col_loop R d2 j HR Hj g ((i, j, v) :: l) _ it s [] R eq_refl).
      * transitivity (foreach (map (fun e : nat * nat * N => (fst (fst e), snd e)) ((i, j, v) :: l))
           (fun (e : nat * N) s => g (fst e) j (snd e) s) s); [|reflexivity].
        rewrite foreach_map, <- Ec. apply foreach_ext. intros ((a, b'), w) s' Hx.
        apply col_ents_in in Hx as (-> & _). reflexivity.
      * now symmetry.
      * exact Hat.
      * rewrite <- Ec. pose proof (col_ents_len R j 0). lia.
Qed.

End SparseEntries.
