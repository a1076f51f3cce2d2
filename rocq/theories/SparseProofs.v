(** Representation of the CRS storage as a list of sorted rows, and the effect of every storage
    primitive of SparseModel.v on it. *)
From Coq Require Import List Arith Lia Bool Sorted.
From Verif Require Import Base BaseProofs Num VectorModel SparseModel.
Import ListNotations.
Open Scope res_scope.

Section SparseProofs.
Context {N : Num}.
Hypothesis Hz : zero_refl N.

Notation row := (list (nat * N)).

(** ** Rows *)
Fixpoint offsets (a : nat) (R : list row) : list nat :=
  match R with [] => [] | r :: R' => a :: offsets (a + length r) R' end.

Definition crs (R : list row) (cn : nat) : smat N :=
  mkS (map snd (concat R)) (map fst (concat R)) (offsets 0 R) cn n0.

Definition row_ok (cn : nat) (r : row) : Prop :=
  StronglySorted lt (map fst r) /\ Forall (fun c => c < cn) (map fst r).

Fixpoint look (r : row) (j : nat) : option N :=
  match r with [] => None | (c, v) :: r' => if c =? j then Some v else look r' j end.

Lemma offsets_length a R : length (offsets a R) = length R.
Proof. revert a; induction R; simpl; auto. Qed.

Lemma offsets_app R1 : forall a R2,
  offsets a (R1 ++ R2) = offsets a R1 ++ offsets (a + length (concat R1)) R2.
Proof.
  induction R1 as [|r R1 IH]; intros a R2; simpl.
  - now rewrite Nat.add_0_r.
  - rewrite IH, app_length. do 3 f_equal. lia.
Qed.

Lemma nth_error_app_here {A} (l1 l2 : list A) x : nth_error (l1 ++ x :: l2) (length l1) = Some x.
Proof. rewrite nth_error_app2 by lia. now rewrite Nat.sub_diag. Qed.

Lemma rows_crs R cn : s_rows (crs R cn) = length R.
Proof. unfold s_rows; simpl. apply offsets_length. Qed.
Lemma cols_crs R cn : s_cols (crs R cn) = cn.
Proof. reflexivity. Qed.
Lemma filled_crs R cn : s_filled (crs R cn) = length (concat R).
Proof. unfold s_filled; simpl. apply map_length. Qed.

Lemma split_nth (R : list row) i : i < length R ->
  exists R1 R2, R = R1 ++ nth i R [] :: R2 /\ length R1 = i.
Proof.
  intros H. destruct (nth_split R [] H) as (R1 & R2 & H1 & H2).
  exists R1, R2. split; auto.
Qed.

Lemma concat_mid {A} (R1 : list (list A)) r R2 : concat (R1 ++ r :: R2) = concat R1 ++ r ++ concat R2.
Proof. now rewrite concat_app. Qed.

Lemma srp_at R1 r R2 cn :
  vget (srp (crs (R1 ++ r :: R2) cn)) (length R1) = Ok (length (concat R1)).
Proof.
  unfold vget; simpl. rewrite offsets_app. simpl.
  rewrite <- (offsets_length 0 R1). now rewrite nth_error_app_here.
Qed.

(** row_entry_count *)
Lemma rec_crs R1 r R2 cn :
  s_row_entry_count (crs (R1 ++ r :: R2) cn) (length R1) = Ok (length r, length (concat R1)).
Proof.
  unfold s_row_entry_count. rewrite rows_crs, app_length.
  replace (length R1 <? length R1 + length (r :: R2)) with true
    by (symmetry; apply Nat.ltb_lt; simpl; lia).
  rewrite srp_at. cbn [bind].
  destruct R2 as [|r2 R2].
  - bdec. unfold usub, crs; cbn [sc].
    rewrite map_length, concat_mid, !app_length. simpl concat. bdec.
    do 2 f_equal. simpl; lia.
  - replace (length R1 =? length R1 + length (r :: r2 :: R2) - 1) with false
      by (symmetry; apply Nat.eqb_neq; simpl; lia).
    cbn [negb].
    replace (R1 ++ r :: r2 :: R2) with ((R1 ++ [r]) ++ r2 :: R2) by now rewrite <- app_assoc.
    replace (length R1 + 1) with (length (R1 ++ [r])) by (rewrite app_length; simpl; lia).
    rewrite srp_at. cbn [bind]. rewrite concat_app, app_length. simpl. rewrite app_nil_r.
    unfold usub. bdec. do 2 f_equal. lia.
Qed.

Lemma rec_out R cn i : length R <= i -> s_row_entry_count (crs R cn) i = Ok (0, 0).
Proof.
  intros H. unfold s_row_entry_count. rewrite rows_crs.
  now replace (i <? length R) with false by (symmetry; apply Nat.ltb_ge; lia).
Qed.

(** search loop *)
Lemma search_found cols vals rp cn e j : forall (ra : list nat) X Y k,
  cols = X ++ ra ++ j :: Y -> Forall (fun c => c < j) ra ->
  s_search (length ra + S k) (@mkS N vals cols rp cn e) j (length X) = Ok (length X + length ra, true).
Proof.
  induction ra as [|c ra IH]; intros X Y k HC Hlt; simpl.
  - unfold vget; cbn [sc]. replace (nth_error cols (length X)) with (Some j) by (rewrite HC; simpl; now rewrite nth_error_app_here). cbn [bind].
    rewrite Nat.eqb_refl. now rewrite Nat.add_0_r.
  - unfold vget; cbn [sc]. replace (nth_error cols (length X)) with (Some c) by (rewrite HC; simpl; now rewrite nth_error_app_here). cbn [bind].
    pose proof (Forall_inv Hlt) as Hc; pose proof (Forall_inv_tail Hlt) as Ht; simpl in Hc.
    replace (c =? j) with false by (symmetry; apply Nat.eqb_neq; lia).
    replace (j <? c) with false by (symmetry; apply Nat.ltb_ge; lia).
    replace (length X + 1) with (length (X ++ [c])) by (rewrite app_length; simpl; lia).
    rewrite (IH (X ++ [c]) Y k); auto.
    + rewrite app_length; simpl. do 2 f_equal. lia.
    + rewrite HC, <- app_assoc. reflexivity.
Qed.

Lemma search_missing cols vals rp cn e j : forall (ra rb : list nat) X Y,
  cols = X ++ ra ++ rb ++ Y -> Forall (fun c => c < j) ra -> Forall (fun c => j < c) rb ->
  s_search (length ra + length rb) (@mkS N vals cols rp cn e) j (length X)
  = Ok (length X + length ra, false).
Proof.
  induction ra as [|c ra IH]; intros rb X Y HC Ha Hb; simpl.
  - destruct rb as [|b rb]; simpl.
    + now rewrite Nat.add_0_r.
    + unfold vget; cbn [sc]. replace (nth_error cols (length X)) with (Some b) by (rewrite HC; simpl; now rewrite nth_error_app_here). cbn [bind].
      pose proof (Forall_inv Hb) as Hc; pose proof (Forall_inv_tail Hb) as Ht; simpl in Hc.
      replace (b =? j) with false by (symmetry; apply Nat.eqb_neq; lia).
      replace (j <? b) with true by (symmetry; apply Nat.ltb_lt; lia).
      now rewrite Nat.add_0_r.
  - unfold vget; cbn [sc]. replace (nth_error cols (length X)) with (Some c) by (rewrite HC; simpl; now rewrite nth_error_app_here). cbn [bind].
    pose proof (Forall_inv Ha) as Hc; pose proof (Forall_inv_tail Ha) as Ht; simpl in Hc.
    replace (c =? j) with false by (symmetry; apply Nat.eqb_neq; lia).
    replace (j <? c) with false by (symmetry; apply Nat.ltb_ge; lia).
    replace (length X + 1) with (length (X ++ [c])) by (rewrite app_length; simpl; lia).
    rewrite (IH rb (X ++ [c]) Y); auto.
    + rewrite app_length; simpl. do 2 f_equal. lia.
    + rewrite HC, <- app_assoc. reflexivity.
Qed.

(** Position of a column in a sorted row. *)
Lemma row_cases cn r j : row_ok cn r ->
  (exists ra v rb, r = ra ++ (j, v) :: rb /\
     Forall (fun c => c < j) (map fst ra) /\ Forall (fun c => j < c) (map fst rb)) \/
  (exists ra rb, r = ra ++ rb /\
     Forall (fun c => c < j) (map fst ra) /\ Forall (fun c => j < c) (map fst rb)).
Proof.
  intros [Hs _]. induction r as [|(c, v) r IH].
  - right. exists [], []. repeat split; constructor.
  - simpl in Hs. inversion Hs as [|? ? Hs' Hall]; subst.
    destruct (lt_eq_lt_dec c j) as [[Hlt|Heq]|Hgt].
    + destruct (IH Hs') as [(ra & w & rb & -> & Ha & Hb) | (ra & rb & -> & Ha & Hb)].
      * left. exists ((c, v) :: ra), w, rb. simpl. auto.
      * right. exists ((c, v) :: ra), rb. simpl. auto.
    + subst. left. exists [], v, r. simpl. repeat split; auto.
    + right. exists [], ((c, v) :: r). simpl. repeat split; auto.
      constructor; auto. eapply Forall_impl; [|exact Hall]. simpl; intros; lia.
Qed.

Lemma look_app ra rb j : Forall (fun c => c <> j) (map fst ra) -> look (ra ++ rb) j = look rb j.
Proof.
  induction ra as [|(c, v) ra IH]; simpl; intros H; auto.
  inversion H; subst. replace (c =? j) with false by (symmetry; apply Nat.eqb_neq; lia). auto.
Qed.

Lemma look_none r j : Forall (fun c => c <> j) (map fst r) -> look r j = None.
Proof. intros H. rewrite <- (app_nil_r r). now rewrite look_app. Qed.

Lemma Forall_lt_ne j l : Forall (fun c => c < j) l -> Forall (fun c => c <> j) l.
Proof. intros H. eapply Forall_impl; [|exact H]. simpl; intros; lia. Qed.
Lemma Forall_gt_ne j l : Forall (fun c => j < c) l -> Forall (fun c => c <> j) l.
Proof. intros H. eapply Forall_impl; [|exact H]. simpl; intros; lia. Qed.

Lemma look_found ra v rb j : Forall (fun c => c < j) (map fst ra) ->
  look (ra ++ (j, v) :: rb) j = Some v.
Proof. intros H. rewrite look_app by now apply Forall_lt_ne. simpl. now rewrite Nat.eqb_refl. Qed.

Lemma look_missing ra rb j :
  Forall (fun c => c < j) (map fst ra) -> Forall (fun c => j < c) (map fst rb) ->
  look (ra ++ rb) j = None.
Proof.
  intros Ha Hb. rewrite look_app by now apply Forall_lt_ne. apply look_none. now apply Forall_gt_ne.
Qed.

Lemma look_in cn r j v : row_ok cn r -> (look r j = Some v <-> In (j, v) r).
Proof.
  intros Hr. destruct (row_cases cn r j Hr) as [(ra & w & rb & -> & Ha & Hb) | (ra & rb & -> & Ha & Hb)].
  - rewrite look_found by auto. rewrite in_app_iff; simpl. split.
    + intros [= ->]. auto.
    + intros [H|[[= ->]|H]]; auto.
      * rewrite Forall_forall in Ha. specialize (Ha j (in_map fst _ _ H)). simpl in Ha; lia.
      * rewrite Forall_forall in Hb. specialize (Hb j (in_map fst _ _ H)). simpl in Hb; lia.
  - rewrite look_missing by auto. split; [discriminate|]. rewrite in_app_iff.
    rewrite Forall_forall in Ha, Hb. intros [H|H].
    + specialize (Ha j (in_map fst _ _ H)). simpl in Ha; lia.
    + specialize (Hb j (in_map fst _ _ H)). simpl in Hb; lia.
Qed.

Lemma row_ok_look cn r j v : row_ok cn r -> look r j = Some v -> j < cn.
Proof.
  intros Hr H. apply (look_in cn) in H; auto. destruct Hr as [_ Hf].
  rewrite Forall_forall in Hf. apply Hf. apply (in_map fst _ _ H).
Qed.

(** needNear loop *)
Lemma near_crs cn : forall R2 R1 fuel,
  length R2 < fuel ->
  exists t s, s_near fuel (crs (R1 ++ [] :: R2) cn) (length R1) 0 (length (concat R1))
              = Ok (t, s, length (concat R1)) /\
              length R1 <= t /\ (t = length R1 -> s = 0).
Proof.
  induction R2 as [|r R2 IH]; intros R1 fuel Hf; (destruct fuel as [|fuel]; [simpl in Hf; lia|]).
  - exists (length R1), 0. split; [|split; auto].
    cbn [s_near]. rewrite rows_crs, app_length. simpl length.
    replace (length R1 <? length R1 + 1 - 1) with false by (symmetry; apply Nat.ltb_ge; lia).
    reflexivity.
  - cbn [s_near]. rewrite rows_crs, app_length. simpl length.
    replace (length R1 <? length R1 + S (S (length R2)) - 1) with true
      by (symmetry; apply Nat.ltb_lt; lia).
    cbn [Nat.eqb andb].
    replace (R1 ++ [] :: r :: R2) with ((R1 ++ [[]]) ++ r :: R2) by now rewrite <- app_assoc.
    replace (length R1 + 1) with (length (R1 ++ [@nil (nat * N)])) by (rewrite app_length; simpl; lia).
    rewrite rec_crs. cbn [bind].
    replace (length (concat R1)) with (length (concat (R1 ++ [[]])))
      by (rewrite concat_app; simpl; now rewrite app_nil_r).
    destruct r as [|x r].
    + simpl length at 2. destruct (IH (R1 ++ [[]]) fuel) as (t & s & H & Hle & Hs).
      { simpl in Hf; lia. }
      exists t, s. rewrite H. split; [reflexivity|]. rewrite app_length in Hle; simpl in Hle. split; lia.
    + destruct fuel as [|fuel]; [simpl in Hf; lia|].
      exists (length (R1 ++ [@nil (nat * N)])), (length (x :: r)). split; [|split].
      * cbn [s_near]. reflexivity.
      * rewrite app_length; simpl; lia.
      * rewrite app_length; simpl; lia.
Qed.

(** internal_at *)
Lemma empty_crs R cn : s_empty (crs R cn) = true -> concat R = [].
Proof.
  unfold s_empty. rewrite filled_crs. intros H. apply Nat.eqb_eq in H. now apply length_zero_iff_nil.
Qed.

Lemma vget_map_mid {A B} (g : A -> B) X x Y n :
  n = length X -> vget (map g (X ++ x :: Y)) n = Ok (g x).
Proof.
  intros ->. unfold vget. rewrite map_app. simpl.
  rewrite <- (map_length g X). now rewrite nth_error_app_here.
Qed.

Lemma nonempty_mid R1 ra x rb R2 cn : s_empty (crs (R1 ++ (ra ++ x :: rb) :: R2) cn) = false.
Proof.
  unfold s_empty. rewrite filled_crs, concat_mid, !app_length. simpl.
  apply Nat.eqb_neq. lia.
Qed.

Lemma near_nonempty fuel m t s p : fuel <> 0 -> s <> 0 -> @s_near N fuel m t s p = Ok (t, s, p).
Proof.
  intros Hf Hs. destruct fuel; [lia|]. simpl.
  replace (s =? 0) with false by (symmetry; apply Nat.eqb_neq; lia). reflexivity.
Qed.

Lemma internal_at_found R1 ra j v rb R2 cn nn :
  Forall (fun c => c < j) (map fst ra) ->
  s_internal_at (crs (R1 ++ (ra ++ (j, v) :: rb) :: R2) cn) (length R1) j nn
  = Ok (v, length (concat R1) + length ra, true).
Proof.
  intros Ha. unfold s_internal_at. rewrite nonempty_mid. cbn [negb].
  rewrite rec_crs. cbn [bind].
  assert (Hn : (if nn then s_near (s_rows (crs (R1 ++ (ra ++ (j, v) :: rb) :: R2) cn))
                    (crs (R1 ++ (ra ++ (j, v) :: rb) :: R2) cn) (length R1)
                    (length (ra ++ (j, v) :: rb)) (length (concat R1))
                else Ok (length R1, length (ra ++ (j, v) :: rb), length (concat R1)))
               = Ok (length R1, length (ra ++ (j, v) :: rb), length (concat R1))).
  { destruct nn; auto. apply near_nonempty.
    - rewrite rows_crs, app_length; simpl; lia.
    - rewrite app_length; simpl; lia. }
  rewrite Hn. cbn [bind]. rewrite Nat.eqb_refl.
  unfold crs at 1. rewrite app_length. simpl length.
  rewrite <- (map_length fst ra), <- (map_length fst (concat R1)).
  rewrite (search_found _ _ _ _ _ _ (map fst ra) (map fst (concat R1))
             (map fst rb ++ map fst (concat R2)) (length rb)).
  - cbn [bind]. unfold crs; cbn [sv].
    rewrite concat_mid, <- app_assoc, app_assoc. simpl.
    erewrite vget_map_mid.
    + reflexivity.
    + rewrite app_length, !map_length. reflexivity.
  - rewrite concat_mid, !map_app, <- app_assoc. reflexivity.
  - exact Ha.
Qed.

Lemma internal_at_missing R1 ra rb j R2 cn nn :
  Forall (fun c => c < j) (map fst ra) -> Forall (fun c => j < c) (map fst rb) ->
  exists idx,
  s_internal_at (crs (R1 ++ (ra ++ rb) :: R2) cn) (length R1) j nn = Ok (n0, idx, false) /\
  (nn = true -> idx = length (concat R1) + length ra).
Proof.
  intros Ha Hb. unfold s_internal_at.
  change (semp (crs (R1 ++ (ra ++ rb) :: R2) cn)) with (@n0 N). rewrite Hz.
  destruct (s_empty (crs (R1 ++ (ra ++ rb) :: R2) cn)) eqn:He; cbn [negb].
  - exists 0. split; [reflexivity|]. intros _.
    apply empty_crs in He. rewrite concat_mid in He.
    apply app_eq_nil in He as [-> He]. apply app_eq_nil in He as [He _].
    apply app_eq_nil in He as [-> _]. reflexivity.
  - rewrite rec_crs. cbn [bind].
    assert (Hsearch : s_search (length (ra ++ rb)) (crs (R1 ++ (ra ++ rb) :: R2) cn) j (length (concat R1))
                      = Ok (length (concat R1) + length ra, false)).
    { unfold crs. rewrite app_length.
      rewrite <- (map_length fst ra), <- (map_length fst rb), <- (map_length fst (concat R1)).
      apply search_missing with (Y := map fst (concat R2)); auto.
      rewrite concat_mid, !map_app, <- !app_assoc. reflexivity. }
    destruct nn.
    + destruct (ra ++ rb) as [|x r] eqn:Er.
      * change (length (@nil (nat * N))) with 0.
        destruct (near_crs cn R2 R1 (s_rows (crs (R1 ++ [] :: R2) cn))) as (t & s & H & Hle & Hs).
        { rewrite rows_crs, app_length; simpl; lia. }
        rewrite H. cbn [bind].
        apply app_eq_nil in Er as [-> ->]. simpl in *.
        destruct (t =? length R1) eqn:Et.
        -- apply Nat.eqb_eq in Et. rewrite (Hs Et). cbn. eexists. split; [reflexivity|]. lia.
        -- cbn. eexists. split; [reflexivity|]. lia.
      * rewrite near_nonempty.
        -- cbn [bind]. rewrite Nat.eqb_refl, Hsearch. cbn. eexists. split; [reflexivity|]. auto.
        -- rewrite rows_crs, app_length; simpl; lia.
        -- simpl; lia.
    + cbn [bind]. rewrite Nat.eqb_refl, Hsearch. cbn. eexists. split; [reflexivity|]. discriminate.
Qed.

(** row pointer shifts *)
Lemma upd_mid {A} (P : list A) x Q v : upd (P ++ x :: Q) (length P) v = P ++ v :: Q.
Proof. induction P; simpl; f_equal; auto. Qed.

Lemma vset_mid {A} (P : list A) x Q v n : n = length P -> vset (P ++ x :: Q) n v = Ok (P ++ v :: Q).
Proof.
  intros ->. unfold vset. rewrite app_length; simpl.
  replace (length P <? length P + S (length Q)) with true by (symmetry; apply Nat.ltb_lt; lia).
  now rewrite upd_mid.
Qed.

Lemma vget_mid {A} (P : list A) x Q n : n = length P -> vget (P ++ x :: Q) n = Ok x.
Proof. intros ->. unfold vget. now rewrite nth_error_app_here. Qed.

Lemma for_map_tail {A} (f : nat -> list A -> res (list A)) (g : A -> A) (ok : A -> Prop) :
  (forall P x Q, ok x -> f (length P) (P ++ x :: Q) = Ok (P ++ g x :: Q)) ->
  forall Q P n, Forall ok Q -> n = length P ->
  for_n (length Q) n f (P ++ Q) = Ok (P ++ map g Q).
Proof.
  intros Hf. induction Q as [|x Q IH]; intros P n HQ ->; simpl.
  - reflexivity.
  - inversion HQ; subst. rewrite Hf by auto. cbn [bind].
    replace (P ++ g x :: Q) with ((P ++ [g x]) ++ Q) by now rewrite <- app_assoc.
    rewrite (IH (P ++ [g x])); auto.
    + now rewrite <- app_assoc.
    + rewrite app_length; simpl; lia.
Qed.

Lemma dec_rows P Q n : Forall (fun x => 0 < x) Q -> n = length P ->
  s_dec_rows (P ++ Q) n = Ok (P ++ map pred Q).
Proof.
  intros HQ ->. unfold s_dec_rows, for_. rewrite app_length.
  replace (length P + length Q - length P) with (length Q) by lia.
  apply (for_map_tail _ pred (fun x => 0 < x)); auto.
  intros P' x Q' Hx. rewrite vget_mid by auto. cbn [bind]. unfold usub.
  replace (1 <=? x) with true by (symmetry; apply Nat.leb_le; lia). cbn [bind].
  rewrite vset_mid by auto. now rewrite Nat.sub_1_r.
Qed.

Lemma inc_rows P Q n : n = length P -> s_inc_rows (P ++ Q) n = Ok (P ++ map S Q).
Proof.
  intros ->. unfold s_inc_rows, for_. rewrite app_length.
  replace (length P + length Q - length P) with (length Q) by lia.
  apply (for_map_tail _ S (fun x => True)); auto.
  - intros P' x Q' _. rewrite vget_mid by auto. cbn [bind].
    rewrite vset_mid by auto. now rewrite Nat.add_1_r.
  - apply Forall_forall; auto.
Qed.

Lemma offsets_S R : forall a, map S (offsets a R) = offsets (S a) R.
Proof. induction R; intros; simpl; f_equal; auto. Qed.

Lemma offsets_pred R a : map pred (offsets (S a) R) = offsets a R.
Proof. rewrite <- offsets_S, map_map. simpl. now rewrite map_id. Qed.

Lemma offsets_pos R : forall a, 0 < a -> Forall (fun x => 0 < x) (offsets a R).
Proof. induction R; intros; simpl; constructor; auto. apply IHR. lia. Qed.

Lemma offsets_split R1 r R2 :
  offsets 0 (R1 ++ r :: R2)
  = (offsets 0 R1 ++ [length (concat R1)]) ++ offsets (length (concat R1) + length r) R2.
Proof. rewrite offsets_app. simpl. now rewrite <- app_assoc. Qed.

Lemma firstn_len {A} (P Q : list A) : firstn (length P) (P ++ Q) = P.
Proof. induction P; simpl; f_equal; auto. Qed.
Lemma skipn_len {A} (P Q : list A) : skipn (length P) (P ++ Q) = Q.
Proof. induction P; simpl; auto. Qed.
Lemma skipn_len1 {A} (P : list A) x Q : skipn (S (length P)) (P ++ x :: Q) = Q.
Proof. induction P; simpl; auto. Qed.

Lemma verase_mid {A} (P : list A) x Q n : n = length P -> verase (P ++ x :: Q) n = Ok (P ++ Q).
Proof.
  intros ->. unfold verase. rewrite app_length.
  replace (length P <? length P + length (x :: Q)) with true by (symmetry; apply Nat.ltb_lt; simpl; lia).
  now rewrite firstn_len, skipn_len1.
Qed.

Lemma vinsert_mid {A} (P Q : list A) v n : n = length P -> vinsert (P ++ Q) n v = Ok (P ++ v :: Q).
Proof.
  intros ->. unfold vinsert. rewrite app_length.
  replace (length P <=? length P + length Q) with true by (symmetry; apply Nat.leb_le; lia).
  now rewrite firstn_len, skipn_len.
Qed.

(** Removing the entry at a known place. *)
Lemma erase_parts R1 ra x rb R2 cn n :
  n = length (concat R1) + length ra ->
  let m := crs (R1 ++ (ra ++ x :: rb) :: R2) cn in
  let m' := crs (R1 ++ (ra ++ rb) :: R2) cn in
  verase (sv m) n = Ok (sv m') /\ verase (sc m) n = Ok (sc m') /\
  s_dec_rows (srp m) (length R1 + 1) = Ok (srp m').
Proof.
  intros -> m m'. unfold m, m'; clear m m'. unfold crs; cbn [sv sc srp].
  rewrite !concat_mid, <- !app_assoc. simpl.
  repeat split.
  - rewrite !map_app. simpl. rewrite !map_app. simpl. rewrite ?map_app. simpl.
    rewrite (app_assoc (map snd (concat R1))).
    rewrite verase_mid by (rewrite app_length, !map_length; reflexivity).
    now rewrite ?map_app, <- ?app_assoc.
  - rewrite !map_app. simpl. rewrite ?map_app. simpl.
    rewrite (app_assoc (map fst (concat R1))).
    rewrite verase_mid by (rewrite app_length, !map_length; reflexivity).
    now rewrite ?map_app, <- ?app_assoc.
  - rewrite !offsets_split. rewrite dec_rows.
    + do 2 f_equal. rewrite !app_length. simpl.
      replace (length (concat R1) + (length ra + S (length rb)))
        with (S (length (concat R1) + (length ra + length rb))) by lia.
      apply offsets_pred.
    + apply offsets_pos. rewrite app_length; simpl; lia.
    + rewrite app_length, offsets_length. simpl; lia.
Qed.

Lemma insert_parts R1 ra x rb R2 cn n :
  n = length (concat R1) + length ra ->
  let m := crs (R1 ++ (ra ++ rb) :: R2) cn in
  let m' := crs (R1 ++ (ra ++ x :: rb) :: R2) cn in
  vinsert (sv m) n (snd x) = Ok (sv m') /\ vinsert (sc m) n (fst x) = Ok (sc m') /\
  s_inc_rows (srp m) (length R1 + 1) = Ok (srp m').
Proof.
  intros -> m m'. unfold m, m'; clear m m'. unfold crs; cbn [sv sc srp].
  rewrite !concat_mid, <- !app_assoc. simpl.
  repeat split.
  - rewrite !map_app. simpl. rewrite ?map_app. simpl.
    rewrite (app_assoc (map snd (concat R1))).
    rewrite vinsert_mid by (rewrite app_length, !map_length; reflexivity).
    now rewrite ?map_app, <- ?app_assoc.
  - rewrite !map_app. simpl. rewrite ?map_app. simpl.
    rewrite (app_assoc (map fst (concat R1))).
    rewrite vinsert_mid by (rewrite app_length, !map_length; reflexivity).
    now rewrite ?map_app, <- ?app_assoc.
  - rewrite !offsets_split. rewrite inc_rows.
    + do 2 f_equal. rewrite offsets_S, !app_length. simpl. f_equal. lia.
    + rewrite app_length, offsets_length. simpl; lia.
Qed.

Lemma replace_parts R1 ra j w v rb R2 cn n :
  n = length (concat R1) + length ra ->
  let m := crs (R1 ++ (ra ++ (j, w) :: rb) :: R2) cn in
  let m' := crs (R1 ++ (ra ++ (j, v) :: rb) :: R2) cn in
  vset (sv m) n v = Ok (sv m') /\ sc m = sc m' /\ srp m = srp m'.
Proof.
  intros -> m m'. unfold m, m'; clear m m'. unfold crs; cbn [sv sc srp].
  rewrite !concat_mid, <- !app_assoc. simpl.
  repeat split.
  - rewrite !map_app. simpl. rewrite ?map_app. simpl.
    rewrite (app_assoc (map snd (concat R1))).
    rewrite vset_mid by (rewrite app_length, !map_length; reflexivity).
    now rewrite ?map_app, <- ?app_assoc.
  - rewrite !map_app. reflexivity.
  - rewrite !offsets_split. rewrite !app_length. reflexivity.
Qed.

(** set *)
Lemma remove_at_found R1 ra j v rb R2 cn :
  Forall (fun c => c < j) (map fst ra) ->
  s_remove_at (crs (R1 ++ (ra ++ (j, v) :: rb) :: R2) cn) (length R1) j
  = Ok (crs (R1 ++ (ra ++ rb) :: R2) cn).
Proof.
  intros Ha. unfold s_remove_at. rewrite internal_at_found by auto. cbn [bind].
  destruct (erase_parts R1 ra (j, v) rb R2 cn _ eq_refl) as (H1 & H2 & H3).
  rewrite H1, H2, H3. reflexivity.
Qed.

Lemma remove_at_missing R1 ra j rb R2 cn :
  Forall (fun c => c < j) (map fst ra) -> Forall (fun c => j < c) (map fst rb) ->
  s_remove_at (crs (R1 ++ (ra ++ rb) :: R2) cn) (length R1) j
  = Ok (crs (R1 ++ (ra ++ rb) :: R2) cn).
Proof.
  intros Ha Hb. unfold s_remove_at.
  destruct (internal_at_missing R1 ra rb j R2 cn false Ha Hb) as (idx & H & _).
  now rewrite H.
Qed.

Lemma set_at_found R1 ra j w v rb R2 cn :
  Forall (fun c => c < j) (map fst ra) ->
  s_set_at (crs (R1 ++ (ra ++ (j, w) :: rb) :: R2) cn) (length R1) j v
  = Ok (crs (R1 ++ (ra ++ (j, v) :: rb) :: R2) cn).
Proof.
  intros Ha. unfold s_set_at. rewrite internal_at_found by auto. cbn [bind].
  destruct (replace_parts R1 ra j w v rb R2 cn _ eq_refl) as (H1 & H2 & H3).
  rewrite H1, H2, H3. reflexivity.
Qed.

Lemma set_at_missing R1 ra j v rb R2 cn :
  Forall (fun c => c < j) (map fst ra) -> Forall (fun c => j < c) (map fst rb) ->
  s_set_at (crs (R1 ++ (ra ++ rb) :: R2) cn) (length R1) j v
  = Ok (crs (R1 ++ (ra ++ (j, v) :: rb) :: R2) cn).
Proof.
  intros Ha Hb. unfold s_set_at.
  destruct (internal_at_missing R1 ra rb j R2 cn true Ha Hb) as (idx & H & Hi).
  rewrite H. cbn [bind]. rewrite (Hi eq_refl).
  destruct (insert_parts R1 ra (j, v) rb R2 cn _ eq_refl) as (H1 & H2 & H3).
  cbn [fst snd] in *. rewrite H1, H2, H3. reflexivity.
Qed.

(** ** The representation predicate *)
Definition rows_ok (cn : nat) (R : list row) : Prop := Forall (row_ok cn) R.

(** [srep m d1 d2 f]: m is a well-formed d1 x d2 matrix whose stored entries are exactly f. *)
Definition srep (m : smat N) (d1 d2 : nat) (f : nat -> nat -> option N) : Prop :=
  exists R, m = crs R d2 /\ rows_ok d2 R /\ length R = d1 /\ 0 < d1 /\ 0 < d2 /\
            forall i j, i < d1 -> j < d2 -> look (nth i R []) j = f i j.

Lemma row_ok_del cn ra x rb : row_ok cn (ra ++ x :: rb) -> row_ok cn (ra ++ rb).
Proof.
  unfold row_ok. rewrite !map_app. simpl. intros [Hs Hf]. split.
  - induction (map fst ra) as [|a l IH]; simpl in *.
    + now inversion Hs.
    + inversion Hs as [|? ? Hs' Ha]; subst. inversion Hf; subst. constructor.
      * now apply IH.
      * rewrite Forall_app in *. destruct Ha as [Ha1 Ha2]. inversion Ha2; auto.
  - rewrite Forall_app in *. destruct Hf as [H1 H2]. inversion H2; auto.
Qed.

Lemma row_ok_repl cn ra j w v rb : row_ok cn (ra ++ (j, w) :: rb) -> row_ok cn (ra ++ (j, v) :: rb).
Proof. unfold row_ok. now rewrite !map_app. Qed.

Lemma row_ok_ins cn ra j v rb :
  row_ok cn (ra ++ rb) -> j < cn ->
  Forall (fun c => c < j) (map fst ra) -> Forall (fun c => j < c) (map fst rb) ->
  row_ok cn (ra ++ (j, v) :: rb).
Proof.
  unfold row_ok. rewrite !map_app. simpl. intros [Hs Hf] Hj Ha Hb. split.
  - induction (map fst ra) as [|a l IH]; simpl in *.
    + constructor; auto.
    + inversion Hs as [|? ? Hs' Hal]; subst. inversion Hf; subst. inversion Ha; subst.
      constructor.
      * now apply IH.
      * rewrite Forall_app in *. destruct Hal. repeat split; auto.
  - rewrite Forall_app in *. destruct Hf. repeat split; auto.
Qed.

Lemma nth_mid_eq {A} (R1 : list A) r R2 d : nth (length R1) (R1 ++ r :: R2) d = r.
Proof. now rewrite nth_middle. Qed.
Lemma nth_mid_ne {A} (R1 : list A) r r' R2 d i : i <> length R1 ->
  nth i (R1 ++ r :: R2) d = nth i (R1 ++ r' :: R2) d.
Proof.
  intros H. destruct (lt_dec i (length R1)).
  - now rewrite !app_nth1.
  - rewrite !app_nth2 by lia. destruct (i - length R1) eqn:E; [lia|]. reflexivity.
Qed.

Lemma rows_ok_mid cn R1 r R2 : rows_ok cn (R1 ++ r :: R2) -> row_ok cn r.
Proof. unfold rows_ok. rewrite Forall_app. intros [_ H]. now inversion H. Qed.
Lemma rows_ok_upd cn R1 r r' R2 : rows_ok cn (R1 ++ r :: R2) -> row_ok cn r' -> rows_ok cn (R1 ++ r' :: R2).
Proof. unfold rows_ok. rewrite !Forall_app. intros [H1 H] Hr. inversion H; subst. split; auto. Qed.

Definition fset (f : nat -> nat -> option N) (i j : nat) (x : option N) : nat -> nat -> option N :=
  fun i' j' => if (i' =? i) && (j' =? j) then x else f i' j'.

Definition nz (v : N) : option N := if neqb v n0 then None else Some v.

Lemma look_upd_case cn R1 r r' R2 j x i j' (f : nat -> nat -> option N) :
  row_ok cn r ->
  (forall j', look r' j' = if j' =? j then x else look r j') ->
  (i < length R1 + S (length R2) -> j' < cn -> look (nth i (R1 ++ r :: R2) []) j' = f i j') ->
  i < length R1 + S (length R2) -> j' < cn ->
  look (nth i (R1 ++ r' :: R2) []) j' = fset f (length R1) j x i j'.
Proof.
  intros Hr Hl Hf Hi Hj. unfold fset. destruct (i =? length R1) eqn:E; simpl.
  - apply Nat.eqb_eq in E. subst. rewrite nth_mid_eq, Hl.
    destruct (j' =? j); auto. rewrite <- Hf by auto. now rewrite nth_mid_eq.
  - apply Nat.eqb_neq in E. rewrite (nth_mid_ne R1 r' r) by auto. auto.
Qed.

Lemma look_change cn ra j x0 rb : (* same row with/without/replaced entry j *)
  row_ok cn (ra ++ x0 ++ rb) ->
  Forall (fun c => c < j) (map fst ra) -> Forall (fun c => j < c) (map fst rb) ->
  (x0 = [] \/ exists w, x0 = [(j, w)]) ->
  (forall j', look (ra ++ rb) j' = if j' =? j then None else look (ra ++ x0 ++ rb) j') /\
  (forall v j', look (ra ++ (j, v) :: rb) j' = if j' =? j then Some v else look (ra ++ x0 ++ rb) j').
Proof.
  intros Hr Ha Hb Hx.
  assert (Hgen : forall y j', (y = [] \/ exists w, y = [(j, w)]) -> j' <> j ->
                 look (ra ++ y ++ rb) j' = look (ra ++ rb) j').
  { intros y j' Hy Hne. clear - Hy Hne.
    induction ra as [|(c, u) ra IH]; simpl.
    - destruct Hy as [->|[w ->]]; simpl; auto.
      replace (j =? j') with false by (symmetry; apply Nat.eqb_neq; lia). auto.
    - destruct (c =? j'); auto. }
  split.
  - intros j'. destruct (j' =? j) eqn:E.
    + apply Nat.eqb_eq in E. subst. now apply look_missing.
    + apply Nat.eqb_neq in E. symmetry. now apply Hgen.
  - intros v j'. destruct (j' =? j) eqn:E.
    + apply Nat.eqb_eq in E. subst. now apply look_found.
    + apply Nat.eqb_neq in E. rewrite (Hgen x0) by auto.
      apply (Hgen [(j, v)]); eauto.
Qed.

Lemma srep_set m d1 d2 f i j v : srep m d1 d2 f -> i < d1 -> j < d2 ->
  exists m', s_set m i j v = Ok m' /\ srep m' d1 d2 (fset f i j (nz v)).
Proof.
  intros (R & -> & HR & Hl & H1 & H2 & Hf) Hi Hj.
  destruct (split_nth R i) as (R1 & R2 & HRe & Hlen); [lia|].
  set (r := nth i R []) in *. clearbody r. subst R.
  unfold s_set. rewrite rows_crs, cols_crs, Hl.
  replace (i <? d1) with true by (symmetry; apply Nat.ltb_lt; lia).
  replace (j <? d2) with true by (symmetry; apply Nat.ltb_lt; lia).
  cbn [assert_ bind]. rewrite app_length in Hl; simpl in Hl.
  pose proof (rows_ok_mid _ _ _ _ HR) as Hr.
  unfold nz. subst i.
  destruct (row_cases d2 r j Hr) as [(ra & w & rb & -> & Ha & Hb) | (ra & rb & -> & Ha & Hb)].
  - destruct (look_change d2 ra j [(j, w)] rb Hr Ha Hb (or_intror (ex_intro _ w eq_refl))) as [Ld Lr].
    destruct (neqb v n0).
    + rewrite remove_at_found by auto. eexists. split; [reflexivity|].
      exists (R1 ++ (ra ++ rb) :: R2). split; [reflexivity|]. split; [|split; [|split; [|split]]]; auto.
      * eapply rows_ok_upd; eauto. eapply row_ok_del; eauto.
      * rewrite app_length; simpl; lia.
      * intros i' j' Hi' Hj'. eapply look_upd_case; eauto; try lia; intros; apply Hf; lia.
    + rewrite set_at_found by auto. eexists. split; [reflexivity|].
      exists (R1 ++ (ra ++ (j, v) :: rb) :: R2). split; [reflexivity|]. split; [|split; [|split; [|split]]]; auto.
      * eapply rows_ok_upd; eauto. eapply row_ok_repl; eauto.
      * rewrite app_length; simpl; lia.
      * intros i' j' Hi' Hj'. eapply look_upd_case; eauto; try lia; intros; apply Hf; lia.
  - destruct (look_change d2 ra j [] rb Hr Ha Hb (or_introl eq_refl)) as [Ld Lr].
    destruct (neqb v n0).
    + rewrite remove_at_missing by auto. eexists. split; [reflexivity|].
      exists (R1 ++ (ra ++ rb) :: R2). split; [reflexivity|]. split; [|split; [|split; [|split]]]; auto.
      * rewrite app_length; simpl; lia.
      * intros i' j' Hi' Hj'. eapply look_upd_case; eauto; try lia; intros; apply Hf; lia.
    + rewrite set_at_missing by auto. eexists. split; [reflexivity|].
      exists (R1 ++ (ra ++ (j, v) :: rb) :: R2). split; [reflexivity|]. split; [|split; [|split; [|split]]]; auto.
      * eapply rows_ok_upd; eauto. now apply row_ok_ins.
      * rewrite app_length; simpl; lia.
      * intros i' j' Hi' Hj'. eapply look_upd_case; eauto; try lia; intros; apply Hf; lia.
Qed.

Lemma srep_internal_at m d1 d2 f i j : srep m d1 d2 f -> i < d1 -> j < d2 ->
  exists idx, s_internal_at m i j false
  = Ok (match f i j with Some v => v | None => n0 end, idx,
        match f i j with Some _ => true | None => false end).
Proof.
  intros (R & -> & HR & Hl & H1 & H2 & Hf) Hi Hj.
  destruct (split_nth R i) as (R1 & R2 & HRe & Hlen); [lia|].
  specialize (Hf i j Hi Hj).
  set (r := nth i R []) in *. clearbody r. subst R i.
  pose proof (rows_ok_mid _ _ _ _ HR) as Hr.
  destruct (row_cases d2 r j Hr) as [(ra & w & rb & -> & Ha & Hb) | (ra & rb & -> & Ha & Hb)].
  - rewrite look_found in Hf by auto. rewrite <- Hf.
    eexists. now apply internal_at_found.
  - rewrite look_missing in Hf by auto. rewrite <- Hf.
    destruct (internal_at_missing R1 ra rb j R2 d2 false Ha Hb) as (idx & H & _). eauto.
Qed.

Lemma srep_dims m d1 d2 f : srep m d1 d2 f -> s_rows m = d1 /\ s_cols m = d2 /\ 0 < d1 /\ 0 < d2.
Proof. intros (R & -> & HR & Hl & H1 & H2 & Hf). rewrite rows_crs, cols_crs. auto. Qed.

Lemma srep_at m d1 d2 f i j : srep m d1 d2 f -> i < d1 -> j < d2 ->
  s_at m i j = Ok (match f i j with Some v => v | None => n0 end).
Proof.
  intros H Hi Hj. destruct (srep_dims _ _ _ _ H) as (Hr & Hc & _).
  unfold s_at. rewrite Hr, Hc.
  replace (i <? d1) with true by (symmetry; apply Nat.ltb_lt; lia).
  replace (j <? d2) with true by (symmetry; apply Nat.ltb_lt; lia).
  cbn [assert_ bind].
  destruct (srep_internal_at _ _ _ _ _ _ H Hi Hj) as (idx & ->). reflexivity.
Qed.

Lemma srep_has m d1 d2 f i j : srep m d1 d2 f -> i < d1 -> j < d2 ->
  s_has m i j = Ok (match f i j with Some _ => true | None => false end).
Proof.
  intros H Hi Hj. destruct (srep_dims _ _ _ _ H) as (Hr & Hc & _).
  unfold s_has. rewrite Hr, Hc.
  replace (i <? d1) with true by (symmetry; apply Nat.ltb_lt; lia).
  replace (j <? d2) with true by (symmetry; apply Nat.ltb_lt; lia).
  cbn [assert_ bind].
  destruct (srep_internal_at _ _ _ _ _ _ H Hi Hj) as (idx & ->). reflexivity.
Qed.

Lemma offsets_nil n : forall a, offsets a (repeat [] n) = repeat a n.
Proof. induction n; intros; simpl; auto. rewrite Nat.add_0_r. now rewrite IHn. Qed.

Lemma concat_nil {A} n : concat (repeat (@nil A) n) = [].
Proof. induction n; simpl; auto. Qed.

Lemma srep_new d1 d2 : 0 < d1 -> 0 < d2 ->
  exists m, s_new d1 d2 = Ok m /\ srep m d1 d2 (fun _ _ => None).
Proof.
  intros H1 H2. unfold s_new.
  replace (0 <? d1) with true by (symmetry; apply Nat.ltb_lt; lia).
  replace (0 <? d2) with true by (symmetry; apply Nat.ltb_lt; lia).
  cbn. eexists. split; [reflexivity|].
  exists (repeat [] d1). split; [|split; [|split; [|split; [|split]]]]; auto.
  - unfold crs. rewrite concat_nil, offsets_nil. reflexivity.
  - apply Forall_forall. intros r Hr. apply repeat_spec in Hr. subst. split; constructor.
  - apply repeat_length.
  - intros i j _ _. now rewrite nth_repeat.
Qed.

Lemma srep_ext m d1 d2 f g : srep m d1 d2 f ->
  (forall i j, i < d1 -> j < d2 -> f i j = g i j) -> srep m d1 d2 g.
Proof.
  intros (R & -> & HR & Hl & H1 & H2 & Hf) He.
  exists R. repeat split; auto. intros. rewrite <- He by auto. auto.
Qed.

(** Two well-formed matrices storing the same entries are the same object state. *)
Lemma row_ext cn r1 : forall r2, row_ok cn r1 -> row_ok cn r2 ->
  (forall j, look r1 j = look r2 j) -> r1 = r2.
Proof.
  induction r1 as [|(c, v) r1 IH]; intros [|(c2, v2) r2] H1 H2 He; auto.
  - specialize (He c2). simpl in He. rewrite Nat.eqb_refl in He. discriminate.
  - specialize (He c). simpl in He. rewrite Nat.eqb_refl in He. discriminate.
  - destruct H1 as [S1 F1], H2 as [S2 F2]. simpl in *.
    inversion S1 as [|? ? S1' A1]; subst. inversion S2 as [|? ? S2' A2]; subst.
    inversion F1; subst. inversion F2; subst.
    assert (Hc : c = c2).
    { destruct (lt_eq_lt_dec c c2) as [[Hlt|]|Hgt]; auto.
      - specialize (He c). rewrite Nat.eqb_refl in He.
        replace (c2 =? c) with false in He by (symmetry; apply Nat.eqb_neq; lia).
        rewrite look_none in He; [discriminate|].
        eapply Forall_impl; [|exact A2]. simpl; intros; lia.
      - specialize (He c2). rewrite Nat.eqb_refl in He.
        replace (c =? c2) with false in He by (symmetry; apply Nat.eqb_neq; lia).
        rewrite look_none in He; [discriminate|].
        eapply Forall_impl; [|exact A1]. simpl; intros; lia. }
    subst c2. assert (v = v2).
    { specialize (He c). rewrite Nat.eqb_refl in He. congruence. }
    subst v2. f_equal. apply IH; [split; auto|split; auto|].
    intros j. specialize (He j). destruct (c =? j) eqn:E; auto.
    apply Nat.eqb_eq in E. subst.
    rewrite (look_none r1), (look_none r2); auto; [eapply Forall_impl; [|exact A2]|eapply Forall_impl; [|exact A1]]; simpl; intros; lia.
Qed.

Lemma look_out cn r j : row_ok cn r -> cn <= j -> look r j = None.
Proof.
  intros Hr Hj. destruct (look r j) eqn:E; auto.
  pose proof (row_ok_look _ _ _ _ Hr E). lia.
Qed.

Lemma srep_unique m1 m2 d1 d2 f : srep m1 d1 d2 f -> srep m2 d1 d2 f -> m1 = m2.
Proof.
  intros (R & -> & HR & Hl & _ & _ & Hf) (Q & -> & HQ & Hl' & _ & _ & Hg).
  f_equal. apply (list_eq_nth R Q []); [lia|]. intros i Hi.
  assert (Hri : row_ok d2 (nth i R [])) by (eapply Forall_nth; eauto).
  assert (Hqi : row_ok d2 (nth i Q [])) by (eapply Forall_nth; eauto; lia).
  apply (row_ext d2); auto. intros j. destruct (lt_dec j d2).
  - rewrite Hf, Hg by lia. reflexivity.
  - now rewrite !(look_out d2) by (auto; lia).
Qed.

End SparseProofs.
