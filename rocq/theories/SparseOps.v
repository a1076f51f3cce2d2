(** Every operator of SparseModel.v, described on the stored entries. *)
From Coq Require Import List Arith Lia Bool Sorted Permutation.
From Verif Require Import Base BaseProofs Num Spec SpecProofs VectorModel SparseModel SparseProofs SparseIter SparseEntries.
Import ListNotations.
Open Scope res_scope.

Section SparseOps.
Context {N : Num}.
Hypothesis Hz : zero_refl N.
Notation entry := (nat * nat * N)%type.
Implicit Types m : smat N.

Definition val (o : option N) : N := match o with Some v => v | None => n0 end.
Definition some {A} (o : option A) : bool := match o with Some _ => true | None => false end.

(** ** Canonical lists *)
Definition olist {X} (o : option N) (k : N -> X) : list X := match o with Some v => [k v] | None => [] end.
Definition elist (d1 d2 : nat) (f : nat -> nat -> option N) : list entry :=
  flat_map (fun p => olist (f (fst p) (snd p)) (fun v => (fst p, snd p, v))) (positions d1 d2).
Definition rlist (d : nat) (fi : nat -> option N) : list (nat * N) :=
  flat_map (fun j => olist (fi j) (fun v => (j, v))) (seq 0 d).

Lemma in_positions d1 d2 i j : In (i, j) (positions d1 d2) <-> i < d1 /\ j < d2.
Proof. unfold positions. rewrite in_prod_iff, !in_seq. lia. Qed.

Lemma SSorted_seq n : forall a, StronglySorted lt (seq a n).
Proof.
  induction n as [|n IH]; intros a; simpl; constructor; auto.
  apply Forall_forall. intros x Hx. apply in_seq in Hx. lia.
Qed.

Lemma SSorted_flat_map {A B} (P : A -> A -> Prop) (Q : B -> B -> Prop) (h : A -> list B) l :
  StronglySorted P l -> (forall a, In a l -> StronglySorted Q (h a)) ->
  (forall a b x y, In a l -> In b l -> P a b -> In x (h a) -> In y (h b) -> Q x y) -> StronglySorted Q (flat_map h l).
Proof.
  induction l as [|a l IH]; intros Hs Hh Hx; simpl; [constructor|].
  inversion Hs as [|? ? Hs' Ha]; subst. rewrite Forall_forall in Ha. apply SSorted_app.
  - apply Hh; now left.
  - apply IH; auto; intros; [apply Hh; now right|]. eapply Hx; eauto; now right.
  - intros x y H1 H2. apply in_flat_map in H2 as (b & Hb & Hy).
    eapply Hx; [now left|right; exact Hb| |exact H1|exact Hy]. auto.
Qed.

Definition plt (a b : nat * nat) : Prop := fst a < fst b \/ (fst a = fst b /\ snd a < snd b).
Lemma positions_sorted d1 d2 : StronglySorted plt (positions d1 d2).
Proof.
  unfold positions.
  assert (H : forall l : list nat, list_prod l (seq 0 d2) = flat_map (fun i => map (fun j => (i, j)) (seq 0 d2)) l).
  { induction l; simpl; f_equal; auto. }
  rewrite H. eapply SSorted_flat_map with (P := lt).
  - apply SSorted_seq.
  - intros a _. clear H. pose proof (SSorted_seq d2 0) as Hs. induction (seq 0 d2) as [|x l IH]; simpl; constructor.
    + apply IH. now inversion Hs.
    + inversion Hs as [|? ? _ Ha]; subst. rewrite Forall_forall in *. intros y Hy.
      apply in_map_iff in Hy as (k & <- & Hk). right. simpl. auto.
  - intros a b x y _ _ Hab Hx Hy. apply in_map_iff in Hx as (? & <- & _). apply in_map_iff in Hy as (? & <- & _).
    left. simpl. auto.
Qed.

Lemma positions_nodup d1 d2 : NoDup (positions d1 d2).
Proof.
  pose proof (positions_sorted d1 d2) as H. induction (positions d1 d2) as [|a l IH]; constructor.
  - inversion H as [|? ? _ Ha]; subst. rewrite Forall_forall in Ha. intros Hi. specialize (Ha _ Hi).
    unfold plt in Ha. lia.
  - apply IH. now inversion H.
Qed.

Lemma elist_entries d1 d2 f : is_entries d1 d2 f (elist d1 d2 f).
Proof.
  split.
  - eapply SSorted_flat_map with (P := plt).
    + apply positions_sorted.
    + intros (i, j) _. simpl. destruct (f i j); simpl; repeat constructor.
    + intros (i, j) (i', j') x y _ _ Hp Hx Hy. simpl in *. unfold plt in Hp; simpl in Hp.
      destruct (f i j); [|destruct Hx]. destruct (f i' j'); [|destruct Hy].
      destruct Hx as [<-|[]]. destruct Hy as [<-|[]]. unfold lexlt; simpl. auto.
  - intros i j v. unfold elist. rewrite in_flat_map. split.
    + intros ((a, b) & Hp & Hi). simpl in Hi. apply in_positions in Hp.
      destruct (f a b) eqn:E; [|destruct Hi]. destruct Hi as [[= -> -> ->]|[]]. tauto.
    + intros (Hi & Hj & Hf). exists (i, j). split; [now apply in_positions|]. simpl. rewrite Hf. now left.
Qed.

Lemma rlist_row d fi : is_row d fi (rlist d fi).
Proof.
  split.
  - eapply SSorted_flat_map with (P := lt).
    + apply SSorted_seq.
    + intros a _. destruct (fi a); simpl; repeat constructor.
    + intros a b x y _ _ Hp Hx Hy.
      destruct (fi a); [|destruct Hx]. destruct (fi b); [|destruct Hy].
      destruct Hx as [<-|[]]. destruct Hy as [<-|[]]. simpl. auto.
  - intros j v. unfold rlist. rewrite in_flat_map. split.
    + intros (a & Hp & Hi). apply in_seq in Hp.
      destruct (fi a) eqn:E; [|destruct Hi]. destruct Hi as [[= -> ->]|[]]. split; [lia|auto].
    + intros (Hj & Hf). exists j. split; [apply in_seq; lia|]. rewrite Hf. now left.
Qed.

Lemma is_row_unique d (fi : nat -> option N) E1 : forall E2, is_row d fi E1 -> is_row d fi E2 -> E1 = E2.
Proof.
  intros E2 [S1 I1] [S2 I2].
  assert (Hiff : forall e, In e E1 <-> In e E2).
  { intros (j, v). now rewrite I1, I2. }
  clear I1 I2. revert E2 S2 Hiff. induction E1 as [|e E1 IH]; intros [|e2 E2] S2 Hiff; auto.
  - exfalso. apply (Hiff e2). now left.
  - exfalso. apply (Hiff e). now left.
  - inversion S1 as [|? ? S1' A1]; subst. inversion S2 as [|? ? S2' A2]; subst.
    rewrite Forall_forall in A1, A2.
    assert (e = e2).
    { destruct (proj1 (Hiff e) (or_introl eq_refl)) as [H|H]; auto.
      destruct (proj2 (Hiff e2) (or_introl eq_refl)) as [H'|H']; auto.
      pose proof (A1 _ H'). pose proof (A2 _ H). lia. }
    subst e2. f_equal. apply IH; auto. intros x. split; intros Hx.
    + destruct (proj1 (Hiff x) (or_intror Hx)) as [->|H]; auto. exfalso. pose proof (A1 _ Hx); lia.
    + destruct (proj2 (Hiff x) (or_intror Hx)) as [->|H]; auto. exfalso. pose proof (A2 _ Hx); lia.
Qed.

(** loops over canonical lists *)
Lemma for_elist m d1 d2 f : srep m d1 d2 f ->
  s_filled m = length (elist d1 d2 f) /\ sv m = map snd (elist d1 d2 f) /\
  forall St (g : nat -> nat -> N -> St -> res St) s,
    s_for m (fun it s => let* v := it_get m it in g (it1 it) (it2 it) v s) s
    = foreach (elist d1 d2 f) (fun e s => g (fst (fst e)) (snd (fst e)) (snd e) s) s.
Proof.
  intros H. destruct (srep_for m d1 d2 f H) as (E & HE & H1 & H2 & H3).
  rewrite <- (is_entries_unique _ _ _ _ _ HE (elist_entries d1 d2 f)). auto.
Qed.

Lemma for_rlist m d1 d2 f i : srep m d1 d2 f -> i < d1 ->
  s_row_filled m i = Ok (length (rlist d2 (f i))) /\
  forall St (g : nat -> nat -> N -> St -> res St) s,
    s_for_row m i (fun it s => let* v := it_get m it in g (it1 it) (it2 it) v s) s
    = foreach (rlist d2 (f i)) (fun e s => g i (fst e) (snd e) s) s.
Proof.
  intros H Hi. destruct (srep_for_row m d1 d2 f i H Hi) as (E & HE & H1 & H2).
  rewrite <- (is_row_unique _ _ _ _ HE (rlist_row d2 (f i))). auto.
Qed.

Lemma for_clist m d1 d2 f j : srep m d1 d2 f -> j < d2 ->
  forall St (g : nat -> nat -> N -> St -> res St) s,
    s_for_col m j (fun it s => let* v := it_get m it in g (it1 it) (it2 it) v s) s
    = match rlist d1 (fun i => f i j) with
      | [] => if s_empty m then Ok s else Abort
      | _ => foreach (rlist d1 (fun i => f i j)) (fun e s => g (fst e) j (snd e) s) s
      end.
Proof.
  intros H Hj. destruct (srep_for_col Hz m d1 d2 f j H Hj) as (E & HE & H1).
  rewrite <- (is_row_unique d1 (fun i => f i j) _ _ HE (rlist_row d1 _)). auto.
Qed.

(** ** Writing a list of distinct positions *)
Lemma foreach_sets {X} (pi : X -> nat * nat) (w : X -> N -> N) (body : X -> smat N -> res (smat N)) d1 d2 :
  (forall e a f, srep a d1 d2 f -> fst (pi e) < d1 -> snd (pi e) < d2 ->
     body e a = s_set a (fst (pi e)) (snd (pi e)) (w e (val (f (fst (pi e)) (snd (pi e)))))) ->
  forall E m f, srep m d1 d2 f -> NoDup (map pi E) ->
  (forall e, In e E -> fst (pi e) < d1 /\ snd (pi e) < d2) ->
  exists m' f', foreach E body m = Ok m' /\ srep m' d1 d2 f' /\
    (forall e, In e E -> f' (fst (pi e)) (snd (pi e)) = nz (w e (val (f (fst (pi e)) (snd (pi e)))))) /\
    (forall i j, ~ In (i, j) (map pi E) -> f' i j = f i j).
Proof.
  intros Hbody. induction E as [|e E IH]; intros m f Hm Hnd Hr.
  - exists m, f. simpl. repeat split; auto. intros e [].
  - cbn [foreach]. destruct (Hr e (or_introl eq_refl)) as [Hi Hj].
    rewrite (Hbody e m f Hm Hi Hj).
    destruct (srep_set Hz m d1 d2 f _ _ (w e (val (f (fst (pi e)) (snd (pi e))))) Hm Hi Hj) as (m1 & -> & Hm1).
    cbn [bind]. inversion Hnd as [|? ? Hni Hnd']; subst.
    destruct (IH m1 _ Hm1 Hnd') as (m' & f' & H1 & H2 & H3 & H4).
    { intros; apply Hr; now right. }
    assert (Hpe : pi e = (fst (pi e), snd (pi e))) by (destruct (pi e); reflexivity).
    exists m', f'. repeat split; auto.
    + intros x [<-|Hx].
      * rewrite H4.
        -- unfold fset. now rewrite !Nat.eqb_refl.
        -- rewrite <- Hpe. exact Hni.
      * rewrite H3 by auto. unfold fset.
        destruct ((fst (pi x) =? fst (pi e)) && (snd (pi x) =? snd (pi e))) eqn:Eq; auto.
        exfalso. apply andb_true_iff in Eq as [Ea Eb]. apply Nat.eqb_eq in Ea, Eb. apply Hni.
        replace (pi e) with (pi x); [now apply in_map|]. destruct (pi x), (pi e); simpl in *; congruence.
    + intros i j Hn. rewrite H4.
      * unfold fset. destruct ((i =? fst (pi e)) && (j =? snd (pi e))) eqn:Eq; auto.
        exfalso. apply andb_true_iff in Eq as [Ea Eb]. apply Nat.eqb_eq in Ea, Eb. apply Hn. left. congruence.
      * intros Hin. apply Hn. now right.
Qed.

Lemma elist_in d1 d2 f e : In e (elist d1 d2 f) <->
  fst (fst e) < d1 /\ snd (fst e) < d2 /\ f (fst (fst e)) (snd (fst e)) = Some (snd e).
Proof. destruct e as ((i, j), v). simpl. apply elist_entries. Qed.

Lemma sorted_nodup_pos E : StronglySorted lexlt E -> NoDup (map (fun e : entry => fst e) E).
Proof.
  induction E as [|e E IH]; intros Hs; simpl; constructor; inversion Hs as [|? ? Hs' Ha]; subst; auto.
  intros Hi. apply in_map_iff in Hi as (x & Hx & Hi). rewrite Forall_forall in Ha. specialize (Ha _ Hi).
  unfold lexlt in Ha. rewrite Hx in Ha. lia.
Qed.

Lemma elist_nodup d1 d2 f : NoDup (map (fun e : entry => fst e) (elist d1 d2 f)).
Proof. apply sorted_nodup_pos. apply elist_entries. Qed.

Lemma in_elist_pos d1 d2 f i j : In (i, j) (map (fun e : entry => fst e) (elist d1 d2 f)) <->
  i < d1 /\ j < d2 /\ f i j <> None.
Proof.
  rewrite in_map_iff. split.
  - intros (((a, b), v) & [= -> ->] & H). apply elist_in in H. simpl in H. intuition congruence.
  - intros (Hi & Hj & Hf). destruct (f i j) eqn:E; [|congruence]. exists (i, j, t). split; auto.
    apply elist_in. simpl. auto.
Qed.

(** += / -= with another matrix *)
Lemma srep_combine op A B d1 d2 fa fb : srep A d1 d2 fa -> srep B d1 d2 fb ->
  exists C, s_combine_eq op A B = Ok C /\
  srep C d1 d2 (fun i j => match fb i j with Some y => nz (op (val (fa i j)) y) | None => fa i j end).
Proof.
  intros HA HB. unfold s_combine_eq.
  destruct (for_elist B d1 d2 fb HB) as (_ & _ & Hfor).
  rewrite (Hfor _ (fun i j y a => let* x := s_at a i j in s_set a i j (op x y))).
  destruct (foreach_sets (fun e : entry => fst e) (fun e x => op x (snd e))
     (fun e s => let* x := s_at s (fst (fst e)) (snd (fst e)) in s_set s (fst (fst e)) (snd (fst e)) (op x (snd e)))
     d1 d2) with (E := elist d1 d2 fb) (m := A) (f := fa) as (C & fc & H1 & H2 & H3 & H4); auto.
  - intros e a f Ha Hi Hj. rewrite (srep_at Hz a d1 d2 f) by auto. reflexivity.
  - apply elist_nodup.
  - intros e He. apply elist_in in He. tauto.
  - exists C. split; auto. eapply srep_ext; [exact H2|]. intros i j Hi Hj. cbn beta.
    destruct (fb i j) as [y|] eqn:Ey.
    + apply (H3 (i, j, y)). apply elist_in. simpl. auto.
    + apply H4. rewrite in_elist_pos. tauto.
Qed.

(** copying loops: transpose, conjugate, adjugate *)
Lemma srep_copy (h : N -> N) (tr : bool) m d1 d2 f :
  srep m d1 d2 f ->
  let e1 := if tr then d2 else d1 in let e2 := if tr then d1 else d2 in
  exists m', (let* t := s_new e1 e2 in
     s_for m (fun it a => let* v := it_get m it in
                          s_set a (if tr then it2 it else it1 it) (if tr then it1 it else it2 it) (h v)) t)
     = Ok m' /\
  srep m' e1 e2 (fun i j => match (if tr then f j i else f i j) with Some v => nz (h v) | None => None end).
Proof.
  intros Hm e1 e2. destruct (srep_dims m d1 d2 f Hm) as (_ & _ & P1 & P2).
  destruct (srep_new (N := N) e1 e2) as (t & -> & Ht).
  { unfold e1; destruct tr; auto. } { unfold e2; destruct tr; auto. }
  cbn [bind]. destruct (for_elist m d1 d2 f Hm) as (_ & _ & Hfor).
  rewrite (Hfor _ (fun i j v a => s_set a (if tr then j else i) (if tr then i else j) (h v))).
  set (pi := fun e : entry => (if tr then snd (fst e) else fst (fst e), if tr then fst (fst e) else snd (fst e))).
  destruct (foreach_sets pi (fun e _ => h (snd e))
     (fun e s => s_set s (if tr then snd (fst e) else fst (fst e)) (if tr then fst (fst e) else snd (fst e)) (h (snd e)))
     e1 e2) with (E := elist d1 d2 f) (m := t) (f := fun _ _ : nat => @None N) as (C & fc & H1 & H2 & H3 & H4); auto.
  - assert (Hnd := elist_nodup d1 d2 f).
    replace (map pi (elist d1 d2 f))
      with (map (fun p : nat * nat => (if tr then snd p else fst p, if tr then fst p else snd p))
                (map (fun e : entry => fst e) (elist d1 d2 f))) by (rewrite map_map; reflexivity).
    apply FinFun.Injective_map_NoDup; auto. intros (a, b) (a', b'). destruct tr; simpl; congruence.
  - intros e He. apply elist_in in He. unfold pi, e1, e2. destruct tr; simpl; tauto.
  - exists C. split; auto. eapply srep_ext; [exact H2|]. intros i j Hi Hj. cbn beta.
    destruct (if tr then f j i else f i j) as [y|] eqn:Ey.
    + set (e := if tr then (j, i, y) else (i, j, y)).
      assert (He : In e (elist d1 d2 f)).
      { apply elist_in. unfold e, e1, e2 in *. destruct tr; simpl; auto. }
      pose proof (H3 e He) as H. unfold e, pi in H. destruct tr; simpl in H; exact H.
    + apply H4. intros Hin. apply in_map_iff in Hin as (((a, b), v) & Hp & Hin). apply elist_in in Hin.
      unfold pi in Hp. simpl in *. destruct tr; injection Hp as <- <-; destruct Hin as (_ & _ & Hin); congruence.
Qed.

Lemma s_transpose_eq m : s_transpose m
  = let* t := s_new (s_cols m) (s_rows m) in
    s_for m (fun it a => let* v := it_get m it in s_set a (it2 it) (it1 it) v) t.
Proof. reflexivity. Qed.

Lemma srep_transpose m d1 d2 f : srep m d1 d2 f ->
  exists m', s_transpose m = Ok m' /\
  srep m' d2 d1 (fun i j => match f j i with Some v => nz v | None => None end).
Proof.
  intros H. destruct (srep_dims m d1 d2 f H) as (D1 & D2 & _).
  unfold s_transpose. rewrite D1, D2. exact (srep_copy (fun v => v) true m d1 d2 f H).
Qed.
Lemma srep_conjugate m d1 d2 f : srep m d1 d2 f ->
  exists m', s_conjugate m = Ok m' /\
  srep m' d1 d2 (fun i j => match f i j with Some v => nz (nconj v) | None => None end).
Proof.
  intros H. destruct (srep_dims m d1 d2 f H) as (D1 & D2 & _).
  unfold s_conjugate. rewrite D1, D2. exact (srep_copy nconj false m d1 d2 f H).
Qed.
Lemma srep_adjugate m d1 d2 f : srep m d1 d2 f ->
  exists m', s_adjugate m = Ok m' /\
  srep m' d2 d1 (fun i j => match f j i with Some v => nz (nconj v) | None => None end).
Proof.
  intros H. destruct (srep_dims m d1 d2 f H) as (D1 & D2 & _).
  unfold s_adjugate. rewrite D1, D2. exact (srep_copy nconj true m d1 d2 f H).
Qed.

(** ** Products *)
Definition dotfold (E : list (nat * N)) (h : nat -> N) : N :=
  fold_left (fun s e => nadd s (nmul (snd e) (h (fst e)))) E n0.

Lemma foreach_fold {X S} (f : X -> S -> res S) (h : S -> X -> S) l : forall s,
  (forall x s, In x l -> f x s = Ok (h s x)) -> foreach l f s = Ok (fold_left h l s).
Proof.
  induction l as [|x l IH]; intros s H; simpl; auto.
  rewrite H by (now left). cbn [bind]. apply IH. intros; apply H; now right.
Qed.

Lemma row_dot A B d1 d2 d3 fa fb i k : srep A d1 d2 fa -> srep B d2 d3 fb -> i < d1 -> k < d3 ->
  s_for_row A i (fun it v => let* x := it_get A it in
                             let* y := s_at B (it2 it) k in Ok (v + x * y)%num) n0
  = Ok (dotfold (rlist d2 (fa i)) (fun j => val (fb j k))).
Proof.
  intros HA HB Hi Hk. destruct (for_rlist A d1 d2 fa i HA Hi) as (_ & Hfor).
  rewrite (Hfor _ (fun _ j x v => let* y := s_at B j k in Ok (v + x * y)%num)).
  apply foreach_fold. intros (j, x) s Hin. simpl.
  apply rlist_row in Hin as [Hj _]. rewrite (srep_at Hz B d2 d3 fb) by auto. reflexivity.
Qed.

Lemma srep_mul A B d1 d2 d3 fa fb : srep A d1 d2 fa -> srep B d2 d3 fb ->
  exists C, s_mul A B = Ok C /\
  srep C d1 d3 (fun i k => nz (dotfold (rlist d2 (fa i)) (fun j => val (fb j k)))).
Proof.
  intros HA HB. destruct (srep_dims A _ _ _ HA) as (A1 & A2 & P1 & P2).
  destruct (srep_dims B _ _ _ HB) as (B1 & B2 & Q1 & Q2).
  unfold s_mul. rewrite A1, A2, B1, B2, Nat.eqb_refl. cbn [negb].
  destruct (srep_new (N := N) d1 d3 P1 Q2) as (t & -> & Ht). cbn [bind].
  set (G := fun i k => dotfold (rlist d2 (fa i)) (fun j => val (fb j k))).
  set (P := fun n (t : smat N) => srep t d1 d3 (fun i k => if i <? n then nz (G i k) else None)).
  destruct (for_returns P 0 d1 (fun i t1 =>
      for_ 0 d3 (fun k t2 =>
        let* v := s_for_row A i (fun it v => let* x := it_get A it in
                                             let* y := s_at B (it2 it) k in Ok (v + x * y)%num) n0 in
        s_set t2 i k v) t1) t) as (C & HC & HP).
  - lia.
  - unfold P. eapply srep_ext; [exact Ht|]. reflexivity.
  - intros i s Hi Hs.
    set (Q := fun n (t : smat N) => srep t d1 d3
       (fun i' k => if i' <? i then nz (G i' k) else if (i' =? i) && (k <? n) then nz (G i k) else None)).
    apply returns_mono with (Q := Q d3).
    2: { unfold P, Q. intros a Ha. eapply srep_ext; [exact Ha|]. intros i' k Hi' Hk. cbn beta.
         destruct (lt_eq_lt_dec i' i) as [[Hlt| ->]|Hgt]; bdec; auto. }
    apply for_returns; [lia| |].
    + unfold Q. eapply srep_ext; [exact Hs|]. intros i' k Hi' Hk. cbn beta.
      destruct (i' <? i); auto. rewrite andb_comm. reflexivity.
    + intros k t2 Hk Ht2.
      rewrite (row_dot A B d1 d2 d3 fa fb i k) by (auto; lia). cbn [bind].
      destruct (srep_set Hz t2 d1 d3 _ i k (dotfold (rlist d2 (fa i)) (fun j => val (fb j k))) Ht2) as (t3 & H1 & H2); [lia..|].
      exists t3. split; auto. unfold Q. eapply srep_ext; [exact H2|]. intros i' k' Hi' Hk'. unfold fset.
      destruct (Nat.eq_dec i' i) as [->|Hn].
      * destruct (lt_eq_lt_dec k' k) as [[Hlt| ->]|Hgt]; bdec; auto.
      * bdec. reflexivity.
  - exists C. split; auto. eapply srep_ext; [exact HP|]. intros i k Hi Hk. cbn beta. bdec. reflexivity.
Qed.

Lemma s_mul_mismatch (A B : smat N) : s_cols A <> s_rows B -> s_mul A B = Throw MatrixMulMismatch.
Proof. intros H. unfold s_mul. apply Nat.eqb_neq in H. now rewrite H. Qed.

(** matrix-vector: one accumulation per stored entry *)
Definition mvfold (E : list entry) (key other : entry -> nat) (v : list N) (r0 : list N) : list N :=
  fold_left (fun r e => upd r (key e) (nadd (nth (key e) r n0) (nmul (snd e) (nth (other e) v n0)))) E r0.

Lemma v_at_ok (v : list N) i : i < length v -> v_at v i = Ok (nth i v n0).
Proof. intros H. unfold v_at, v_size. bdec. now rewrite (vget_ok v i n0). Qed.
Lemma v_set_ok (v : list N) i x : i < length v -> v_set v i x = Ok (upd v i x).
Proof. intros H. unfold v_set, v_size. bdec. now apply vset_ok. Qed.

Lemma mvfold_length E key other v : forall r0, length (mvfold E key other v r0) = length r0.
Proof.
  unfold mvfold. induction E as [|e E IH]; intros r0; simpl; auto. rewrite IH. apply upd_length.
Qed.

Lemma mv_foreach (key other : entry -> nat) n v : forall E r,
  length r = n -> (forall e, In e E -> key e < n /\ other e < length v) ->
  foreach E (fun e r => let* a := v_at r (key e) in let* y := v_at v (other e) in
                        v_set r (key e) (a + snd e * y)%num) r
  = Ok (mvfold E key other v r).
Proof.
  induction E as [|e E IH]; intros r Hl HE; [reflexivity|]. cbn [foreach].
  destruct (HE e (or_introl eq_refl)) as [H1 H2].
  rewrite v_at_ok by lia. cbn [bind]. rewrite v_at_ok by lia. cbn [bind].
  rewrite v_set_ok by lia. cbn [bind]. rewrite IH.
  - reflexivity.
  - now rewrite upd_length.
  - intros; apply HE; now right.
Qed.

(** each coordinate of the accumulation only sees its own entries *)
Lemma mvfold_nth (key other : entry -> nat) v k : forall E r, k < length r ->
  (forall e, In e E -> key e < length r) ->
  nth k (mvfold E key other v r) n0
  = fold_left (fun s e => nadd s (nmul (snd e) (nth (other e) v n0)))
      (filter (fun e => key e =? k) E) (nth k r n0).
Proof.
  unfold mvfold. induction E as [|e E IH]; intros r Hk HE; [reflexivity|]. cbn [fold_left filter].
  rewrite IH.
  - destruct (Nat.eqb_spec (key e) k) as [He|He]; cbn [fold_left].
    + rewrite He at 1. rewrite nth_upd_eq by lia. now rewrite He.
    + rewrite nth_upd_ne by auto. reflexivity.
  - rewrite upd_length; auto.
  - intros x Hx. rewrite upd_length. apply HE. now right.
Qed.

Lemma v_resize_nil n : v_resize (@nil N) n = repeat n0 n.
Proof. unfold v_resize. rewrite firstn_nil. simpl. now rewrite Nat.sub_0_r. Qed.

Lemma filter_row d1 d2 f k : k < d1 ->
  filter (fun e : entry => fst (fst e) =? k) (elist d1 d2 f)
  = map (fun cv => (k, fst cv, snd cv)) (rlist d2 (f k)).
Proof.
  intros Hk.
  assert (Hs : forall l, StronglySorted lexlt l -> StronglySorted lexlt (filter (fun e : entry => fst (fst e) =? k) l)).
  { induction l as [|x l IH]; simpl; intros Hs; auto. inversion Hs as [|? ? Hs' Ha]; subst.
    destruct (fst (fst x) =? k); auto. constructor; auto. rewrite Forall_forall in *.
    intros y Hy. apply filter_In in Hy as [Hy _]. auto. }
  set (g := fun i j => if i =? k then f i j else None).
  apply (is_entries_unique d1 d2 g).
  - split.
    + apply Hs. apply elist_entries.
    + intros i j v. rewrite filter_In. rewrite elist_in. simpl. unfold g. split.
      * intros [(H1 & H2 & H3) H4]. rewrite H4. auto.
      * intros (H1 & H2 & H3). destruct (i =? k); [auto|discriminate].
  - split.
    + pose proof (rlist_row d2 (f k)) as [Hr _]. induction (rlist d2 (f k)) as [|x l IH]; simpl; constructor.
      * apply IH. now inversion Hr.
      * inversion Hr as [|? ? _ Ha]; subst. rewrite Forall_forall in *. intros y Hy.
        apply in_map_iff in Hy as (z & <- & Hz'). right. simpl. auto.
    + intros i j v. rewrite in_map_iff. unfold g. split.
      * intros ((c, u) & [= <- <- <-] & Hi). apply rlist_row in Hi as [H1 H2]. rewrite Nat.eqb_refl. auto.
      * intros (H1 & H2 & H3). destruct (Nat.eqb_spec i k); [|discriminate]. subst. exists (j, v). split; auto.
        apply rlist_row. auto.
Qed.

Lemma filter_col d1 d2 f k : k < d2 ->
  filter (fun e : entry => snd (fst e) =? k) (elist d1 d2 f)
  = map (fun cv => (fst cv, k, snd cv)) (rlist d1 (fun i => f i k)).
Proof.
  intros Hk.
  assert (Hs : forall l, StronglySorted lexlt l -> StronglySorted lexlt (filter (fun e : entry => snd (fst e) =? k) l)).
  { induction l as [|x l IH]; simpl; intros Hs; auto. inversion Hs as [|? ? Hs' Ha]; subst.
    destruct (snd (fst x) =? k); auto. constructor; auto. rewrite Forall_forall in *.
    intros y Hy. apply filter_In in Hy as [Hy _]. auto. }
  set (g := fun i j => if j =? k then f i j else None).
  apply (is_entries_unique d1 d2 g).
  - split.
    + apply Hs. apply elist_entries.
    + intros i j v. rewrite filter_In. rewrite elist_in. simpl. unfold g. split.
      * intros [(H1 & H2 & H3) H4]. rewrite H4. auto.
      * intros (H1 & H2 & H3). destruct (j =? k); [auto|discriminate].
  - split.
    + pose proof (rlist_row d1 (fun i => f i k)) as [Hr _].
      induction (rlist d1 (fun i => f i k)) as [|x l IH]; simpl; constructor.
      * apply IH. now inversion Hr.
      * inversion Hr as [|? ? _ Ha]; subst. rewrite Forall_forall in *. intros y Hy.
        apply in_map_iff in Hy as (z & <- & Hz'). left. simpl. auto.
    + intros i j v. rewrite in_map_iff. unfold g. split.
      * intros ((c, u) & [= <- <- <-] & Hi). apply rlist_row in Hi as [H1 H2]. rewrite Nat.eqb_refl. auto.
      * intros (H1 & H2 & H3). destruct (Nat.eqb_spec j k); [|discriminate]. subst. exists (i, v). split; auto.
        apply rlist_row. auto.
Qed.

Lemma fold_left_map {A B C} (h : A -> B) (f : C -> B -> C) l : forall s,
  fold_left f (map h l) s = fold_left (fun s x => f s (h x)) l s.
Proof. induction l; simpl; auto. Qed.

Lemma srep_mulv m d1 d2 f v : srep m d1 d2 f -> length v = d2 ->
  exists r, s_mulv m v = Ok r /\ length r = d1 /\
  forall i, i < d1 -> nth i r n0 = dotfold (rlist d2 (f i)) (fun j => nth j v n0).
Proof.
  intros Hm Hv. destruct (srep_dims m _ _ _ Hm) as (D1 & D2 & P1 & P2).
  unfold s_mulv, v_size. rewrite D1, D2, Hv, Nat.eqb_refl. cbn [negb].
  destruct (for_elist m d1 d2 f Hm) as (_ & _ & Hfor).
  rewrite (Hfor _ (fun i j x r => let* a := v_at r i in let* y := v_at v j in v_set r i (a + x * y)%num)).
  rewrite v_resize_nil.
  rewrite (mv_foreach (fun e => fst (fst e)) (fun e => snd (fst e)) d1 v).
  2: apply repeat_length.
  2: { intros e He. apply elist_in in He. rewrite Hv. tauto. }
  eexists. split; [reflexivity|]. split.
  - rewrite mvfold_length. apply repeat_length.
  - intros i Hi. rewrite mvfold_nth.
    + rewrite filter_row by auto. rewrite fold_left_map. simpl. rewrite nth_repeat. reflexivity.
    + rewrite repeat_length; auto.
    + intros e He. apply elist_in in He. rewrite repeat_length. tauto.
Qed.

Lemma srep_mulv_left m d1 d2 f v : srep m d1 d2 f -> length v = d1 ->
  exists r, s_mulv_left m v = Ok r /\ length r = d2 /\
  forall j, j < d2 -> nth j r n0 = dotfold (rlist d1 (fun i => f i j)) (fun i => nth i v n0).
Proof.
  intros Hm Hv. destruct (srep_dims m _ _ _ Hm) as (D1 & D2 & P1 & P2).
  unfold s_mulv_left, v_size. rewrite D1, D2, Hv, Nat.eqb_refl. cbn [negb].
  destruct (for_elist m d1 d2 f Hm) as (_ & _ & Hfor).
  rewrite (Hfor _ (fun i j x r => let* a := v_at r j in let* y := v_at v i in v_set r j (a + x * y)%num)).
  rewrite v_resize_nil.
  rewrite (mv_foreach (fun e => snd (fst e)) (fun e => fst (fst e)) d2 v).
  2: apply repeat_length.
  2: { intros e He. apply elist_in in He. rewrite Hv. tauto. }
  eexists. split; [reflexivity|]. split.
  - rewrite mvfold_length. apply repeat_length.
  - intros i Hi. rewrite mvfold_nth.
    + rewrite filter_col by auto. rewrite fold_left_map. simpl. rewrite nth_repeat. reflexivity.
    + rewrite repeat_length; auto.
    + intros e He. apply elist_in in He. rewrite repeat_length. tauto.
Qed.

End SparseOps.
