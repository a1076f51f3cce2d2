(** Reference counting of Mesh handles. *)
From Coq Require Import List Arith Bool Lia.
From Verif Require Import Base BaseProofs Num MeshModel MeshPool MeshHandle.
Import ListNotations.
Local Open Scope nat_scope.
Open Scope res_scope.

Lemma deref_lt {A} (h : list (option A)) p a : deref h p = Ok a -> p < length h.
Proof. unfold deref. intros H. apply nth_error_Some. destruct (nth_error h p); congruence. Qed.
Lemma deref_upd {A} (h : list (option A)) p (b : A) q : p < length h -> deref (upd h p (Some b)) q = if q =? p then Ok b else deref h q.
Proof.
  intros H. unfold deref. rewrite nth_error_upd. apply Nat.ltb_lt in H. rewrite H, andb_true_r. destruct (q =? p); auto.
Qed.
Lemma deref_upd_none {A} (h : list (option A)) p q : p < length h -> deref (upd h p None) q = if q =? p then UB else deref h q.
Proof.
  intros H. unfold deref. rewrite nth_error_upd. apply Nat.ltb_lt in H. rewrite H, andb_true_r. destruct (q =? p); auto.
Qed.

(** *** clear *)
Lemma free_all {A} (l : list nat) : forall h : list (option A), NoDup l -> (forall p, In p l -> exists x, deref h p = Ok x) ->
  returns (foreach l (fun p h => free h p) h) (fun h' => length h' = length h /\
    (forall p, In p l -> nth_error h' p = Some None) /\ (forall p, ~ In p l -> nth_error h' p = nth_error h p)).
Proof.
  induction l as [|p l IH]; intros h Hn Hl; cbn [foreach].
  - apply returns_ok. repeat split; auto. intros p [].
  - inversion Hn as [|? ? Hp Hn']; subst. destruct (Hl p (or_introl eq_refl)) as (x & Hx).
    assert (Lp := deref_lt _ _ _ Hx). unfold free at 1. rewrite Hx. cbn [bind].
    eapply returns_mono; [apply (IH (upd h p None)); auto|].
    + intros q Hq. rewrite deref_upd_none by auto. assert (E : q =? p = false) by (apply Nat.eqb_neq; intros ->; auto).
      rewrite E. apply Hl. now right.
    + cbn beta. intros h' (H1 & H2 & H3). rewrite upd_length in H1. split; [auto|]. apply Nat.ltb_lt in Lp. split.
      * intros q [<-|Hq]; auto. rewrite H3, nth_error_upd, Nat.eqb_refl, Lp by auto. reflexivity.
      * intros q Hq. rewrite H3 by (intros X; apply Hq; now right). rewrite nth_error_upd.
        assert (E : q =? p = false) by (apply Nat.eqb_neq; intros ->; apply Hq; now left). now rewrite E.
Qed.
Section Proofs.
Context {N : Num}.
Notation hst := (hst N).
Theorem clear_ok (s : mst N) : owning s -> returns (m_clear s) (fun s' =>
  mV s' = [] /\ mE s' = [] /\ mD s' = mD s /\ hd s' = hd s /\
  (forall p, In p (mV s) -> nth_error (hv s') p = Some None) /\ (forall p, ~ In p (mV s) -> nth_error (hv s') p = nth_error (hv s) p) /\
  (forall p, In p (mE s) -> nth_error (he s') p = Some None) /\ (forall p, ~ In p (mE s) -> nth_error (he s') p = nth_error (he s) p)).
Proof.
  intros (H1 & H2 & H3 & H4). unfold m_clear. destruct (free_all (mV s) (hv s) H1 H3) as (h & -> & _ & A & B). cbn [bind].
  destruct (free_all (mE s) (he s) H2 H4) as (g & -> & _ & C & D). cbn [bind]. apply returns_ok. cbn. auto 10.
Qed.
Lemma clear_returns (s : mst N) : owning s -> exists s', m_clear s = Ok s'.
Proof. intros H. destruct (clear_ok s H) as (s' & E & _). eauto. Qed.

(** *** The counts *)
Definition ind (p : nat) (v : hval) : nat := match v with At q => if q =? p then 1 else 0 | _ => 0 end.
Lemma count_cons p v l : count p (v :: l) = ind p v + count p l.
Proof. unfold count, ind. cbn. destruct v; auto. destruct (p0 =? p); reflexivity. Qed.
Lemma count_snoc p v l : count p (l ++ [v]) = count p l + ind p v.
Proof. induction l as [|w l IH]; cbn [app]; rewrite ?count_cons; [cbn; lia|]. rewrite IH. lia. Qed.
Lemma count_upd p x v w l : nth_error l x = Some v -> count p (upd l x w) + ind p v = count p l + ind p w.
Proof.
  revert x. induction l as [|u l IH]; intros [|x] H; try discriminate; cbn [upd].
  - inversion H; subst. rewrite !count_cons. lia.
  - rewrite !count_cons. specialize (IH x H). lia.
Qed.
Lemma ind_at p : ind p (At p) = 1. Proof. cbn. now rewrite Nat.eqb_refl. Qed.
Lemma ind_ne p q : q <> p -> ind p (At q) = 0. Proof. cbn. intros H. apply Nat.eqb_neq in H. now rewrite H. Qed.

Definition inv (c : list (option (nat * mst N))) (l : list hval) : Prop :=
  forall p, match nth_error c p with Some (Some d) => fst d = count p l /\ 0 < fst d /\ owning (snd d) | _ => count p l = 0 end.
(* the invariant up to a given correction of the counts *)
Definition invc (c : list (option (nat * mst N))) (n : nat -> nat) : Prop :=
  forall p, match nth_error c p with Some (Some d) => fst d = n p /\ 0 < fst d /\ owning (snd d) | _ => n p = 0 end.
Lemma invc_ext c n n' : (forall p, n p = n' p) -> invc c n -> invc c n'.
Proof. intros H I p. specialize (I p). rewrite <- H. exact I. Qed.
Lemma inc_ok c n p : invc c n -> 0 < n p -> exists c', h_inc c (At p) = Ok c' /\ invc c' (fun q => n q + ind q (At p)).
Proof.
  intros I Hp. pose proof (I p) as Ip. unfold h_inc. destruct (nth_error c p) as [[d|]|] eqn:E; try lia.
  assert (D : deref c p = Ok d) by (unfold deref; now rewrite E). assert (L := deref_lt _ _ _ D).
  unfold store. rewrite D. cbn [bind]. eexists. split; [reflexivity|].
  intros q. rewrite nth_error_upd. apply Nat.ltb_lt in L. rewrite L, andb_true_r.
  destruct (Nat.eq_dec q p) as [->|Hq].
  - rewrite Nat.eqb_refl, ind_at. cbn. destruct Ip as (A & B & C). repeat split; try apply C; lia.
  - rewrite ind_ne by auto. apply Nat.eqb_neq in Hq. rewrite Hq. specialize (I q). destruct (nth_error c q) as [[]|]; rewrite ?Nat.add_0_r; auto.
Qed.
Lemma dec_ok c n v : invc c n -> (forall p, v = At p -> 0 < n p) -> exists c', h_dec c v = Ok c' /\ invc c' (fun q => n q - ind q v).
Proof.
  intros I Hv. destruct v as [| |p]; cbn [h_dec ind]; try (exists c; split; [reflexivity|]; eapply invc_ext; [|exact I]; intros; cbn; lia).
  specialize (Hv p eq_refl). pose proof (I p) as Ip. destruct (nth_error c p) as [[d|]|] eqn:E; try lia.
  assert (D : deref c p = Ok d) by (unfold deref; now rewrite E). assert (L := deref_lt _ _ _ D).
  rewrite D. cbn [bind]. destruct Ip as (A & B & C). unfold assert_. assert (X : 0 <? fst d = true) by (apply Nat.ltb_lt; auto). rewrite X. cbn [bind].
  destruct (fst d - 1 =? 0) eqn:Ez.
  - apply Nat.eqb_eq in Ez. destruct (clear_returns (snd d) C) as (s' & ->). cbn [bind]. unfold free. rewrite D. cbn [bind].
    eexists. split; [reflexivity|]. intros q. rewrite nth_error_upd. apply Nat.ltb_lt in L. rewrite L, andb_true_r.
    destruct (Nat.eq_dec q p) as [->|Hq].
    + rewrite Nat.eqb_refl. lia.
    + assert (Hq' : p =? q = false) by (apply Nat.eqb_neq; auto). rewrite Hq'. apply Nat.eqb_neq in Hq. rewrite Hq. specialize (I q).
      destruct (nth_error c q) as [[]|]; rewrite ?Nat.sub_0_r; auto.
  - apply Nat.eqb_neq in Ez. unfold store. rewrite D. cbn [bind]. eexists. split; [reflexivity|].
    intros q. rewrite nth_error_upd. apply Nat.ltb_lt in L. rewrite L, andb_true_r.
    destruct (Nat.eq_dec q p) as [->|Hq].
    + rewrite Nat.eqb_refl. cbn. repeat split; try apply C; lia.
    + assert (Hq' : p =? q = false) by (apply Nat.eqb_neq; auto). rewrite Hq'. apply Nat.eqb_neq in Hq. rewrite Hq. specialize (I q).
      destruct (nth_error c q) as [[]|]; rewrite ?Nat.sub_0_r; auto.
Qed.
Lemma inv_invc c l : inv c l <-> invc c (fun p => count p l). Proof. reflexivity. Qed.
Lemma count_pos p x l : nth_error l x = Some (At p) -> 0 < count p l.
Proof. intros H. pose proof (count_upd p x (At p) Null l H). rewrite ind_at in H0. cbn in H0. lia. Qed.
Lemma h_val_ok (s : hst) x v : nth_error (vars s) x = Some v -> v <> Gone -> h_val s x = Ok v.
Proof. intros H1 H2. unfold h_val. rewrite H1. destruct v; congruence. Qed.
Lemma owning_new : owning (@m_new N).
Proof. repeat split; try constructor; intros p []. Qed.

Lemma step_ok o (s : hst) : inv (cells s) (vars s) -> allowed o s -> exists s', h_step o s = Ok s' /\ inv (cells s') (vars s').
Proof.
  intros I A. destruct o as [|y|y|x|x y|x y|x f]; cbn [h_step allowed] in *.
  - eexists. split; [reflexivity|]. cbn [cells vars]. intros p. specialize (I p). rewrite count_snoc.
    destruct (lt_dec p (length (cells s))) as [L|L].
    + rewrite nth_error_app1 by auto. rewrite ind_ne by lia. rewrite Nat.add_0_r. exact I.
    + rewrite nth_error_app2 by lia. destruct (Nat.eq_dec p (length (cells s))) as [->|Hn].
      * rewrite Nat.sub_diag. cbn [nth_error fst snd]. rewrite ind_at. assert (X : nth_error (cells s) (length (cells s)) = None) by (apply nth_error_None; lia).
        rewrite X in I. rewrite I. split; [auto|]. split; [auto|]. apply owning_new.
      * assert (X : nth_error (cells s) p = None) by (apply nth_error_None; lia). rewrite X in I.
        assert (Y : nth_error [Some (1, m_new (N := N))] (p - length (cells s)) = None) by (apply nth_error_None; cbn; lia).
        rewrite Y, I, ind_ne by auto. reflexivity.
  - destruct A as (p & Hp). unfold full in Hp. rewrite (h_val_ok s y (At p)) by (auto; discriminate). cbn [bind].
    destruct (inc_ok (cells s) _ p (proj1 (inv_invc _ _) I)) as (c & -> & Ic); [eapply count_pos; eauto|]. cbn [bind].
    eexists. split; [reflexivity|]. cbn [cells vars]. apply inv_invc. eapply invc_ext; [|exact Ic]. intros q. now rewrite count_snoc.
  - destruct A as (v & Hv & Hg). rewrite (h_val_ok s y v) by auto. cbn [bind]. eexists. split; [reflexivity|]. cbn [cells vars].
    apply inv_invc. eapply invc_ext; [|exact I]. intros q. cbn beta. rewrite count_snoc. pose proof (count_upd q y v Null _ Hv). cbn [ind] in *. lia.
  - destruct A as (v & Hv & Hg). rewrite (h_val_ok s x v) by auto. cbn [bind].
    destruct (dec_ok (cells s) _ v (proj1 (inv_invc _ _) I)) as (c & -> & Ic); [intros p ->; eapply count_pos; eauto|]. cbn [bind].
    eexists. split; [reflexivity|]. cbn [cells vars]. apply inv_invc. eapply invc_ext; [|exact Ic]. intros q. cbn beta.
    pose proof (count_upd q x v Gone _ Hv). cbn [ind] in *. lia.
  - destruct A as ((v & Hv & Hg) & p & Hp & Hxy). unfold full in Hp. rewrite (h_val_ok s x v) by auto. cbn [bind].
    rewrite (h_val_ok s y (At p)) by (auto; discriminate). cbn [bind].
    destruct (dec_ok (cells s) _ v (proj1 (inv_invc _ _) I)) as (c & -> & Ic); [intros r ->; eapply count_pos; eauto|]. cbn [bind].
    destruct (inc_ok c _ p Ic) as (c' & -> & Ic').
    { cbn beta. destruct (Nat.eq_dec x y) as [->|Hn].
      - assert (v = At p) by congruence. subst v. rewrite ind_at. specialize (Hxy eq_refl). lia.
      - destruct v as [| |r]; cbn [ind]; try (rewrite Nat.sub_0_r; eapply count_pos; eauto).
        destruct (r =? p) eqn:Er; [|rewrite Nat.sub_0_r; eapply count_pos; eauto]. apply Nat.eqb_eq in Er. subst r.
        pose proof (count_upd p x (At p) Null _ Hv). rewrite ind_at in H. cbn in H.
        assert (0 < count p (upd (vars s) x Null)); [|lia]. eapply (count_pos p y). rewrite nth_error_upd.
        assert (E : y =? x = false) by (apply Nat.eqb_neq; auto). now rewrite E. }
    cbn [bind]. eexists. split; [reflexivity|]. cbn [cells vars]. apply inv_invc. eapply invc_ext; [|exact Ic']. intros q. cbn beta.
    pose proof (count_upd q x v (At p) _ Hv). assert (ind q v <= count q (vars s)); [|lia].
    pose proof (count_upd q x v Null _ Hv). cbn in H0. lia.
  - destruct A as ((v & Hv & Hg) & (w & Hw & Hg')). rewrite (h_val_ok s x v) by auto. cbn [bind]. rewrite (h_val_ok s y w) by auto. cbn [bind].
    destruct (dec_ok (cells s) _ v (proj1 (inv_invc _ _) I)) as (c & -> & Ic); [intros r ->; eapply count_pos; eauto|]. cbn [bind].
    eexists. split; [reflexivity|]. cbn [cells vars]. apply inv_invc. eapply invc_ext; [|exact Ic]. intros q. cbn beta.
    pose proof (count_upd q x v w _ Hv) as E1.
    assert (Hy : nth_error (upd (vars s) x w) y = Some w).
    { rewrite nth_error_upd. destruct (y =? x) eqn:E; cbn [andb]; auto. apply Nat.eqb_eq in E. subst y.
      assert (L : x < length (vars s)) by (apply nth_error_Some; congruence). apply Nat.ltb_lt in L. now rewrite L. }
    pose proof (count_upd q y w Null _ Hy) as E2. cbn [ind] in E2. lia.
  - destruct A as (p & d & m & Hp & Hd & Hf & Hm). unfold full in Hp. rewrite (h_val_ok s x (At p)) by (auto; discriminate). cbn [bind].
    rewrite Hd. cbn [bind]. rewrite Hf. cbn [bind]. unfold store. rewrite Hd. cbn [bind]. eexists. split; [reflexivity|]. cbn [cells vars].
    assert (L := deref_lt _ _ _ Hd). intros q. rewrite nth_error_upd. apply Nat.ltb_lt in L. rewrite L, andb_true_r. specialize (I q).
    destruct (q =? p) eqn:Eq; auto. apply Nat.eqb_eq in Eq. subst q. unfold deref in Hd. destruct (nth_error (cells s) p) as [[d'|]|]; inversion Hd; subst d'.
    destruct I as (A & B & C). cbn [fst snd]. auto.
Qed.
Lemma reach_inv (s : hst) : reachable s -> inv (cells s) (vars s).
Proof.
  intros R. induction R as [|s o s' R IH A E].
  - intros p. cbn. now destruct p.
  - destruct (step_ok o s IH A) as (s2 & E2 & I). assert (s2 = s') by congruence. subst s2. exact I.
Qed.
Theorem handles_safe (s : hst) o : reachable s -> allowed o s -> exists s', h_step o s = Ok s' /\ reachable s'.
Proof. intros R A. destruct (step_ok o s (reach_inv s R) A) as (s' & E & _). exists s'. split; auto. eapply r_step; eauto. Qed.
(** A PrivateData object is alive exactly while a handle points to it, and counts the handles. *)
Theorem handles_refs (s : hst) : reachable s -> forall p,
  (0 < count p (vars s) <-> exists d, deref (cells s) p = Ok d) /\
  (forall d, deref (cells s) p = Ok d -> fst d = count p (vars s) /\ owning (snd d)).
Proof.
  intros R p. pose proof (reach_inv s R p) as I. unfold deref. destruct (nth_error (cells s) p) as [[d|]|].
  - destruct I as (A & B & C). split; [split; eauto; intros; lia|]. intros d' E. inversion E; subst d'. auto.
  - rewrite I. split; [split; [lia|intros (d & E); discriminate]|]. intros d E; discriminate.
  - rewrite I. split; [split; [lia|intros (d & E); discriminate]|]. intros d E; discriminate.
Qed.
(** Once deleted, a PrivateData object is never touched again, and no new handle to it appears. *)
Lemma step_none o (s s' : hst) p : h_step o s = Ok s' -> nth_error (cells s) p = Some None -> nth_error (cells s') p = Some None.
Proof.
  assert (St : forall (c c' : list (option (nat * mst N))) q d, store c q d = Ok c' -> nth_error c p = Some None -> nth_error c' p = Some None).
  { intros c c' q d. unfold store. destruct (deref c q) eqn:E; cbn; try discriminate. intros X Hp. inversion X; subst c'. rewrite nth_error_upd.
    destruct (p =? q) eqn:Eq; cbn [andb]; auto. apply Nat.eqb_eq in Eq. subst q. unfold deref in E. rewrite Hp in E. discriminate. }
  assert (Fr : forall (c c' : list (option (nat * mst N))) q, free c q = Ok c' -> nth_error c p = Some None -> nth_error c' p = Some None).
  { intros c c' q. unfold free. destruct (deref c q) eqn:E; cbn; try discriminate. intros X Hp. inversion X; subst c'. rewrite nth_error_upd.
    destruct (p =? q) eqn:Eq; cbn [andb]; auto. apply Nat.eqb_eq in Eq. subst q. unfold deref in E. rewrite Hp in E. discriminate. }
  assert (Inc : forall (c c' : list (option (nat * mst N))) v, h_inc c v = Ok c' -> nth_error c p = Some None -> nth_error c' p = Some None).
  { intros c c' [| |q]; cbn; try discriminate. destruct (deref c q); cbn; try discriminate. apply St. }
  assert (Dec : forall (c c' : list (option (nat * mst N))) v, h_dec c v = Ok c' -> nth_error c p = Some None -> nth_error c' p = Some None).
  { intros c c' [| |q]; cbn [h_dec]; try congruence. destruct (deref c q); cbn [bind]; try discriminate. unfold assert_. destruct (0 <? fst a); cbn [bind]; try discriminate.
    destruct (fst a - 1 =? 0); [destruct (m_clear (snd a)); cbn [bind]; try discriminate; apply Fr|apply St]. }
  destruct o as [|y|y|x|x y|x y|x f]; cbn [h_step].
  - intros E Hp. inversion E; subst s'. cbn [cells]. rewrite nth_error_app1; auto. apply nth_error_Some. congruence.
  - destruct (h_val s y) as [v| | | | |]; cbn [bind]; try discriminate. destruct (h_inc (cells s) v) eqn:Ei; cbn [bind]; try discriminate.
    intros E Hp. inversion E; subst s'. cbn [cells]. eapply Inc; eauto.
  - destruct (h_val s y) as [v| | | | |]; cbn [bind]; try discriminate. intros E Hp. inversion E; subst s'. auto.
  - destruct (h_val s x) as [v| | | | |]; cbn [bind]; try discriminate. destruct (h_dec (cells s) v) eqn:Ei; cbn [bind]; try discriminate.
    intros E Hp. inversion E; subst s'. cbn [cells]. eapply Dec; eauto.
  - destruct (h_val s x) as [v| | | | |]; cbn [bind]; try discriminate. destruct (h_val s y) as [w| | | | |]; cbn [bind]; try discriminate.
    destruct (h_dec (cells s) v) eqn:Ei; cbn [bind]; try discriminate. destruct (h_inc a w) eqn:Ej; cbn [bind]; try discriminate.
    intros E Hp. inversion E; subst s'. cbn [cells]. eapply Inc; eauto.
  - destruct (h_val s x) as [v| | | | |]; cbn [bind]; try discriminate. destruct (h_val s y) as [w| | | | |]; cbn [bind]; try discriminate.
    destruct (h_dec (cells s) v) eqn:Ei; cbn [bind]; try discriminate. intros E Hp. inversion E; subst s'. cbn [cells]. eapply Dec; eauto.
  - destruct (h_val s x) as [[| |q]| | | | |]; cbn [bind]; try discriminate. destruct (deref (cells s) q); cbn [bind]; try discriminate.
    destruct (f (snd a)); cbn [bind]; try discriminate. destruct (store _ _ _) eqn:Es; cbn [bind]; try discriminate.
    intros E Hp. inversion E; subst s'. cbn [cells]. eapply St; eauto.
Qed.
(** Everything not allowed (apart from bad member functions) is undefined behaviour. *)
Theorem handles_exact (s : hst) o : reachable s -> (forall x f, o <> HUse x f) -> ~ allowed o s -> h_step o s = UB.
Proof.
  intros R Ho A. pose proof (reach_inv s R) as I.
  assert (V : forall x, ~ live s x -> h_val s x = UB).
  { intros x Hx. unfold h_val. destruct (nth_error (vars s) x) as [v|] eqn:E; auto. destruct v; auto; destruct Hx; eexists; (split; [exact E|discriminate]). }
  assert (L : forall x, {v | nth_error (vars s) x = Some v /\ v <> Gone} + {~ live s x}).
  { intros x. destruct (nth_error (vars s) x) as [v|] eqn:E.
    - destruct v; [right; intros (w & Hw & Hg); congruence|left; eexists; split; [reflexivity|discriminate]..].
    - right; intros (w & Hw & Hg); congruence. }
  destruct o as [|y|y|x|x y|x y|x f]; cbn [h_step allowed] in *.
  - destruct A; auto.
  - destruct (L y) as [(v & Hv & Hg)|Hn]; [|rewrite V by auto; reflexivity]. rewrite (h_val_ok s y v) by auto. cbn [bind].
    destruct v as [| |p]; try congruence; [reflexivity|]. destruct A. now exists p.
  - rewrite V by auto. reflexivity.
  - rewrite V by auto. reflexivity.
  - destruct (L x) as [(v & Hv & Hg)|Hn]; [|rewrite V by auto; reflexivity]. rewrite (h_val_ok s x v) by auto. cbn [bind].
    destruct (L y) as [(w & Hw & Hg')|Hn]; [|rewrite V by auto; reflexivity]. rewrite (h_val_ok s y w) by auto. cbn [bind].
    destruct (dec_ok (cells s) _ v (proj1 (inv_invc _ _) I)) as (c & E & Ic); [intros r ->; eapply count_pos; eauto|]. rewrite E. cbn [bind].
    destruct w as [| |p]; try congruence; [reflexivity|].
    assert (Hxy : x = y /\ count p (vars s) <= 1).
    { destruct (Nat.eq_dec x y) as [->|Hn].
      - split; auto. destruct (le_lt_dec (count p (vars s)) 1); auto. destruct A. split; [now exists v|]. exists p. split; auto.
      - destruct A. split; [now exists v|]. exists p. split; auto. intros; congruence. }
    destruct Hxy as (-> & Hc). assert (v = At p) by congruence. subst v. specialize (Ic p). cbn beta in Ic. rewrite ind_at in Ic.
    cbn [h_inc]. unfold deref. destruct (nth_error c p) as [[d|]|]; auto. lia.
  - destruct (L x) as [(v & Hv & Hg)|Hn]; [|rewrite V by auto; reflexivity]. rewrite (h_val_ok s x v) by auto. cbn [bind].
    destruct (L y) as [(w & Hw & Hg')|Hn]; [|rewrite V by auto; reflexivity]. destruct A. split; [now exists v|now exists w].
  - destruct (Ho x f eq_refl).
Qed.
End Proofs.
