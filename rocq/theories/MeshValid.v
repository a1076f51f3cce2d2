(** Ownership is kept by the mesh operations; prepare and validate. *)
From Coq Require Import List Arith Bool Lia Ring Field.
From Verif Require Import Base BaseProofs Num OrdField Spec VectorModel DenseModel MatI LUModel UtilsSpec SimplexModel SimplexSpec SimplexProofs SimplexResult
  MeshModel MeshSpec MeshPool MeshProofs MeshResult MeshHandle MeshHandleProofs.
Import ListNotations.
Local Open Scope nat_scope.
Open Scope res_scope.

(** *** Ownership *)
Section Own.
Context {N : Num}.
Notation mst := (mst N).
Definition livep {A} (h : list (option A)) p : Prop := exists x, deref h p = Ok x.
Definition lives {A} (h h' : list (option A)) : Prop := forall p, livep h p -> livep h' p.
Lemma store_lives {A} (h h' : list (option A)) p a : store h p a = Ok h' -> lives h h'.
Proof.
  unfold store. destruct (deref h p) eqn:E; cbn; try discriminate. intros X. inversion X; subst h'. assert (L := deref_lt _ _ _ E).
  intros q (x & Hx). exists (if q =? p then a else x). rewrite deref_upd by auto. destruct (q =? p); auto.
Qed.
Lemma app_lives {A} (h : list (option A)) k : lives h (h ++ k).
Proof. intros p (x & Hx). exists x. unfold deref in *. rewrite nth_error_app1; auto. apply nth_error_Some. destruct (nth_error h p); congruence. Qed.
Lemma lives_refl {A} (h : list (option A)) : lives h h. Proof. intros p H; exact H. Qed.
Lemma lives_trans {A} (a b c : list (option A)) : lives a b -> lives b c -> lives a c. Proof. intros H G p X. auto. Qed.
Definition keeps (s s' : mst) : Prop := mV s' = mV s /\ mE s' = mE s /\ lives (hv s) (hv s') /\ lives (he s) (he s').
Lemma keeps_refl s : keeps s s. Proof. repeat split; apply lives_refl. Qed.
Lemma keeps_trans a b c : keeps a b -> keeps b c -> keeps a c.
Proof. intros (A1 & A2 & A3 & A4) (B1 & B2 & B3 & B4). repeat split; try congruence; eapply lives_trans; eauto. Qed.
Lemma keeps_owning s s' : keeps s s' -> owning s -> owning s'.
Proof.
  intros (A1 & A2 & A3 & A4) (B1 & B2 & B3 & B4). unfold owning. rewrite A1, A2. repeat split; auto.
  - intros p Hp. apply A3. exact (B3 p Hp).
  - intros p Hp. apply A4. exact (B4 p Hp).
Qed.
Ltac inv_bind H := match type of H with
  | bind ?r _ = Ok _ => let E := fresh "E" in destruct r eqn:E; cbn [bind] in H; try discriminate H
  end.
Lemma or_flags_keeps s p b i s' : or_flags s p b i = Ok s' -> keeps s s'.
Proof. unfold or_flags. intros H. inv_bind H. inv_bind H. inversion H; subst. repeat split; cbn; try apply lives_refl. eapply store_lives; eauto. Qed.
Lemma set_neighbor_lives h p i d h' : set_neighbor (N := N) h p i d = Ok h' -> lives h h'.
Proof. unfold set_neighbor. intros H. inv_bind H. inv_bind H. eapply store_lives; eauto. Qed.
Lemma push_el_lives h p e h' : push_el (N := N) h p e = Ok h' -> lives h h'.
Proof. unfold push_el. intros H. inv_bind H. eapply store_lives; eauto. Qed.
Lemma foreach_keeps {X} (l : list X) f : (forall x s s', f x s = Ok s' -> keeps s s') -> forall s s', foreach l f s = Ok s' -> keeps s s'.
Proof.
  intros Hf. induction l as [|x l IH]; intros s s'; cbn [foreach]; intros H.
  - inversion H; subst. apply keeps_refl.
  - inv_bind H. eapply keeps_trans; [eapply Hf; eauto|eauto].
Qed.
Lemma for_keeps lo hi f : (forall i s s', f i s = Ok s' -> keeps s s') -> forall s s', for_ lo hi f s = Ok s' -> keeps s s'.
Proof.
  intros Hf. unfold for_. generalize (hi - lo) as n. intros n. revert lo. induction n as [|n IH]; intros lo s s'; cbn [for_n]; intros H.
  - inversion H; subst. apply keeps_refl.
  - inv_bind H. eapply keeps_trans; [eapply Hf; eauto|eauto].
Qed.
Lemma face_keeps p i s s' : sn_face p i s = Ok s' -> keeps s s'.
Proof.
  unfold sn_face. intros H. inv_bind H. inv_bind H. destruct a0; [inversion H; subst; apply keeps_refl|]. inv_bind H.
  destruct (negb (length a0 =? 2)); [discriminate|]. inv_bind H. cbn [he hv set_he] in H. inv_bind H. inv_bind H. inversion H; subst.
  repeat split; cbn; try apply lives_refl. eapply lives_trans; [eapply set_neighbor_lives; eauto|].
  destruct a2 as [f|]; [|inversion E4; subst; apply lives_refl]. inv_bind E4.
  destruct (sn_opposite a0 (me_v a2) 0); [eapply set_neighbor_lives; eauto|inversion E4; subst; apply lives_refl].
Qed.
Lemma setup_keeps s s' : m_setupNeighbors s = Ok s' -> keeps s s'.
Proof. apply foreach_keeps. intros p. apply for_keeps. intros i. apply face_keeps. Qed.
Lemma boundaries_keeps s s' : m_setupBoundaries s = Ok s' -> keeps s s'.
Proof.
  apply foreach_keeps. intros d t t' H. inv_bind H.
  assert (K : for_ 0 2 (fun i s0 => let* v := vget (ed_v a) i in match v with None => Abort | Some v => or_flags s0 v true false end) t = Ok t' -> keeps t t').
  { apply for_keeps. intros i u u' Hu. inv_bind Hu. destruct a0; [|discriminate]. eapply or_flags_keeps; eauto. }
  destruct (ed_e0 a); [destruct (ed_e1 a)|]; auto. inversion H; subst. apply keeps_refl.
Qed.
Lemma prepare_keeps s s' : m_prepare s = Ok s' -> keeps s s'.
Proof.
  apply foreach_keeps. intros p t t' H. inv_bind H. inv_bind H. inv_bind H. inversion H; subst. repeat split; cbn; try apply lives_refl.
  eapply store_lives; eauto.
Qed.
Lemma owning_addVertex (s s' : mst) pos : do_op (AddVertex pos) s = Ok s' -> owning s -> owning s'.
Proof.
  unfold do_op, new_vertex, m_addVertex, set_hv. cbn [hv he hd mV mE mD]. intros H (A & B & C & D). inv_bind H. inv_bind H. inversion H; subst. unfold owning. cbn [mV mE hv he].
  assert (Nin : ~ In (length (hv s)) (mV s)) by (intros X; destruct (C _ X) as (x & Hx); apply deref_lt in Hx; lia).
  repeat split; auto.
  - rewrite <- (rev_involutive (mV s ++ _)). apply NoDup_rev. rewrite rev_app_distr. cbn. constructor; [|now apply NoDup_rev]. now rewrite <- in_rev.
  - intros p Hp. apply (store_lives _ _ _ _ E0). apply in_app_iff in Hp as [Hp|[<-|[]]].
    + apply app_lives. exact (C p Hp).
    + exists (mk_vertex pos). unfold deref. rewrite nth_error_app2, Nat.sub_diag by lia. reflexivity.
Qed.
Lemma owning_addElement (s s' : mst) a b c : do_op (AddElement a b c) s = Ok s' -> owning s -> owning s'.
Proof.
  unfold do_op. intros H O. inv_bind H. inv_bind H. inv_bind H. unfold new_element, m_addElement, set_he in H. cbn [hv he hd mV mE mD] in H.
  assert (K : keeps (mkM (hv s) (he s ++ [Some (mk_element [Some a0; Some a1; Some a2])]) (hd s) (mV s) (mE s ++ [length (he s)]) (mD s)) s').
  { revert H. apply for_keeps. intros i t t' H. inv_bind H. inv_bind H. inv_bind H. inv_bind H. inv_bind H. inv_bind H. inv_bind H. inversion H; subst.
    repeat split; cbn; [eapply push_el_lives|eapply store_lives]; eauto. }
  eapply keeps_owning; [exact K|]. destruct O as (A & B & C & D). unfold owning. cbn [mV mE hv he].
  assert (Nin : ~ In (length (he s)) (mE s)) by (intros X; destruct (D _ X) as (x & Hx); apply deref_lt in Hx; lia).
  repeat split; auto.
  - rewrite <- (rev_involutive (mE s ++ _)). apply NoDup_rev. rewrite rev_app_distr. cbn. constructor; [|now apply NoDup_rev]. now rewrite <- in_rev.
  - intros p Hp. apply in_app_iff in Hp as [Hp|[<-|[]]].
    + apply app_lives. exact (D p Hp).
    + exists (mk_element [Some a0; Some a1; Some a2]). unfold deref. rewrite nth_error_app2, Nat.sub_diag by lia. reflexivity.
Qed.
Lemma owning_op o (s s' : mst) : do_op o s = Ok s' -> owning s -> owning s'.
Proof.
  destruct o as [pos|i|a b c]; intros H O; [eapply owning_addVertex; eauto| |eapply owning_addElement; eauto].
  cbn in H. inv_bind H. eapply keeps_owning; [eapply or_flags_keeps; eauto|auto].
Qed.
(** Every member function keeps the mesh the owner of its objects. *)
Theorem owning_kept (f : mst -> res mst) :
  (exists o, f = do_op o) \/ f = m_setupNeighbors \/ f = m_setupBoundaries \/ f = m_prepare \/ f = m_clear ->
  forall s s', owning s -> f s = Ok s' -> owning s'.
Proof.
  intros [(o & ->)|[->|[->|[->| ->]]]] s s' O H.
  - eapply owning_op; eauto.
  - eapply keeps_owning; [eapply setup_keeps; eauto|auto].
  - eapply keeps_owning; [eapply boundaries_keeps; eauto|auto].
  - eapply keeps_owning; [eapply prepare_keeps; eauto|auto].
  - unfold m_clear in H. inv_bind H. inv_bind H. inversion H; subst. repeat split; try constructor; intros p [].
Qed.
End Own.

(** *** prepare and validate *)
Section Valid.
Context {N : Num} (HO : OrdFieldLaws N) (HN : NatLaws N).
Let HF : FieldLaws N := of_field N HO.
Add Field vldfld : (fl_field N HF).
Notation mst := (mst N).
Lemma points_len (ops : list (mop N)) : forall n, valid n ops -> forall p, In p (points ops) -> length p = 2.
Proof.
  induction ops as [|[pos|i|a b c] ops IH]; intros n H p Hp; cbn in *; [contradiction| | |].
  - destruct H as (H1 & H2). destruct Hp as [<-|Hp]; eauto.
  - destruct H; eauto.
  - destruct H as (_ & _ & H); eauto.
Qed.
Section St.
Variables (V : list (list N)) (F : nat -> bool) (T : list (list nat)).
Hypothesis HT : okT (length V) T.
Hypothesis HV : forall p, In p V -> length p = 2.
Notation m := (length T).
Notation tr e := (nth e T []).
Notation cn e := (corner V T e).
Lemma tripleT e : e < m -> triple (tr e).
Proof. intros H. destruct (HT (tr e)) as (A & B & _); [now apply nth_In|]. split; auto. Qed.
Lemma vert2 e i : e < m -> i < 3 -> nth (nth i (tr e) 0) V [] = [cn e i 0; cn e i 1].
Proof.
  intros He Hi. destruct (HT (tr e)) as (A & B & C); [now apply nth_In|]. unfold corner.
  assert (L : length (nth (nth i (tr e) 0) V []) = 2) by (apply HV, nth_In, C, nth_In; lia).
  destruct (nth (nth i (tr e) 0) V []) as [|x [|y [|]]]; try discriminate. reflexivity.
Qed.
Lemma fresh_corners e : e < m -> corners (fresh_sx V T e) (cn e).
Proof.
  intros He. unfold fresh_sx. destruct (triple_abc _ (tripleT e He)) as (a & b & c & Et & _).
  pose proof (vert2 e 0 He ltac:(lia)) as H0. pose proof (vert2 e 1 He ltac:(lia)) as H1. pose proof (vert2 e 2 He ltac:(lia)) as H2.
  rewrite Et in *. cbn [nth map] in *. rewrite H0, H1, H2. split.
  - eapply (sm_put _ 2 [cn e 2 0; cn e 2 1]); [|reflexivity|]; [eapply (sm_put _ 1 [cn e 1 0; cn e 1 1]); [|reflexivity|]; [eapply (sm_put _ 0 [cn e 0 0; cn e 0 1]); [apply sm_new|reflexivity|]|]|]; reflexivity.
  - intros [|[|[|]]] Hi; try lia; reflexivity.
Qed.
Definition state fs nb nd xs o q := net (N := N) (length V) (vtx V F T) fs T nb nd xs o q.
Lemma prepare_state fs nb nd xs o q : (forall e, e < m -> corners (fs e) (cn e)) ->
  m_prepare (state fs nb nd xs o q) = Ok (state (fun e => prep (cn e)) nb nd xs o q).
Proof.
  intros Hc. unfold m_prepare. cbn [state net mE].
  assert (K : forall j k fs, k + j = m -> (forall e, e < m -> corners (fs e) (cn e)) -> (forall e, e < k -> fs e = prep (cn e)) ->
    foreach (seq k j) (fun p s => let* e := deref (he s) p in let* x := sx_prepare (me_sx e) in
       let* g := store (he s) p (mkME x (me_v e) (me_n e) (me_dof e)) in Ok (set_he s g)) (state fs nb nd xs o q) = Ok (state (fun e => prep (cn e)) nb nd xs o q)).
  { induction j as [|j IH]; intros k gs Hk Hg Hd; cbn [seq foreach].
    - f_equal. unfold state, net. f_equal. apply pool_ext. intros e He. unfold nelt. rewrite Hd by lia. reflexivity.
    - cbn [state net he]. rewrite deref_pool by lia. cbn [bind nelt me_sx]. rewrite (prepare_is HO _ (cn k)) by (apply Hg; lia). cbn [bind].
      rewrite store_pool by lia. cbn [bind]. 
      assert (X : set_he (state gs nb nd xs o q) (pool m (fup (nelt gs T nb) k {| me_sx := prep (cn k); me_v := me_v (nelt gs T nb k); me_n := me_n (nelt gs T nb k); me_dof := me_dof (nelt gs T nb k) |}))
        = state (fup gs k (prep (cn k))) nb nd xs o q).
      { unfold state, net, set_he. cbn. f_equal. apply pool_ext. intros e He. unfold nelt. cbn. destruct (Nat.eq_dec e k) as [->|Hn]; [now rewrite !fup_eq|now rewrite !fup_ne]. }
      change (foreach (seq (S k) j) (fun p s => let* e := deref (he s) p in let* x := sx_prepare (me_sx e) in
         let* g := store (he s) p (mkME x (me_v e) (me_n e) (me_dof e)) in Ok (set_he s g))
        (set_he (state gs nb nd xs o q) (pool m (fup (nelt gs T nb) k {| me_sx := prep (cn k); me_v := me_v (nelt gs T nb k); me_n := me_n (nelt gs T nb k); me_dof := me_dof (nelt gs T nb k) |})))
        = Ok (state (fun e => prep (cn e)) nb nd xs o q)).
      rewrite X. apply IH; [lia| |].
      + intros e He. destruct (Nat.eq_dec e k) as [->|Hn]; [rewrite fup_eq; eapply prep_made; eauto|rewrite fup_ne by auto; auto].
      + intros e He. destruct (Nat.eq_dec e k) as [->|Hn]; [now rewrite fup_eq|rewrite fup_ne by auto; apply Hd; lia]. }
  apply (K m 0 fs); auto. intros; lia.
Qed.
Lemma thin_volume e : e < m -> exists v, sx_volume (prep (cn e)) = Ok v /\ nleb (nabs v) neps = thin (cn e).
Proof.
  intros He. pose proof (fresh_corners e He) as C. pose proof (volume_ok HO HN _ _ _ C (prepare_is HO _ _ C)) as E.
  eexists. split; [exact E|]. unfold thin. destruct (flat (cn e)); cbn [orb].
  - rewrite (proj2 (oabs_0_iff HO n0) eq_refl). apply (of_eps N HO).
  - rewrite (of_abs_pos N HO); auto. pose proof (two_nz HO) as H2. replace (nabs (area2 (cn e)) / (n1 + n1))%num with (nabs (area2 (cn e)) * (n1 / (n1 + n1)))%num by (field; auto).
    apply (ole_0_mul HO); [apply (oabs_nonneg HO)|]. apply (olt_le HO), (olt_0_inv HO), (olt_0_add HO); [|apply (olt_le HO)]; apply (olt_0_1 HO).
Qed.

Lemma nth_map_some l i : i < length l -> vget (map Some l) i = Ok (Some (nth i l 0)).
Proof. intros H. rewrite (vget_ok _ _ None) by now rewrite map_length. now rewrite (nth_indep _ None (Some 0)) by (rewrite map_length; auto); rewrite map_nth. Qed.
Lemma dist_same (a b : N) : (let* d := v_sub [a; b] [a; b] in v_magSqr d) = Ok n0.
Proof.
  change (Ok (n0 + (a - a) * (a - a) + (b - b) * (b - b))%num = Ok n0). f_equal. ring.
Qed.
Lemma eps_ok : nltb neps (nabs (@n0 N)) = false.
Proof. rewrite (proj2 (oabs_0_iff HO n0) eq_refl). apply (onlt_le HO). apply (of_eps N HO). Qed.
Lemma element_valid nb nd xs o q e : e < m -> length (nb e) = 3 ->
  vl_element (state (fun e => prep (cn e)) nb nd xs o q) e =
  if thin (cn e) then Throw ZeroVolumeSimplex
  else for_ 0 3 (fun i _ => let* n := vget (nb e) i in match n with None => Throw MalformedElementNeighborConnection | Some _ => Ok tt end) tt.
Proof.
  intros He Hl. unfold vl_element. cbn [state net he]. rewrite deref_pool by auto. cbn [bind nelt me_v me_sx me_n].
  assert (Lt : length (tr e) = 3) by apply (tripleT e He).
  assert (X : for_ 0 3 (fun i _ => let* q0 := vget (map Some (tr e)) i in
      match q0 with None => Throw IncompleteElement | Some q1 => let* a := sx_get (prep (cn e)) i in let* v := deref (pool (length V) (vtx V F T)) q1 in
        let* d := v_sub a (mv_pos v) in let* m0 := v_magSqr d in if nltb neps (nabs m0) then Throw IncompleteElement else Ok tt end) tt = Ok tt).
  { assert (Y : forall i (u : unit), i < 3 -> (let* q0 := vget (map Some (tr e)) i in
      match q0 with None => Throw IncompleteElement | Some q1 => let* a := sx_get (prep (cn e)) i in let* v := deref (pool (length V) (vtx V F T)) q1 in
        let* d := v_sub a (mv_pos v) in let* m0 := v_magSqr d in if nltb neps (nabs m0) then Throw IncompleteElement else Ok u end) = Ok u).
    { intros i u Hi. rewrite nth_map_some by lia. cbn [bind].
      assert (G : sx_get (prep (cn e)) i = Ok [cn e i 0; cn e i 1]) by (destruct i as [|[|[|]]]; try lia; reflexivity).
      rewrite G. cbn [bind]. destruct (HT (tr e)) as (A & B & C); [now apply nth_In|].
      rewrite deref_pool by (apply C, nth_In; lia). cbn [bind vtx mv_pos]. rewrite vert2 by auto.
      pose proof (dist_same (cn e i 0) (cn e i 1)) as D. destruct (v_sub _ _); cbn [bind] in D |- *; try discriminate. rewrite D. cbn [bind].
      now rewrite eps_ok. }
    change (for_ 0 3) with (@for_n unit 3 0). cbn [for_n]. rewrite !Y by lia. reflexivity. }
  etransitivity; [refine (f_equal (fun r => bind r _) (X : for_ 0 3 _ tt = _))|]. cbn [bind]. destruct (thin_volume e He) as (v & Ev & Et). rewrite Ev. cbn [bind]. rewrite Et. reflexivity.
Qed.
Lemma vertex_valid fs nb nd xs o q k : k < length V ->
  (isolated T k -> vl_vertex (state fs nb nd xs o q) k k = Throw IsolatedVertex) /\
  (~ isolated T k -> vl_vertex (state fs nb nd xs o q) k k = Ok tt).
Proof.
  intros Hk. unfold vl_vertex. cbn [state net hv he]. rewrite deref_pool by auto. cbn [bind vtx mv_gi mv_el]. rewrite Nat.eqb_refl. cbn [negb].
  assert (O : isolated T k <-> owners T k = []).
  { unfold isolated. split.
    - intros H. destruct (owners T k) as [|e l] eqn:E; auto. assert (X : In e (owners T k)) by (rewrite E; now left). apply owners_in in X as (A & B). destruct (H e A B).
    - intros H e He Hi. assert (X : In e (owners T k)) by (apply owners_in; auto). rewrite H in X. destruct X. }
  split; intros H.
  - apply O in H. rewrite H. reflexivity.
  - destruct (length (owners T k) =? 0) eqn:E; [exfalso; apply Nat.eqb_eq in E; apply H, O, length_zero_iff_nil; auto|].
    assert (K : forall l, (forall e, In e l -> e < m /\ In k (tr e)) -> foreach l (fun e _ => let* e0 := deref (pool m (nelt fs T nb)) e in
       if negb (if length (me_dof e0) =? 0 then existsb (fun x => peqb x (Some k)) (me_v e0) else existsb (fun x => peqb x (Some k)) (me_dof e0)) then Throw MalformedVertexElementConnection else Ok tt) tt = Ok tt).
    { induction l as [|e l IH]; intros Hl; cbn [foreach]; auto. destruct (Hl e (or_introl eq_refl)) as (He & Hi). rewrite deref_pool by auto. cbn [bind nelt me_dof me_v length Nat.eqb].
      assert (X : existsb (fun x => peqb x (Some k)) (map Some (tr e)) = true).
      { apply existsb_exists. exists (Some k). split; [now apply in_map|]. cbn. apply Nat.eqb_refl. }
      rewrite X. cbn [negb bind]. apply IH. intros; apply Hl; now right. }
    apply K. intros e He. now apply owners_in.
Qed.
Lemma isolated_dec k : {isolated T k} + {~ isolated T k}.
Proof.
  unfold isolated. destruct (owners T k) as [|e l] eqn:E; [left|right].
  - intros e He Hi. assert (X : In e (owners T k)) by (apply owners_in; auto). rewrite E in X. destruct X.
  - intros H. assert (X : In e (owners T k)) by (rewrite E; now left). apply owners_in in X as (A & B). destruct (H e A B).
Qed.
Lemma validate_state nb nd xs o q : (forall e, e < m -> length (nb e) = 3) -> (forall e i, e < m -> i < 3 -> setp nb e i) ->
  ((exists k, k < length V /\ isolated T k) -> m_validate (state (fun e => prep (cn e)) nb nd xs o q) = Throw IsolatedVertex) /\
  ((forall k, k < length V -> ~ isolated T k) -> (exists e, e < m /\ thin (cn e) = true) -> m_validate (state (fun e => prep (cn e)) nb nd xs o q) = Throw ZeroVolumeSimplex) /\
  ((forall k, k < length V -> ~ isolated T k) -> (forall e, e < m -> thin (cn e) = false) -> m_validate (state (fun e => prep (cn e)) nb nd xs o q) = Ok tt).
Proof.
  intros Hl Hs. unfold m_validate. set (s := state (fun e => prep (cn e)) nb nd xs o q). change (mV s) with (seq 0 (length V)). change (mE s) with (seq 0 m).
  assert (VV : forall k, k < length V -> (isolated T k -> vl_vertex s k k = Throw IsolatedVertex) /\ (~ isolated T k -> vl_vertex s k k = Ok tt)) by (intros; now apply vertex_valid).
  pose proof (element_valid nb nd xs o q) as EV. fold s in EV.
  assert (A : forall j k, k + j = length V -> (forall i, k <= i < length V -> ~ isolated T i) ->
     foreach (seq k j) (fun p id => let* _ := vl_vertex s p id in Ok (S id)) k = Ok (length V)).
  { induction j as [|j IH]; intros k Hk Hi; cbn [seq foreach]; [f_equal; lia|].
    rewrite (proj2 (VV k ltac:(lia))) by (apply Hi; lia). cbn [bind]. apply IH; [lia|]. intros; apply Hi; lia. }
  assert (B : forall j k, k + j = length V -> (exists i, k <= i < length V /\ isolated T i) ->
     foreach (seq k j) (fun p id => let* _ := vl_vertex s p id in Ok (S id)) k = Throw IsolatedVertex).
  { induction j as [|j IH]; intros k Hk (i & Hi & Hiso); [lia|]. cbn [seq foreach].
    destruct (isolated_dec k) as [I|I].
    - rewrite (proj1 (VV k ltac:(lia)) I). reflexivity.
    - rewrite (proj2 (VV k ltac:(lia)) I). cbn [bind]. apply IH; [lia|]. exists i. split; auto.
      destruct (Nat.eq_dec i k) as [->|]; [contradiction|lia]. }
  assert (NB : forall e, e < m -> for_ 0 3 (fun i _ => let* n := vget (nb e) i in match n with None => Throw MalformedElementNeighborConnection | Some _ => Ok tt end) tt = Ok tt).
  { intros e He. assert (Y : forall i (u : unit), i < 3 -> (let* n := vget (nb e) i in match n with None => Throw MalformedElementNeighborConnection | Some _ => Ok u end) = Ok u).
    { intros i u Hi. destruct (Hs e i He Hi) as (d & Hd). unfold vget. rewrite Hd. reflexivity. }
    change (for_ 0 3) with (@for_n unit 3 0). cbn [for_n]. rewrite !Y by lia. reflexivity. }
  split; [|split].
  - intros (k & Hk & I). rewrite (B (length V) 0 eq_refl) by (exists k; split; [lia|auto]). reflexivity.
  - intros Hi He. rewrite (A (length V) 0 eq_refl) by (intros; apply Hi; lia). cbn [bind].
    assert (K : forall j k, k + j = m -> (exists e, k <= e < m /\ thin (cn e) = true) -> foreach (seq k j) (fun p _ => vl_element s p) tt = Throw ZeroVolumeSimplex).
    { induction j as [|j IH]; intros k Hk (e & Hle & Ht); [lia|]. cbn [seq foreach]. rewrite (EV k) by (try apply Hl; lia). destruct (thin (cn k)) eqn:Etk; [reflexivity|]. rewrite NB by lia. cbn [bind]. apply IH; [lia|].
      exists e. split; auto. destruct (Nat.eq_dec e k) as [->|]; [congruence|lia]. }
    apply (K m 0); [lia|]. destruct He as (e & He & Ht). exists e. split; [lia|auto].
  - intros Hi He. rewrite (A (length V) 0 eq_refl) by (intros; apply Hi; lia). cbn [bind].
    assert (K : forall j k, k + j = m -> foreach (seq k j) (fun p _ => vl_element s p) tt = Ok tt).
    { induction j as [|j IH]; intros k Hk; [reflexivity|]. cbn [seq foreach]. rewrite (EV k) by (try apply Hl; lia). rewrite He by lia. rewrite NB by lia. cbn [bind]. apply IH; lia. }
    apply (K m 0). lia.
Qed.
End St.

(** validate() on a mesh that was built, connected and prepared. *)
Theorem validate_ok (ops : list (mop N)) s s' : valid 0 ops ->
  (let* s := build ops in m_setupNeighbors s) = Ok s -> m_prepare s = Ok s' ->
  ((exists k, k < length (points ops) /\ isolated (tris ops) k) -> m_validate s' = Throw IsolatedVertex) /\
  ((forall k, k < length (points ops) -> ~ isolated (tris ops) k) -> (exists e, e < length (tris ops) /\ thin (corner (points ops) (tris ops) e) = true) -> m_validate s' = Throw ZeroVolumeSimplex) /\
  ((forall k, k < length (points ops) -> ~ isolated (tris ops) k) -> (forall e, e < length (tris ops) -> thin (corner (points ops) (tris ops) e) = false) -> m_validate s' = Ok tt).
Proof.
  intros Hv Hs Hp. destruct (build_ok ops Hv) as (E & HT). rewrite E in Hs. cbn [bind] in Hs.
  pose proof (setup_mesh (points ops) (markfn (fun _ => false) ops) (tris ops) HT) as P. rewrite Hs in P. cbn [post] in P.
  destruct P as (nb & nd & xs & o & q & -> & G & H).
  assert (HV := points_len ops 0 Hv).
  pose proof (prepare_state (points ops) (markfn (fun _ => false) ops) (tris ops) (fresh_sx (points ops) (tris ops)) nb nd xs o q ltac:(intros; now apply fresh_corners)) as PS.
  unfold state in PS at 1. rewrite PS in Hp. inversion Hp; subst s'. apply validate_state; auto. apply G.
Qed.
Theorem prepare_mesh_ok (ops : list (mop N)) s : valid 0 ops -> (let* s := build ops in m_setupNeighbors s) = Ok s ->
  returns (m_prepare s) (fun s' => hv s' = hv s /\ hd s' = hd s /\ mV s' = mV s /\ mE s' = mE s /\ mD s' = mD s /\
    forall e, e < length (tris ops) -> exists x x', deref (he s) e = Ok x /\ deref (he s') e = Ok x' /\ me_v x' = me_v x /\ me_n x' = me_n x /\
       me_dof x' = me_dof x /\ sx_prepare (me_sx x) = Ok (me_sx x') /\ corners (me_sx x') (corner (points ops) (tris ops) e)).
Proof.
  intros Hv Hs. destruct (build_ok ops Hv) as (E & HT). rewrite E in Hs. cbn [bind] in Hs.
  pose proof (setup_mesh (points ops) (markfn (fun _ => false) ops) (tris ops) HT) as P. rewrite Hs in P. cbn [post] in P.
  destruct P as (nb & nd & xs & o & q & -> & G & H).
  assert (HV := points_len ops 0 Hv).
  eexists. split; [apply (prepare_state (points ops) (markfn (fun _ => false) ops) (tris ops) (fresh_sx (points ops) (tris ops)) nb nd xs o q); intros; now apply fresh_corners|].
  repeat split. intros e He. cbn [state net he]. rewrite !deref_pool by auto. eexists. eexists. split; [reflexivity|]. split; [reflexivity|]. cbn [nelt me_v me_n me_dof me_sx].
  split; [reflexivity|]. split; [reflexivity|]. split; [reflexivity|]. split; [apply (prepare_is HO); now apply fresh_corners|].
  eapply (prep_made HO). apply fresh_corners; auto.
Qed.
End Valid.
