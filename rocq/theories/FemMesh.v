(** The mesh data the finite element example works with. *)
From Coq Require Import List Arith Bool ZArith Lia Ring Field.
From Verif Require Import Base BaseProofs Num OrdField UtilsModel UtilsSpec Spec SpecProofs VectorModel SimplexModel SimplexSpec SimplexProofs SimplexResult
  MeshModel MeshSpec MeshPool MeshProofs MeshResult MeshHandle MeshHandleProofs MeshValid MeshDofSpec MeshDof MeshDofResult FemModel FemSpec FemProofs.
Import ListNotations.
Local Open Scope nat_scope.
Open Scope res_scope.

Section FemM.
Context {N : Num} (HO : OrdFieldLaws N) (HN : NatLaws N).
Let HF : FieldLaws N := of_field N HO.
Lemma prepare_net nv fv fs (T : list (list nat)) nb nd xs o q (cn : nat -> nat -> nat -> N) : (forall e, e < length T -> corners (fs e) (cn e)) ->
  m_prepare (net nv fv fs T nb nd xs o q) = Ok (net nv fv (fun e => prep (cn e)) T nb nd xs o q).
Proof.
  intros Hc. unfold m_prepare. cbn [net mE].
  assert (K : forall j k fs, k + j = length T -> (forall e, e < length T -> corners (fs e) (cn e)) -> (forall e, e < k -> fs e = prep (cn e)) ->
    foreach (seq k j) (fun p s => let* e := deref (he s) p in let* x := sx_prepare (me_sx e) in
       let* g := store (he s) p (mkME x (me_v e) (me_n e) (me_dof e)) in Ok (set_he s g)) (net nv fv fs T nb nd xs o q) = Ok (net nv fv (fun e => prep (cn e)) T nb nd xs o q)).
  { induction j as [|j IH]; intros k gs Hk Hg Hd; cbn [seq foreach].
    - f_equal. unfold net. f_equal. apply pool_ext. intros e He. unfold nelt. rewrite Hd by lia. reflexivity.
    - cbn [net he]. rewrite deref_pool by lia. cbn [bind nelt me_sx]. rewrite (prepare_is HO _ (cn k)) by (apply Hg; lia). cbn [bind].
      rewrite store_pool by lia. cbn [bind].
      match goal with |- foreach _ _ ?s1 = _ => replace s1 with (net nv fv (fup gs k (prep (cn k))) T nb nd xs o q) end.
      2: { unfold net, set_he. cbn. f_equal. apply pool_ext. intros e He. unfold nelt. cbn. destruct (Nat.eq_dec e k) as [->|Hn]; [now rewrite !fup_eq|now rewrite !fup_ne]. }
      apply IH; [lia| |].
      + intros e He. destruct (Nat.eq_dec e k) as [->|Hn]; [rewrite fup_eq; eapply prep_made; eauto|rewrite fup_ne by auto; auto].
      + intros e He. destruct (Nat.eq_dec e k) as [->|Hn]; [now rewrite fup_eq|rewrite fup_ne by auto; apply Hd; lia]. }
  apply (K (length T) 0 fs); auto. intros; lia.
Qed.
(** the closed form of a ready mesh *)
Record form (P : list (list N)) (T : list (list nat)) (s : mst N) fv fs nb nd xs o q : Prop := {
  fo_net : s = net (length P) fv fs T nb nd xs o q;
  fo_graph : graph T nb nd xs o q;
  fo_set : forall e i, e < length T -> i < 3 -> setp nb e i;
  fo_pos : forall k, k < length P -> mv_pos (fv k) = nth k P [] /\ mv_gi (fv k) = k;
  fo_sx : forall e, e < length T -> corners (fs e) (corner P T e)
}.
Lemma ready_form (ops : list (mop N)) s : valid 0 ops -> ready ops s -> exists fv fs nb nd xs o q, form (points ops) (tris ops) s fv fs nb nd xs o q.
Proof.
  intros Hv R. destruct (build_ok ops Hv) as (E & HT). induction R as [s Hs|s s' R IH Hs|s s' R IH Hs].
  - rewrite E in Hs. cbn [bind] in Hs. pose proof (setup_mesh (points ops) (markfn (fun _ => false) ops) (tris ops) HT) as P. rewrite Hs in P. cbn [post] in P.
    destruct P as (nb & nd & xs & o & q & -> & G & H). do 7 eexists. split; [reflexivity|auto|auto| |].
    + intros k Hk. cbn [vtx mv_pos mv_gi]. auto.
    + intros e He. apply (fresh_corners _ _ HT (points_len ops 0 Hv) e He).
  - destruct IH as (fv & fs & nb & nd & xs & o & q & [-> G H Hp Hx]). rewrite boundaries_net in Hs by auto. inversion Hs; subst s'.
    do 7 eexists. split; [reflexivity|auto|auto| |auto]. exact Hp.
  - destruct IH as (fv & fs & nb & nd & xs & o & q & [-> G H Hp Hx]). rewrite (prepare_net _ _ _ _ _ _ _ _ _ _ Hx) in Hs. inversion Hs; subst s'.
    do 7 eexists. split; [reflexivity|auto|auto|auto|]. intros e He. eapply prep_made; eauto.
Qed.
Section Form.
Variables (P : list (list N)) (T : list (list nat)) (s : mst N).
Variables (fv : nat -> mvert N) (fs : nat -> simplex N) (nb : nat -> list (option nat)) (nd : nat) (xs : nat -> list nat) (o : nat -> nat).
Variable (q : nat -> option nat).
Hypothesis HT : okT (length P) T.
Hypothesis HP : forall p, In p P -> length p = 2.
Hypothesis HM : form P T s fv (fun e => prep (corner P T e)) nb nd xs o q.
Hypothesis Hfs : forall e, e < length T -> exists s0, corners s0 (corner P T e).
Notation np := (length P).
Notation m := (length T).
Lemma tri3 e : e < m -> exists a b c, nth e T [] = [a; b; c] /\ a <> b /\ a <> c /\ b <> c /\ a < np /\ b < np /\ c < np.
Proof.
  intros He. destruct (HT (nth e T [])) as (A & B & C); [now apply nth_In|]. destruct (triple_abc (nth e T []) (conj A B)) as (a & b & c & E & H1 & H2 & H3).
  exists a, b, c. rewrite E in C. repeat split; auto; apply C; cbn; auto.
Qed.
Lemma pos2 : forall k, k < np -> length (mv_pos (fv k)) = 2.
Proof. intros k Hk. destruct (fo_pos _ _ _ _ _ _ _ _ _ _ HM k Hk) as (-> & _). now apply HP, nth_In. Qed.
Lemma fG : graph T nb nd xs o q. Proof. apply HM. Qed.
Lemma fS : forall e i, e < m -> i < 3 -> setp nb e i. Proof. apply (fo_set _ _ _ _ _ _ _ _ _ _ HM). Qed.
Lemma set2 (l : list nat) x y a b : l = [x; y] -> x <> y -> same_set l [a; b] -> a <> b -> (a = x /\ b = y) \/ (a = y /\ b = x).
Proof.
  intros -> Hxy S1 Hab. pose proof (proj2 (S1 a) (or_introl eq_refl)) as Ia. pose proof (proj2 (S1 b) (or_intror (or_introl eq_refl))) as Ib. cbn in Ia, Ib.
  destruct Ia as [<-|[<-|[]]], Ib as [<-|[<-|[]]]; auto; congruence.
Qed.
Lemma faces_st pr e i : e < m -> i < 3 -> exists x d ed y z, let s' := MeshDof.st np fv (fun e => prep (corner P T e)) T nb nd xs o q pr in
    deref (he s') e = Ok x /\ me_v x = map Some (nth e T []) /\ nth_error (me_n x) i = Some (Some d) /\ deref (hd s') d = Ok ed /\ ed_v ed = [Some y; Some z] /\
    ((y = node T e ((i + 1) mod 3) /\ z = node T e ((i + 2) mod 3)) \/ (y = node T e ((i + 2) mod 3) /\ z = node T e ((i + 1) mod 3))).
Proof.
  intros He Hi. destruct (eg_ok T nb nd xs o q fG fS e i He Hi) as (Hd & En & Es). 
  destruct (edge_two np T nb nd xs o q HT fG (eg nb e i) Hd) as (y & z & E & _ & _ & Hyz).
  eexists. exists (eg nb e i). eexists. exists y, z. cbn [MeshDof.st he hd]. rewrite !deref_pool by auto. split; [reflexivity|]. split; [reflexivity|]. split; [exact En|]. split; [reflexivity|].
  cbn [std ed_v]. rewrite E. split; [reflexivity|].
  assert (W : same_set [y; z] [node T e ((i + 1) mod 3); node T e ((i + 2) mod 3)]).
  { rewrite <- E. eapply same_trans; [exact (proj2 Es)|]. unfold node. destruct (tri3 e He) as (a & b & c & -> & _). intros k. destruct i as [|[|[|]]]; try lia; cbn; tauto. }
  assert (Hn : node T e ((i + 1) mod 3) <> node T e ((i + 2) mod 3)) by (unfold node; destruct (tri3 e He) as (a & b & c & -> & X1 & X2 & X3 & _); destruct i as [|[|[|]]]; try lia; cbn; auto).
  destruct (set2 _ _ _ _ _ eq_refl Hyz W Hn) as [(-> & ->)|(-> & ->)]; auto.
Qed.
Lemma first_discrete : returns (m_prepareMesh 1 s) (fun s' => discrete 1 P T s s' P T (fun k => mv_bound (fv k))).
Proof.
  pose proof (faces_st []) as FS. destruct HM as [-> G H Hp Hx]. eexists. split; [apply (first_order _ _ _ _ _ _ _ _ _ HT G H)|]. split.
  - split.
    + cbn [MeshDof.st mV mE]. unfold stL. cbn. now rewrite Nat.add_0_r.
    + intros k Hk. exists (fv k). cbn [MeshDof.st hv]. rewrite deref_pool by lia. rewrite stv_old by auto. destruct (Hp k Hk). auto.
    + intros e He. destruct (Hfs e He) as (s0 & H0). eexists. exists s0. cbn [MeshDof.st he]. rewrite deref_pool by auto. split; [reflexivity|]. cbn. rewrite app_nil_r. split; auto.
      split; auto. now apply prepare_is.
  - split; auto; try (intros; discriminate). apply firstn_all.
  - intros k Hk. exists (fv k). cbn [net hv]. rewrite deref_pool by auto. auto.
  - intros E; discriminate.
  - intros e He. destruct (tri3 e He) as (a & b & c & -> & _). reflexivity.
  - intros e k He Hk. unfold node. destruct (tri3 e He) as (a & b & c & -> & _ & _ & _ & Ha & Hb & Hcc). destruct k as [|[|[|]]]; cbn in *; auto; lia.
  - reflexivity.
  - intros k Hk. lia.
  - intros e i. exact (FS e i).
Qed.
Notation P2 := (pairs nb m).
Notation M := (Mof (length P) T nb).
Notation eg' := (eg nb).
Definition opp (k : nat) : nat := (k + 2) mod 3.
Definition fV2 (k : nat) : list N := mv_pos (stv np fv xs q P2 k).
Let V2 : list (list N) := map fV2 (seq 0 (np + nd)).
Let D2 : list (list nat) := map (fun e => nth e T [] ++ [M (eg' e 2); M (eg' e 0); M (eg' e 1)]) (seq 0 m).
Lemma V2_len : length V2 = np + nd. Proof. unfold V2. now rewrite map_length, seq_length. Qed.
Lemma V2_nth k : k < np + nd -> nth k V2 [] = fV2 k.
Proof. intros Hk. unfold V2. rewrite (nth_indep _ [] (fV2 0)) by (rewrite map_length, seq_length; auto). rewrite (map_nth fV2), seq_nth by auto. reflexivity. Qed.
Lemma D2_len : length D2 = m. Proof. unfold D2. now rewrite map_length, seq_length. Qed.
Lemma D2_nth e : e < m -> nth e D2 [] = nth e T [] ++ [M (eg' e 2); M (eg' e 0); M (eg' e 1)].
Proof.
  intros He. unfold D2. set (h := fun e => nth e T [] ++ [M (eg' e 2); M (eg' e 0); M (eg' e 1)]). rewrite (nth_indep _ [] (h 0)) by (rewrite map_length, seq_length; auto).
  rewrite (map_nth h), seq_nth by auto. reflexivity.
Qed.
Lemma eg_lt e i : e < m -> i < 3 -> eg' e i < nd. Proof. intros He Hi. apply (eg_ok T nb nd xs o q fG fS e i He Hi). Qed.
Lemma M_lt e i : e < m -> i < 3 -> np <= M (eg' e i) < np + nd.
Proof. intros He Hi. apply (Mof_lt np T nb nd xs o q HT fG fS). now apply eg_lt. Qed.
Lemma node2_low e k : e < m -> k < 3 -> node D2 e k = node T e k.
Proof. intros He Hk. unfold node. rewrite D2_nth by auto. destruct (tri3 e He) as (a & b & c & -> & _). destruct k as [|[|[|]]]; cbn; auto; lia. Qed.
Lemma node2_mid e k : e < m -> k < 3 -> node D2 e (3 + k) = M (eg' e (opp k)).
Proof. intros He Hk. unfold node. rewrite D2_nth by auto. destruct (tri3 e He) as (a & b & c & -> & _). destruct k as [|[|[|]]]; try lia; reflexivity. Qed.
Lemma without_opp e k : e < m -> k < 3 -> same_set (without (opp k) (nth e T [])) [node T e k; node T e ((k + 1) mod 3)].
Proof.
  intros He Hk. unfold node. destruct (tri3 e He) as (a & b & c & -> & _). intros x. destruct k as [|[|[|]]]; try lia; cbn; tauto.
Qed.
Lemma opp_lt k : opp k < 3. Proof. apply Nat.mod_upper_bound. lia. Qed.
Lemma face_set e k : e < m -> k < 3 -> same_set (xs (eg' e (opp k))) [node T e k; node T e ((k + 1) mod 3)].
Proof. intros He Hk. eapply same_trans; [apply (eg_ok T nb nd xs o q fG fS e (opp k) He (opp_lt k))|]. now apply without_opp. Qed.
Lemma eg_same e f k l : e < m -> f < m -> k < 3 -> l < 3 ->
  (eg' e (opp k) = eg' f (opp l) <-> same_set [node T e k; node T e ((k + 1) mod 3)] [node T f l; node T f ((l + 1) mod 3)]).
Proof.
  intros He Hf Hk Hl. split.
  - intros E. eapply same_trans; [apply same_sym, face_set; auto|]. rewrite E. now apply face_set.
  - intros S1. assert (S2 : same_set (xs (eg' f (opp l))) (without (opp k) (nth e T []))).
    { eapply same_trans; [apply face_set; auto|]. eapply same_trans; [apply same_sym; exact S1|]. apply same_sym. now apply without_opp. }
    pose proof (g_all _ _ _ _ _ _ fG e (opp k) (eg' f (opp l)) He (opp_lt k) (eg_lt f (opp l) Hf (opp_lt l)) S2) as E.
    destruct (eg_ok T nb nd xs o q fG fS e (opp k) He (opp_lt k)) as (_ & E' & _). congruence.
Qed.
Lemma fV2_old k : k < np -> fV2 k = nth k P [].
Proof. intros Hk. unfold fV2. rewrite stv_old by auto. now apply (fo_pos _ _ _ _ _ _ _ _ _ _ HM). Qed.
Lemma fV2_mid e k : e < m -> k < 3 -> fV2 (M (eg' e (opp k))) = midpoint (nth (node T e k) P []) (nth (node T e ((k + 1) mod 3)) P []).
Proof.
  intros He Hk. unfold fV2. rewrite (at_Mof np fv T nb nd xs o q HT fG fS) by (apply eg_lt; auto using opp_lt). cbn [mv_pos].
  destruct (edge_two np T nb nd xs o q HT fG (eg' e (opp k)) (eg_lt e _ He (opp_lt k))) as (x & y & E & Hx & Hy & Hxy).
  rewrite (mid_is _ _ HF HN _ x y E). destruct (fo_pos _ _ _ _ _ _ _ _ _ _ HM x Hx) as (-> & _). destruct (fo_pos _ _ _ _ _ _ _ _ _ _ HM y Hy) as (-> & _).
  assert (Hab : node T e k <> node T e ((k + 1) mod 3)) by (unfold node; destruct (tri3 e He) as (a & b & c & -> & H1 & H2 & H3 & _); destruct k as [|[|[|]]]; try lia; cbn; auto).
  destruct (set2 _ _ _ _ _ E Hxy (face_set e k He Hk) Hab) as [(-> & ->)|(-> & ->)]; [reflexivity|apply (mid_sym HF)].
Qed.
Lemma lone_outer e k : e < m -> k < 3 -> (q (eg' e (opp k)) = None <-> outer_face T (node T e k) (node T e ((k + 1) mod 3))).
Proof.
  intros He Hk. set (d := eg' e (opp k)). assert (Hd : d < nd) by (apply eg_lt; auto using opp_lt). pose proof (face_set e k He Hk) as FS. fold d in FS.
  destruct (g_edge _ _ _ _ _ _ fG d Hd) as (Hod & (i & Hi & Ei) & Hq).
  assert (Hab : node T e k <> node T e ((k + 1) mod 3)) by (unfold node; destruct (tri3 e He) as (a & b & c & -> & H1 & H2 & H3 & _); destruct k as [|[|[|]]]; try lia; cbn; auto).
  set (a := node T e k) in *. set (b := node T e ((k + 1) mod 3)) in *.
  assert (HF' : forall f, has_face T f a b <-> f < m /\ incl (xs d) (nth f T [])).
  { intros f. unfold has_face. split.
    - intros (H1 & H2 & H3). split; auto. intros z Hz. apply FS in Hz. cbn in Hz. destruct Hz as [<-|[<-|[]]]; auto.
    - intros (H1 & H2). repeat split; auto; apply H2, FS; cbn; auto. }
  assert (Ho' : has_face T (o d) a b) by (apply HF'; split; auto; rewrite Ei; intros z Hz; eapply without_in; eauto).
  split.
  - intros En. split; auto. exists (o d). split; auto. intros f Hf. destruct (Nat.eq_dec f (o d)) as [|Hne]; auto. exfalso.
    assert (X : q d = Some f) by (apply Hq; apply HF' in Hf as (H1 & H2); auto). congruence.
  - intros (_ & g & Hg & Hu). case_eq (q d); [intros f Ef|reflexivity]. exfalso. apply Hq in Ef as (H1 & H2 & H3). apply H1. rewrite (Hu f) by (apply HF'; auto). symmetry. now apply Hu.
Qed.
Lemma second_discrete : returns (m_prepareMesh 2 s) (fun s' => discrete 2 P T s s' V2 D2 (fun k => mv_bound (stv np fv xs q P2 k))).
Proof.
  pose proof (fo_net _ _ _ _ _ _ _ _ _ _ HM) as Es. rewrite Es at 1. eexists. split; [apply (second_done _ _ _ _ _ _ _ _ _ HT fG fS pos2)|].
  pose proof (L_len np T nb nd xs o q HT fG fS) as LL.
  assert (Hmid : forall e k, e < m -> k < 3 -> nth (node D2 e (3 + k)) V2 [] = midpoint (nth (node T e k) P []) (nth (node T e ((k + 1) mod 3)) P [])).
  { intros e k He Hk. rewrite node2_mid by auto. rewrite V2_nth by (apply M_lt; auto using opp_lt). now apply fV2_mid. }
  assert (Hgi : forall k, k < np + nd -> mv_gi (stv np fv xs q P2 k) = k).
  { intros k Hk. destruct (Nat.lt_ge_cases k np) as [H|H]; [rewrite stv_old by auto; now apply (fo_pos _ _ _ _ _ _ _ _ _ _ HM)|].
    unfold stv. destruct (Nat.ltb_spec k np); [lia|]. reflexivity. }
  assert (Hcorner : forall e i k, e < m -> i < 3 -> corner V2 D2 e i k = corner P T e i k).
  { intros e i k He Hi. unfold corner. change (nth i (nth e D2 []) 0) with (node D2 e i). rewrite node2_low by auto. change (nth i (nth e T []) 0) with (node T e i).
    assert (Hn : node T e i < np) by (unfold node; destruct (tri3 e He) as (a & b & c & -> & _ & _ & _ & Ha & Hb & Hc); destruct i as [|[|[|]]]; try lia; cbn; auto).
    rewrite V2_nth by lia. now rewrite fV2_old. }
  split.
  - split.
    + cbn [MeshDof.st mV mE]. rewrite V2_len, D2_len, LL. auto.
    + intros k Hk. rewrite V2_len in Hk. eexists. cbn [MeshDof.st hv]. rewrite LL, deref_pool by auto. split; [reflexivity|]. split; [auto|]. rewrite V2_nth by auto. split; reflexivity.
    + intros e He. rewrite D2_len in He. destruct (Hfs e He) as (s0 & H0). eexists. exists s0. cbn [MeshDof.st he]. rewrite deref_pool by auto. split; [reflexivity|].
      rewrite (dof2 np _ T nb e He), D2_nth by auto. split; [rewrite map_app; reflexivity|]. cbn [me_sx ste].
      assert (Hc : corners s0 (corner V2 D2 e)).
      { destruct H0 as (H1 & H2). split; auto. intros i Hi. rewrite H2 by auto. rewrite !Hcorner by auto. reflexivity. }
      split; [exact Hc|]. rewrite (prepare_is HO _ _ H0). reflexivity.
  - split.
    + unfold V2. rewrite seq_app, map_app, firstn_app, map_length, seq_length, Nat.sub_diag. cbn [firstn]. rewrite app_nil_r.
      rewrite firstn_all2 by (rewrite map_length, seq_length; lia). apply (list_eq_nth _ _ []); [now rewrite map_length, seq_length|]. intros i Hi. rewrite map_length, seq_length in Hi.
      rewrite (nth_indep _ [] (fV2 0)) by (rewrite map_length, seq_length; auto). rewrite (map_nth fV2), seq_nth by auto. now apply fV2_old.
    + apply D2_len.
    + intros E; discriminate.
    + intros _ e He. destruct (tri3 e He) as (a & b & c & E & _). exists a, b, c, (M (eg' e 2)), (M (eg' e 0)), (M (eg' e 1)). split; auto. split; [rewrite D2_nth by auto; rewrite E; reflexivity|].
      rewrite V2_len. split; [repeat split; apply M_lt; auto; lia|].
      pose proof (Hmid e 0 He ltac:(lia)) as H0. pose proof (Hmid e 1 He ltac:(lia)) as H1. pose proof (Hmid e 2 He ltac:(lia)) as H2. rewrite !node2_mid in * by (auto; lia).
      unfold node in *. rewrite E in *. cbn in H0, H1, H2. auto.
    + intros _ e f k l He Hf Hk Hl. rewrite !node2_mid by auto. rewrite <- eg_same by auto. split; [|now intros ->]. intros E.
      apply (Mof_inj np T nb nd xs o q HT fG fS) in E; auto; apply eg_lt; auto using opp_lt.
  - intros k Hk. exists (fv k). rewrite Es. cbn [net hv]. rewrite deref_pool by auto. split; auto. now rewrite stv_old.
  - intros _ e k He Hk. rewrite node2_mid by auto. rewrite (at_Mof np fv T nb nd xs o q HT fG fS) by (apply eg_lt; auto using opp_lt). cbn [mv_bound].
    rewrite <- lone_outer by auto. destruct (q (eg' e (opp k))); split; congruence.
  - intros e He. rewrite D2_len in He. rewrite D2_nth by auto. destruct (tri3 e He) as (a & b & c & -> & _). reflexivity.
  - intros e k He Hk. rewrite D2_len in He. rewrite V2_len. destruct (Nat.lt_ge_cases k 3) as [H|H].
    + rewrite node2_low by auto. unfold node. destruct (tri3 e He) as (a & b & c & -> & _ & _ & _ & Ha & Hb & Hc). destruct k as [|[|[|]]]; try lia; cbn; lia.
    + replace k with (3 + (k - 3)) by lia. rewrite node2_mid by (auto; lia). apply M_lt; auto using opp_lt.
  - exact Hcorner.
  - intros k Hk. rewrite V2_len in Hk. destruct (Mof_onto np T nb nd xs o q HT fG fS k Hk) as (d & Hd & Ek).
    destruct (edge_elements np T nb nd xs o q HT fG fS d Hd (o d)) as (_ & X). destruct (X (or_introl eq_refl)) as (He & i & Hi & Ed).
    exists (o d). split; [now rewrite D2_len|]. rewrite D2_nth by auto. apply in_or_app. right. destruct i as [|[|[|]]]; try lia; cbn [In]; rewrite <- ?Ed; auto.
  - intros e i. exact (faces_st P2 e i).
Qed.
End Form.
End FemM.
