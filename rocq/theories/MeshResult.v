(** C50, C51 for every mesh built through the public interface. *)
From Coq Require Import List Arith Bool Lia.
From Verif Require Import Base BaseProofs Num VectorModel SimplexModel MeshModel MeshSpec MeshPool MeshProofs.
Import ListNotations.
Local Open Scope nat_scope.
Open Scope res_scope.

Section Result.
Context {N : Num}.
Notation mst := (mst N).
Definition fresh_sx (V : list (list N)) (T : list (list nat)) (e : nat) := sx_fresh (map (fun k => nth k V []) (nth e T [])).
Lemma mesh_net V F T : mesh_of V F T =
  net (length V) (vtx V F T) (fresh_sx V T) T (fun _ => [None; None; None]) 0 (fun _ => []) (fun _ => 0) (fun _ => None).
Proof. reflexivity. Qed.
Lemma setup_mesh V F T : okT (length V) T ->
  post (m_setupNeighbors (mesh_of V F T))
    (fun s => exists nb nd xs o q, s = net (length V) (vtx V F T) (fresh_sx V T) T nb nd xs o q /\ graph T nb nd xs o q /\
        forall e i, e < length T -> i < 3 -> setp nb e i)
    (fun e => e = TooManySharedFaces /\ three_share_a_face T).
Proof.
  intros HT. rewrite mesh_net. eapply post_mono; [apply (all_faces (length V) (vtx V F T) (fresh_sx V T) T HT)| |auto].
  - reflexivity.
  - apply graph_start.
  - cbn beta. intros s (nb & nd & xs & o & q & -> & G & H & _). exists nb, nd, xs, o, q. auto.
Qed.
(** Three elements on one face contradict the one-or-two-elements property. *)
Lemma neighbourhood_not_three T (s : mst) n : okT n T -> neighbourhood T s -> ~ three_share_a_face T.
Proof.
  intros HT H (x & y & e & f & g & Hxy & Hef & Heg & Hfg & He & Hf & Hg).
  destruct (face_of (nth e T []) x y) as (j & Hj & Sj); try apply He; auto.
  { destruct (HT (nth e T [])) as (A & B & _); [apply nth_In, He|]. split; auto. }
  destruct (nh_face T s H e j (proj1 He) Hj) as (d & vs & e0 & e1 & _ & Hd & Sd).
  destruct (nh_edge T s H d vs e0 e1 Hd) as (u & v & w & -> & Huv & -> & Hw & Hu).
  assert (S : same_set [x; y] [u; v]) by (eapply same_trans; [exact Sj|]; now apply same_sym).
  assert (K : forall h, has_face T h x y -> has_face T h u v).
  { intros h (A & B & C). unfold has_face. pose proof (proj2 (S u) (or_introl eq_refl)) as Su. pose proof (proj2 (S v) (or_intror (or_introl eq_refl))) as Sv.
    cbn in Su, Sv. destruct Su as [<-|[<-|[]]], Sv as [<-|[<-|[]]]; auto. }
  pose proof (proj1 (Hu e) (K e He)). pose proof (proj1 (Hu f) (K f Hf)). pose proof (proj1 (Hu g) (K g Hg)).
  intuition congruence.
Qed.
Theorem setup_neighbours (ops : list (mop N)) : valid 0 ops ->
  post (let* s := build ops in let* s' := m_setupNeighbors s in Ok (s, s'))
    (fun r => neighbourhood (tris ops) (snd r) /\ hv (snd r) = hv (fst r) /\ mV (snd r) = mV (fst r) /\ ~ three_share_a_face (tris ops))
    (fun e => e = TooManySharedFaces /\ three_share_a_face (tris ops)).
Proof.
  intros Hv. destruct (build_ok ops Hv) as (E & HT). rewrite E. cbn [bind]. apply post_bind.
  eapply post_mono; [apply setup_mesh; auto| |auto]. cbn beta. intros s (nb & nd & xs & o & q & -> & G & H). cbn [post fst snd].
  assert (NH : neighbourhood (tris ops) (net (length (points ops)) (vtx (points ops) (markfn (fun _ => false) ops) (tris ops)) (fresh_sx (points ops) (tris ops)) (tris ops) nb nd xs o q))
    by (eapply graph_neighbourhood; eauto; reflexivity).
  split; [exact NH|]. repeat split; auto. eapply neighbourhood_not_three; eauto.
Qed.
Lemma tri_triple ops e : valid 0 ops -> e < length (@tris N ops) -> triple (nth e (tris ops) []).
Proof. intros Hv He. destruct (build_ok ops Hv) as (_ & HT). destruct (HT (nth e (tris ops) [])) as (A & B & _); [now apply nth_In|]. split; auto. Qed.
Theorem setup_iff (ops : list (mop N)) : valid 0 ops ->
  ((let* s := build ops in m_setupNeighbors s) = Throw TooManySharedFaces <-> three_share_a_face (tris ops)) /\
  ((exists s', (let* s := build ops in m_setupNeighbors s) = Ok s' /\ neighbourhood (tris ops) s') <-> ~ three_share_a_face (tris ops)).
Proof.
  intros Hv. pose proof (setup_neighbours ops Hv) as P. destruct (build_ok ops Hv) as (E & HT). rewrite E in *. cbn [bind] in *.
  destruct (m_setupNeighbors _) as [s'|x| | | |] eqn:Es; cbn in P; try contradiction.
  - destruct P as (P & _ & _ & Q). split; split; try discriminate; try tauto. intros _. eauto.
  - destruct P as (-> & Q). split; split; auto; try tauto. intros (s' & X & _). discriminate.
Qed.

(** *** Neighbours across a face, and symmetry *)
Theorem neighbours_iff (ops : list (mop N)) s' : valid 0 ops -> (let* s := build ops in m_setupNeighbors s) = Ok s' ->
  forall e f, e < length (tris ops) -> f < length (tris ops) -> e <> f ->
  ((exists i j d, i < 3 /\ j < 3 /\ neighbor s' e i d /\ neighbor s' f j d /\ exists vs, is_edge s' d vs (Some e) (Some f) \/ is_edge s' d vs (Some f) (Some e)) <->
   exists x y, x <> y /\ has_face (tris ops) e x y /\ has_face (tris ops) f x y).
Proof.
  intros Hv Hs e f He Hf Hef.
  assert (NH : neighbourhood (tris ops) s').
  { pose proof (setup_neighbours ops Hv) as P. destruct (build ops); cbn in *; try discriminate. rewrite Hs in P. cbn in P. apply P. }
  split.
  - intros (i & j & d & Hi & Hj & Ne & Nf & vs & [Hd|Hd]); destruct (nh_edge _ _ NH _ _ _ _ Hd) as (x & y & w & -> & Hxy & Ew & Ew' & H);
      exists x, y; repeat split; auto; apply H; rewrite ?Ew; auto.
  - intros (x & y & Hxy & Hx & Hy).
    destruct (face_of (nth e (tris ops) []) x y) as (i & Hi & Si); try apply Hx; auto; [now apply tri_triple|].
    destruct (face_of (nth f (tris ops) []) x y) as (j & Hj & Sj); try apply Hy; auto; [now apply tri_triple|].
    destruct (nh_face _ _ NH e i He Hi) as (d & vs & e0 & e1 & Ne & Hd & Sd).
    destruct (nh_face _ _ NH f j Hf Hj) as (d' & vs' & e0' & e1' & Nf & Hd' & Sd').
    assert (d' = d).
    { eapply (proj2 (nh_once _ _ NH)); eauto. eapply same_trans; [exact Sd'|]. eapply same_trans; [apply same_sym; exact Sj|].
      eapply same_trans; [exact Si|]. now apply same_sym. }
    subst d'. exists i, j, d. repeat split; auto. exists vs.
    destruct (nh_edge _ _ NH _ _ _ _ Hd) as (u & v & w & -> & Huv & -> & Ew & Hu).
    assert (S : same_set [x; y] [u; v]) by (eapply same_trans; [exact Si|]; now apply same_sym).
    assert (K : forall h, has_face (tris ops) h x y -> has_face (tris ops) h u v).
    { intros h (A & B & C). unfold has_face. pose proof (proj2 (S u) (or_introl eq_refl)) as Su. pose proof (proj2 (S v) (or_intror (or_introl eq_refl))) as Sv.
      cbn in Su, Sv. destruct Su as [<-|[<-|[]]], Sv as [<-|[<-|[]]]; auto. }
    destruct (proj1 (Hu e) (K e Hx)) as [E|E], (proj1 (Hu f) (K f Hy)) as [E'|E']; [congruence|left; congruence|right; congruence|congruence].
Qed.

(** Running setupNeighbors a second time changes nothing. *)
Lemma face_done s p i (x : melem N) d : deref (he s) p = Ok x -> nth_error (me_n x) i = Some (Some d) -> sn_face p i s = Ok s.
Proof. intros H1 H2. unfold sn_face. rewrite H1. cbn [bind]. unfold vget. rewrite H2. reflexivity. Qed.
Lemma setup_done T (s : mst) : neighbourhood T s -> mE s = seq 0 (length T) -> m_setupNeighbors s = Ok s.
Proof.
  intros H E. unfold m_setupNeighbors.
  assert (K : forall l, (forall p, In p l -> p < length T) -> foreach l (fun p s => for_ 0 3 (fun i s => sn_face p i s) s) s = Ok s).
  { induction l as [|p l IH]; intros Hl; cbn [foreach]; auto.
    assert (X : forall i, i < 3 -> sn_face p i s = Ok s).
    { intros i Hi. destruct (nh_face T s H p i) as (d & _ & _ & _ & (x & Hx & Hn) & _); auto; [apply Hl; now left|]. eapply face_done; eauto. }
    change (for_ 0 3) with (@for_n mst 3 0). cbn [for_n]. rewrite !X by lia. cbn [bind]. rewrite !X by lia. cbn [bind]. rewrite !X by lia. cbn [bind]. apply IH. intros; apply Hl; now right. }
  rewrite E. apply K. intros p Hp. apply in_seq in Hp. lia.
Qed.
Theorem setup_idempotent (ops : list (mop N)) s' : valid 0 ops -> (let* s := build ops in m_setupNeighbors s) = Ok s' -> m_setupNeighbors s' = Ok s'.
Proof.
  intros Hv Hs. destruct (build_ok ops Hv) as (E & HT). rewrite E in Hs. cbn [bind] in Hs.
  pose proof (setup_mesh (points ops) (markfn (fun _ => false) ops) (tris ops) HT) as P. rewrite Hs in P. cbn in P.
  destruct P as (nb & nd & xs & o & q & -> & G & H). eapply setup_done; [eapply graph_neighbourhood; eauto; reflexivity|reflexivity].
Qed.

(** *** Boundaries *)
Section Bound.
Variables (nv : nat) (fs : nat -> simplex N) (T : list (list nat)).
Notation m := (length T).
Definition bfv (fv : nat -> mvert N) (B : nat -> bool) (k : nat) : mvert N :=
  mkMV (mv_bound (fv k) || B k) (mv_impl (fv k)) (mv_gi (fv k)) (mv_pos (fv k)) (mv_el (fv k)).
Lemma or_flags_net fv B nb nd xs o q k : k < nv ->
  or_flags (net nv (bfv fv B) fs T nb nd xs o q) k true false = Ok (net nv (bfv fv (fup B k true)) fs T nb nd xs o q).
Proof.
  intros Hk. unfold or_flags, net. cbn [hv]. rewrite deref_pool by auto. cbn [bind]. rewrite store_pool by auto. cbn [bind set_hv hv he hd mV mE mD].
  unfold set_hv. cbn. f_equal. f_equal. apply pool_ext. intros j Hj. unfold bfv. destruct (Nat.eq_dec j k) as [->|H].
  - rewrite !fup_eq. cbn. now rewrite !orb_true_r, orb_false_r.
  - now rewrite !fup_ne.
Qed.
Definition lone (nd : nat) (xs : nat -> list nat) (q : nat -> option nat) (k : nat) : bool :=
  existsb (fun d => inb k (xs d) && match q d with None => true | Some _ => false end) (seq 0 nd).
Lemma boundaries_net fv nb nd xs o q : okT nv T -> graph T nb nd xs o q ->
  m_setupBoundaries (net nv fv fs T nb nd xs o q) = Ok (net nv (bfv fv (lone nd xs q)) fs T nb nd xs o q).
Proof.
  intros HT G. unfold m_setupBoundaries. cbn [net mD].
  assert (E0 : net nv fv fs T nb nd xs o q = net nv (bfv fv (fun _ => false)) fs T nb nd xs o q).
  { unfold net. f_equal. apply pool_ext. intros k Hk. unfold bfv. destruct (fv k). cbn. now rewrite orb_false_r. }
  change (mkM (pool nv fv) (pool m (nelt fs T nb)) (pool nd (nedg xs o q)) (seq 0 nv) (seq 0 m) (seq 0 nd)) with (net nv fv fs T nb nd xs o q).
  rewrite E0.
  assert (K : forall l B, (forall d, In d l -> d < nd) -> exists B', (foreach l (fun d s => let* e := deref (hd s) d in
      match ed_e0 e, ed_e1 e with Some _, Some _ => Ok s | _, _ => for_ 0 2 (fun i s => let* v := vget (ed_v e) i in
        match v with None => Abort | Some v => or_flags s v true false end) s end) (net nv (bfv fv B) fs T nb nd xs o q)
      = Ok (net nv (bfv fv B') fs T nb nd xs o q)) /\
      forall k, B' k = B k || existsb (fun d => inb k (xs d) && match q d with None => true | Some _ => false end) l).
  { induction l as [|d l IH]; intros B Hl; cbn [foreach].
    - exists B. split; auto. intros k. cbn. now rewrite orb_false_r.
    - assert (Hd : d < nd) by (apply Hl; now left). cbn [net hd]. rewrite deref_pool by auto. cbn [bind nedg ed_e0 ed_e1].
      change (mkM (pool nv (bfv fv B)) (pool m (nelt fs T nb)) (pool nd (nedg xs o q)) (seq 0 nv) (seq 0 m) (seq 0 nd)) with (net nv (bfv fv B) fs T nb nd xs o q).
      destruct (q d) as [f|] eqn:Eq.
      + cbn [bind]. destruct (IH B) as (B' & HB & HB'); [intros; apply Hl; now right|]. exists B'. split; auto.
        intros k. rewrite HB'. cbn [existsb]. now rewrite Eq, andb_false_r.
      + destruct (g_edge _ _ _ _ _ _ G d Hd) as (A & (i & Hi & Ei) & C).
        assert (Tr : triple (nth (o d) T [])) by (destruct (HT (nth (o d) T [])) as (X & Y & _); [now apply nth_In|split; auto]).
        destruct (without_two _ i Tr Hi) as (x & y & Ew & Hxy & Hx & Hy).
        assert (Lx : forall z, In z (nth (o d) T []) -> z < nv) by (intros z Hz; apply (HT (nth (o d) T [])); auto; now apply nth_In).
        change (ed_v (nedg xs o q d)) with (map Some (xs d)). rewrite ?Ei, ?Ew. cbn [map]. change (for_ 0 2) with (@for_n mst 2 0). cbn [for_n].
        change (vget [Some x; Some y] 0) with (Ok (Some x)). change (vget [Some x; Some y] 1) with (Ok (Some y)). cbn [bind].
        rewrite or_flags_net by auto. cbn [bind]. rewrite or_flags_net by auto. cbn [bind].
        destruct (IH (fup (fup B x true) y true)) as (B' & HB & HB'); [intros; apply Hl; now right|]. exists B'. split; auto.
        intros k. rewrite HB'. cbn [existsb]. rewrite Eq, Ei, Ew, andb_true_r, orb_assoc. f_equal. unfold inb. cbn [existsb]. unfold fup.
        destruct (k =? y), (k =? x), (B k); reflexivity. }
  destruct (K (seq 0 nd) (fun _ => false)) as (B' & HB & HB'); [intros d Hd; apply in_seq in Hd; lia|].
  rewrite HB. f_equal. unfold net. f_equal. apply pool_ext. intros k Hk. unfold bfv. now rewrite HB'.
Qed.
End Bound.

Lemma lone_spec T n nb nd xs o q k : okT n T -> graph T nb nd xs o q -> (forall e i, e < length T -> i < 3 -> setp nb e i) ->
  lone nd xs q k = true <-> exists y, outer_face T k y.
Proof.
  intros HT G Hs. unfold lone. rewrite existsb_exists.
  assert (Tr : forall e, e < length T -> triple (nth e T [])) by (intros e He; destruct (HT (nth e T [])) as (X & Y & _); [now apply nth_In|split; auto]).
  split.
  - intros (d & Hd & H). apply in_seq in Hd. assert (Hd' : d < nd) by lia. destruct (q d) eqn:Eq; [rewrite andb_false_r in H; discriminate|].
    rewrite andb_true_r in H. apply inb_spec in H. destruct (g_edge _ _ _ _ _ _ G d Hd') as (A & (i & Hi & Ei) & C).
    destruct (without_two _ i (Tr _ A) Hi) as (x & y & Ew & Hxy & Hx & Hy). rewrite Ei, Ew in H.
    assert (P : forall u v, xs d = [u; v] \/ xs d = [v; u] -> has_face T (o d) u v -> forall f, has_face T f u v -> f = o d).
    { intros u v Hxs _ f (F1 & F2 & F3). destruct (Nat.eq_dec f (o d)); auto. enough (q d = Some f) by congruence. apply C. repeat split; auto.
      destruct Hxs as [->| ->]; intros z [<-|[<-|[]]]; auto. }
    destruct H as [<-|[<-|[]]]; [exists y|exists x]; (split; [auto|]); exists (o d);
      (split; [unfold has_face; repeat split; auto|apply P; [rewrite Ei, Ew; auto|unfold has_face; repeat split; auto]]).
  - intros (y & Hky & e & He & Hu). destruct (face_of (nth e T []) k y) as (i & Hi & Si); try apply He; auto; [apply Tr, He|].
    destruct (Hs e i (proj1 He) Hi) as (d & Hd). destruct (g_nb _ _ _ _ _ _ G e i d (proj1 He) Hd) as (A & B).
    exists d. split; [apply in_seq; lia|]. assert (S : same_set (xs d) [k; y]) by (eapply same_trans; [exact B|]; now apply same_sym).
    apply andb_true_iff. split; [apply inb_spec, S; cbn; auto|]. destruct (q d) as [f|] eqn:Eq; auto.
    exfalso. destruct (g_edge _ _ _ _ _ _ G d A) as (O & (j & Hj & Ej) & C). apply C in Eq as (E1 & E2 & E3).
    assert (f = e) by (apply Hu; unfold has_face; repeat split; auto; apply E3, S; cbn; auto).
    assert (o d = e).
    { apply Hu. unfold has_face. split; auto. split; apply (without_in _ j); rewrite <- Ej; apply S; cbn; auto. }
    congruence.
Qed.
Theorem setup_boundaries (ops : list (mop N)) s' : valid 0 ops -> (let* s := build ops in m_setupNeighbors s) = Ok s' ->
  returns (m_setupBoundaries s') (fun s'' =>
    he s'' = he s' /\ hd s'' = hd s' /\ mV s'' = mV s' /\ mE s'' = mE s' /\ mD s'' = mD s' /\
    forall k, k < length (points ops) -> exists x, deref (hv s') k = Ok x /\ exists b, 
      deref (hv s'') k = Ok (mkMV b (mv_impl x) (mv_gi x) (mv_pos x) (mv_el x)) /\
      (b = true <-> (marked ops k \/ exists y, outer_face (tris ops) k y))).
Proof.
  intros Hv Hs. destruct (build_ok ops Hv) as (E & HT). rewrite E in Hs. cbn [bind] in Hs.
  pose proof (setup_mesh (points ops) (markfn (fun _ => false) ops) (tris ops) HT) as P. rewrite Hs in P. cbn [post] in P.
  destruct P as (nb & nd & xs & o & q & -> & G & H). rewrite boundaries_net by auto. eexists. split; [reflexivity|].
  repeat split. intros k Hk. cbn [net hv]. rewrite !deref_pool by auto. eexists. split; [reflexivity|]. unfold bfv.
  eexists. split; [reflexivity|]. rewrite orb_true_iff. rewrite (lone_spec _ _ _ _ _ _ _ k HT G H). cbn [vtx mv_bound].
  rewrite markfn_spec. intuition discriminate.
Qed.
(** vertex(i), element(i) and edge(i) return the objects; past the end they are undefined. *)
Theorem setup_access (ops : list (mop N)) s' : valid 0 ops -> (let* s := build ops in m_setupNeighbors s) = Ok s' ->
  (forall k, k < length (points ops) -> m_vertex s' k = Ok k /\ exists x, deref (hv s') k = Ok x /\ mv_gi x = k /\ mv_pos x = nth k (points ops) [] /\
     (mv_bound x = true <-> marked ops k) /\ forall e, In e (mv_el x) <-> e < length (tris ops) /\ In k (nth e (tris ops) [])) /\
  (forall k, length (points ops) <= k -> m_vertex s' k = UB) /\
  (forall e, length (tris ops) <= e -> m_element s' e = UB) /\
  (forall d vs e0 e1, is_edge s' d vs e0 e1 -> exists k, k < length (mD s') /\ m_edge s' k = Ok d /\ forall j, m_edge s' j = Ok d -> j = k) /\
  (forall k, k < length (mD s') -> exists d vs e0 e1, m_edge s' k = Ok d /\ is_edge s' d vs e0 e1) /\
  (forall k, length (mD s') <= k -> m_edge s' k = UB).
Proof.
  intros Hv E. destruct (build_ok ops Hv) as (Eb & HT). pose proof (setup_neighbours ops Hv) as P. rewrite Eb in E, P. cbn [bind] in E, P.
  rewrite E in P. cbn [bind post fst snd] in P. destruct P as (NH & Hh & HV & _). cbn [mesh_of hv mV] in Hh, HV.
  assert (ND := nh_once _ _ NH). destruct ND as [ND _].
  repeat apply conj.
  - intros k Hk. split; [unfold m_vertex; rewrite HV; now apply vget_seq|]. rewrite Hh, deref_pool by auto. eexists. split; [reflexivity|].
    cbn [vtx mv_gi mv_pos mv_el mv_bound]. split; [auto|]. split; [auto|]. split; [|apply owners_in].
    split; intros X; [apply markfn_spec in X as [X|X]; [discriminate|auto]|apply markfn_spec; auto].
  - intros k Hk. unfold m_vertex, vget. rewrite HV, (proj2 (nth_error_None _ _)); [auto|now rewrite seq_length].
  - intros e He. unfold m_element, vget. rewrite (proj2 (nth_error_None _ _)); [auto|]. now rewrite (nh_count _ _ NH).
  - intros d vs e0 e1 (Hd & _). apply In_nth_error in Hd as (k & Hk). exists k. split; [apply nth_error_Some; congruence|].
    unfold m_edge, vget. rewrite Hk. split; auto. intros j Hj. destruct (nth_error (mD s') j) as [d'|] eqn:Ej; [|discriminate].
    injection Hj as ->. symmetry. apply (proj1 (NoDup_nth_error _) ND); [apply nth_error_Some; congruence|congruence].
  - intros k Hk. destruct (nth_error (mD s') k) as [d|] eqn:Ed; [|apply nth_error_None in Ed; lia].
    destruct (nh_alive _ _ NH d (nth_error_In _ _ Ed)) as (vs & e0 & e1 & H). exists d, vs, e0, e1. split; auto. unfold m_edge, vget. now rewrite Ed.
  - intros k Hk. unfold m_edge, vget. rewrite (proj2 (nth_error_None _ _)); auto.
Qed.
End Result.
