(** Proofs about setVertex and setElement. *)
From Coq Require Import List Arith Bool Lia.
From Verif Require Import Base BaseProofs Num SimplexModel MeshModel MeshSpec MeshPool MeshHandle MeshHandleProofs MeshProofs MeshSet.
Import ListNotations.
Open Scope res_scope.

Lemma upd_nodup (l : list nat) i p : i < length l -> NoDup l ->
  (NoDup (upd l i p) <-> forall j, j <> i -> nth_error l j <> Some p).
Proof.
  intros Hi Hn. rewrite NoDup_nth_error. rewrite upd_length. split.
  - intros H j Hj E. assert (Hl : j < length l) by (apply nth_error_Some; congruence).
    apply Hj, H; [exact Hl|]. rewrite !nth_error_upd.
    rewrite (proj2 (Nat.eqb_neq j i) Hj), Nat.eqb_refl, (proj2 (Nat.ltb_lt _ _) Hi). exact E.
  - intros H a b Ha E. rewrite !nth_error_upd, (proj2 (Nat.ltb_lt _ _) Hi), !andb_true_r in E.
    destruct (Nat.eqb_spec a i) as [->|Na], (Nat.eqb_spec b i) as [->|Nb]; auto.
    + exfalso. apply (H b Nb). now symmetry.
    + exfalso. apply (H a Na). exact E.
    + rewrite NoDup_nth_error in Hn. now apply Hn.
Qed.
Lemma upd_in (l : list nat) i p q : i < length l ->
  (In q (upd l i p) <-> q = p \/ exists j, j <> i /\ nth_error l j = Some q).
Proof.
  intros Hi. split.
  - intros H. apply In_nth_error in H. destruct H as [j Hj]. rewrite nth_error_upd, (proj2 (Nat.ltb_lt _ _) Hi), andb_true_r in Hj.
    destruct (Nat.eqb_spec j i); [left; congruence|right; eauto].
  - intros [->|[j [Nj Hj]]].
    + apply nth_error_In with i. now rewrite nth_error_upd, Nat.eqb_refl, (proj2 (Nat.ltb_lt _ _) Hi).
    + apply nth_error_In with j. now rewrite nth_error_upd, (proj2 (Nat.eqb_neq j i) Nj).
Qed.
(** Deleting a list with an object that is already deleted, or the same one twice. *)
Lemma free_ub {A} (l : list nat) : forall h : list (option A), foreach l (fun p h => free h p) h = UB \/ exists h', foreach l (fun p h => free h p) h = Ok h' /\ NoDup l /\ forall p, In p l -> exists x, deref h p = Ok x.
Proof.
  induction l as [|a l IH]; intros h.
  - right. exists h. cbn. split; [reflexivity|]. split; [constructor|tauto].
  - cbn [foreach]. unfold free at 1 3. destruct (deref h a) eqn:E; try (unfold deref in E; destruct (nth_error h a) as [[?|]|]; discriminate).
    + cbn [bind]. assert (Hl := deref_lt _ _ _ E). destruct (IH (upd h a None)) as [H|[h' [H [Hn Ha]]]]; [now left|].
      right. exists h'. split; [exact H|]. split.
      * constructor; [|exact Hn]. intros Hi. destruct (Ha a Hi) as [x Hx]. rewrite deref_upd_none, Nat.eqb_refl in Hx by exact Hl. discriminate.
      * intros p [->|Hp]; [eauto|]. destruct (Ha p Hp) as [x Hx]. rewrite deref_upd_none in Hx by exact Hl.
        destruct (p =? a); [discriminate|eauto].
    + left. reflexivity.
Qed.

Section MeshSetProofs.
Context {N : Num}.
Notation mst := (mst N).
Theorem setVertex_ok (s : mst) i p : i < length (mV s) ->
  returns (m_setVertex s i p) (fun s' =>
    m_vertex s' i = Ok p /\ length (mV s') = length (mV s) /\ (forall j, j <> i -> m_vertex s' j = m_vertex s j) /\
    hv s' = hv s /\ he s' = he s /\ hd s' = hd s /\ mE s' = mE s /\ mD s' = mD s).
Proof.
  intros H. unfold m_setVertex. rewrite vset_ok by exact H. cbn [bind returns post]. unfold m_vertex, vget. cbn [mV hv he hd mE mD].
  eexists. split; [reflexivity|]. cbn [mV hv he hd mE mD]. split; [|split; [apply upd_length|split; [|repeat split]]].
  - now rewrite nth_error_upd, Nat.eqb_refl, (proj2 (Nat.ltb_lt _ _) H).
  - intros j Hj. now rewrite nth_error_upd, (proj2 (Nat.eqb_neq j i) Hj).
Qed.
Theorem setElement_ok (s : mst) i p : i < length (mE s) ->
  returns (m_setElement s i p) (fun s' =>
    m_element s' i = Ok p /\ length (mE s') = length (mE s) /\ (forall j, j <> i -> m_element s' j = m_element s j) /\
    hv s' = hv s /\ he s' = he s /\ hd s' = hd s /\ mV s' = mV s /\ mD s' = mD s).
Proof.
  intros H. unfold m_setElement. rewrite vset_ok by exact H. cbn [bind returns post]. unfold m_element, vget. cbn [mV hv he hd mE mD].
  eexists. split; [reflexivity|]. cbn [mV hv he hd mE mD]. split; [|split; [apply upd_length|split; [|repeat split]]].
  - now rewrite nth_error_upd, Nat.eqb_refl, (proj2 (Nat.ltb_lt _ _) H).
  - intros j Hj. now rewrite nth_error_upd, (proj2 (Nat.eqb_neq j i) Hj).
Qed.
Theorem set_range (s : mst) i p :
  (length (mV s) <= i -> m_setVertex s i p = UB) /\ (length (mE s) <= i -> m_setElement s i p = UB).
Proof.
  split; intros H; unfold m_setVertex, m_setElement, vset; apply Nat.ltb_ge in H; now rewrite H.
Qed.
Lemma setVertex_inv (s s' : mst) i p : m_setVertex s i p = Ok s' -> i < length (mV s) /\ s' = mkM (hv s) (he s) (hd s) (upd (mV s) i p) (mE s) (mD s).
Proof.
  unfold m_setVertex, vset. destruct (Nat.ltb_spec i (length (mV s))); [|discriminate]. cbn. intros E. injection E as <-. auto.
Qed.
Lemma setElement_inv (s s' : mst) i p : m_setElement s i p = Ok s' -> i < length (mE s) /\ s' = mkM (hv s) (he s) (hd s) (mV s) (upd (mE s) i p) (mD s).
Proof.
  unfold m_setElement, vset. destruct (Nat.ltb_spec i (length (mE s))); [|discriminate]. cbn. intros E. injection E as <-. auto.
Qed.
Theorem setVertex_owning (s s' : mst) i p : owning s -> m_setVertex s i p = Ok s' ->
  (owning s' <-> (exists x, deref (hv s) p = Ok x) /\ forall j, j <> i -> m_vertex s j <> Ok p).
Proof.
  intros [Hn [He [Hv Hl]]] E. destruct (setVertex_inv _ _ _ _ E) as [Hi ->]. unfold owning. cbn [mV mE hv he].
  assert (G : (forall j, j <> i -> m_vertex s j <> Ok p) <-> (forall j, j <> i -> nth_error (mV s) j <> Some p)).
  { unfold m_vertex, vget. split; intros X j Hj; specialize (X j Hj); destruct (nth_error (mV s) j); congruence. }
  rewrite G, (upd_nodup _ _ _ Hi Hn). split.
  - intros [A [_ [B _]]]. split; [|exact A]. apply B, upd_in; auto.
  - intros [B A]. split; [exact A|]. split; [exact He|]. split; [|exact Hl]. intros q Hq. apply upd_in in Hq; [|exact Hi].
    destruct Hq as [->|[j [_ Hj]]]; [exact B|]. apply Hv. now apply nth_error_In with j.
Qed.
Theorem setElement_owning (s s' : mst) i p : owning s -> m_setElement s i p = Ok s' ->
  (owning s' <-> (exists x, deref (he s) p = Ok x) /\ forall j, j <> i -> m_element s j <> Ok p).
Proof.
  intros [Hn [He [Hv Hl]]] E. destruct (setElement_inv _ _ _ _ E) as [Hi ->]. unfold owning. cbn [mV mE hv he].
  assert (G : (forall j, j <> i -> m_element s j <> Ok p) <-> (forall j, j <> i -> nth_error (mE s) j <> Some p)).
  { unfold m_element, vget. split; intros X j Hj; specialize (X j Hj); destruct (nth_error (mE s) j); congruence. }
  rewrite G, (upd_nodup _ _ _ Hi He). split.
  - intros [_ [A [_ B]]]. split; [|exact A]. apply B, upd_in; auto.
  - intros [B A]. split; [exact Hn|]. split; [exact A|]. split; [exact Hv|]. intros q Hq. apply upd_in in Hq; [|exact Hi].
    destruct Hq as [->|[j [_ Hj]]]; [exact B|]. apply Hl. now apply nth_error_In with j.
Qed.
(** clear() succeeds exactly on owning meshes. *)
Theorem clear_iff (s : mst) : (owning s -> exists s', m_clear s = Ok s') /\ (~ owning s -> m_clear s = UB).
Proof.
  split; [apply clear_returns|]. intros H. unfold m_clear.
  destruct (free_ub (mV s) (hv s)) as [E|[h [E [A B]]]]; rewrite E; [reflexivity|]. cbn [bind].
  destruct (free_ub (mE s) (he s)) as [F|[g [F [C D]]]]; rewrite F; [reflexivity|].
  exfalso. apply H. repeat split; auto.
Qed.
Theorem setVertex_leak (s s' : mst) i p q : owning s -> (exists x, deref (hv s) p = Ok x) -> (forall j, m_vertex s j <> Ok p) ->
  m_vertex s i = Ok q -> m_setVertex s i p = Ok s' ->
  returns (m_clear s') (fun s'' => deref (hv s'') p = UB /\ deref (hv s'') q = deref (hv s) q /\ exists x, deref (hv s'') q = Ok x).
Proof.
  intros Ho Hp Hne Hq E.
  assert (O' : owning s') by (apply (setVertex_owning _ _ _ _ Ho E); auto).
  destruct (setVertex_inv _ _ _ _ E) as [Hi ->].
  assert (Hq' : nth_error (mV s) i = Some q) by (unfold m_vertex, vget in Hq; destruct (nth_error (mV s) i); congruence).
  destruct (@clear_ok N _ O') as [w [Ew Hw]]. exists w. split; [exact Ew|]. revert Hw. cbn [mV mE hv he hd mD]. intros (_ & _ & _ & _ & A & B & _).
  assert (U : deref (hv w) p = UB).
  { unfold deref. rewrite A; [reflexivity|]. apply upd_in; auto. }
  assert (W : deref (hv w) q = deref (hv s) q).
  { unfold deref. rewrite B; [reflexivity|]. intros X. apply upd_in in X; [|exact Hi]. destruct X as [->|[j [Hj X]]].
    - apply (Hne i). exact Hq.
    - apply Hj. destruct Ho as [Hn _]. rewrite NoDup_nth_error in Hn. apply Hn; [apply nth_error_Some; congruence|congruence]. }
  split; [exact U|]. split; [exact W|]. rewrite W. apply Ho. now apply nth_error_In with i.
Qed.
Theorem setElement_leak (s s' : mst) i p q : owning s -> (exists x, deref (he s) p = Ok x) -> (forall j, m_element s j <> Ok p) ->
  m_element s i = Ok q -> m_setElement s i p = Ok s' ->
  returns (m_clear s') (fun s'' => deref (he s'') p = UB /\ deref (he s'') q = deref (he s) q /\ exists x, deref (he s'') q = Ok x).
Proof.
  intros Ho Hp Hne Hq E.
  assert (O' : owning s') by (apply (setElement_owning _ _ _ _ Ho E); auto).
  destruct (setElement_inv _ _ _ _ E) as [Hi ->].
  assert (Hq' : nth_error (mE s) i = Some q) by (unfold m_element, vget in Hq; destruct (nth_error (mE s) i); congruence).
  destruct (@clear_ok N _ O') as [w [Ew Hw]]. exists w. split; [exact Ew|]. revert Hw. cbn [mV mE hv he hd mD]. intros (_ & _ & _ & _ & _ & _ & A & B).
  assert (U : deref (he w) p = UB).
  { unfold deref. rewrite A; [reflexivity|]. apply upd_in; auto. }
  assert (W : deref (he w) q = deref (he s) q).
  { unfold deref. rewrite B; [reflexivity|]. intros X. apply upd_in in X; [|exact Hi]. destruct X as [->|[j [Hj X]]].
    - apply (Hne i). exact Hq.
    - apply Hj. destruct Ho as [_ [Hn _]]. rewrite NoDup_nth_error in Hn. apply Hn; [apply nth_error_Some; congruence|congruence]. }
  split; [exact U|]. split; [exact W|]. rewrite W. apply Ho. now apply nth_error_In with i.
Qed.

(** validate() after replacing a vertex by a new one. *)
Lemma vl_vertex_ext (s s' : mst) p id : he s' = he s -> deref (hv s') p = deref (hv s) p -> vl_vertex s' p id = vl_vertex s p id.
Proof. intros H G. unfold vl_vertex. now rewrite H, G. Qed.
Lemma validate_from (s s' : mst) : forall l i k p m, he s' = he s -> (forall q x, deref (hv s) q = Ok x -> deref (hv s') q = Ok x) -> i < length l ->
  foreach l (fun p id => let* _ := vl_vertex s p id in Ok (S id)) k = Ok m ->
  foreach (upd l i p) (fun p id => let* _ := vl_vertex s' p id in Ok (S id)) k =
    (let* _ := vl_vertex s' p (k + i) in foreach (skipn (S i) l) (fun p id => let* _ := vl_vertex s' p id in Ok (S id)) (S (k + i))).
Proof.
  induction l as [|a l IH]; intros i k p m He Hv Hi E; [cbn in Hi; lia|].
  destruct i as [|i].
  - rewrite Nat.add_0_r. cbn [upd foreach skipn]. destruct (vl_vertex s' p k); reflexivity.
  - cbn [upd foreach skipn]. cbn [foreach] in E. destruct (vl_vertex s a k) eqn:V; try discriminate.
    assert (V' : vl_vertex s' a k = Ok a0).
    { rewrite (vl_vertex_ext s s'); [exact V|exact He|]. unfold vl_vertex in V. destruct (deref (hv s) a) eqn:D; try discriminate. now apply Hv. }
    rewrite V'. cbn [bind] in *. rewrite (IH i (S k) p m He Hv); [|cbn in Hi; lia|exact E].
    now rewrite Nat.add_succ_comm.
Qed.
Theorem setVertex_validate (s : mst) i pos : i < length (mV s) -> m_validate s = Ok tt ->
  (let '(s, p) := new_vertex s pos in let* s := m_setVertex s i p in m_validate s) =
  Throw (if i =? 0 then IsolatedVertex else InvalidVertexIndex).
Proof.
  intros Hi H. unfold new_vertex. unfold m_setVertex. cbn [set_hv mV]. rewrite vset_ok by exact Hi. cbn [bind].
  unfold m_validate in H |- *. cbn [mV mE].
  destruct (foreach (mV s) _ 0) as [m| | | | |] eqn:E; try discriminate.
  erewrite (validate_from s); [|reflexivity| |exact Hi|exact E].
  - assert (D : deref (hv s ++ [Some (mk_vertex pos)]) (length (hv s)) = Ok (mk_vertex pos)).
    { unfold deref. now rewrite nth_error_app2, Nat.sub_diag by lia. }
    unfold vl_vertex at 1. cbn [hv set_hv]. rewrite D. cbn. destruct i; reflexivity.
  - cbn [hv set_hv]. intros q x D. unfold deref in *. rewrite nth_error_app1; [exact D|]. apply nth_error_Some. intros X. rewrite X in D. discriminate.
Qed.
End MeshSetProofs.
Section Exact.
Context {N : Num}.
Theorem setVertex_clear (s s' : mst N) i p : owning s -> m_setVertex s i p = Ok s' ->
  ((exists x, deref (hv s) p = Ok x) /\ (forall j, j <> i -> m_vertex s j <> Ok p) -> exists s'', m_clear s' = Ok s'') /\
  (((forall x, deref (hv s) p <> Ok x) \/ exists j, j <> i /\ m_vertex s j = Ok p) -> m_clear s' = UB).
Proof.
  intros O E. split; intros H.
  - apply clear_iff. now apply (setVertex_owning s s' i p O E).
  - apply clear_iff. intros O'. apply (setVertex_owning s s' i p O E) in O'. destruct O' as [[x A] B].
    destruct H as [H|[j [Hj H]]]; [now apply (H x)|now apply (B j)].
Qed.
Theorem setElement_clear (s s' : mst N) i p : owning s -> m_setElement s i p = Ok s' ->
  ((exists x, deref (he s) p = Ok x) /\ (forall j, j <> i -> m_element s j <> Ok p) -> exists s'', m_clear s' = Ok s'') /\
  (((forall x, deref (he s) p <> Ok x) \/ exists j, j <> i /\ m_element s j = Ok p) -> m_clear s' = UB).
Proof.
  intros O E. split; intros H.
  - apply clear_iff. now apply (setElement_owning s s' i p O E).
  - apply clear_iff. intros O'. apply (setElement_owning s s' i p O E) in O'. destruct O' as [[x A] B].
    destruct H as [H|[j [Hj H]]]; [now apply (H x)|now apply (B j)].
Qed.
End Exact.
