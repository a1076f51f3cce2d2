(** The OBJ loader. *)
From Coq Require Import List Arith Bool Lia.
From Verif Require Import Base BaseProofs Num SimplexModel MeshModel MeshSpec MeshPool MeshProofs MeshResult HyperSpec ObjModel ObjSpec.
Import ListNotations.
Open Scope res_scope.

Lemma for_foreach {S} n : forall lo (f : nat -> S -> res S) s, for_n n lo f s = foreach (seq lo n) f s.
Proof. induction n as [|n IH]; intros; cbn; auto. destruct (f lo s); cbn; auto. Qed.
Lemma foreach_map {X Y S} (g : X -> Y) (f : Y -> S -> res S) l : forall s, foreach (map g l) f s = foreach l (fun x => f (g x)) s.
Proof. induction l as [|x l IH]; intros s; cbn; auto. destruct (f (g x) s); cbn; auto. Qed.
Lemma foreach_ext {X S} (f g : X -> S -> res S) l : (forall x s, In x l -> f x s = g x s) -> forall s, foreach l f s = foreach l g s.
Proof. induction l as [|x l IH]; intros H s; cbn; auto. rewrite H by (now left). destruct (g x s); cbn; auto. apply IH. intros. apply H. now right. Qed.

Section Triples.
Context {A : Type}.
Lemma triples_ind (P : list A -> Prop) : (forall l, length l < 3 -> P l) -> (forall a b c l, P l -> P (a :: b :: c :: l)) -> forall l, P l.
Proof.
  intros H0 H1 l. assert (H : forall n l, length l <= n -> P l).
  { induction n as [|n IH]; intros [|a [|b [|c r]]] Hl; try (apply H0; cbn in *; lia). apply H1, IH. cbn in Hl. lia. }
  apply (H (length l)). lia.
Qed.
Lemma triples_short (l : list A) : length l < 3 -> triples l = [].
Proof. destruct l as [|a [|b [|c r]]]; cbn; auto; lia. Qed.
Lemma triples_len (l : list A) : length (triples l) = length l / 3.
Proof.
  induction l as [l H|a b c l IH] using triples_ind; [rewrite triples_short, Nat.div_small; auto|].
  cbn [triples length]. rewrite IH. replace (S (S (S (length l)))) with (length l + 1 * 3) by lia. rewrite Nat.div_add by lia. lia.
Qed.
Lemma triples_nth (l : list A) d i k : i < length l / 3 -> k < 3 -> nth_error l (3 * i + k) = Some (coord (nth i (triples l) d) k).
Proof.
  revert i. induction l as [l H|a b c l IH] using triples_ind; intros i Hi Hk.
  - rewrite Nat.div_small in Hi; lia.
  - destruct i as [|i].
    + cbn [triples nth]. assert (k = 0 \/ k = 1 \/ k = 2) as [-> | [-> | ->]] by lia; reflexivity.
    + cbn [triples nth]. rewrite <- IH; auto.
      * replace (3 * S i + k) with (S (S (S (3 * i + k)))) by lia. reflexivity.
      * cbn [length] in Hi. replace (S (S (S (length l)))) with (length l + 1 * 3) in Hi by lia. rewrite Nat.div_add in Hi; lia.
Qed.
Lemma vget_triple (l : list A) d i k : i < length l / 3 -> k < 3 -> vget l (3 * i + k) = Ok (coord (nth i (triples l) d) k).
Proof. intros. unfold vget. now rewrite (triples_nth l d). Qed.
End Triples.
Lemma map_nth_seq {A B} (f : A -> B) (l : list A) d : map f l = map (fun i => f (nth i l d)) (seq 0 (length l)).
Proof.
  apply nth_error_ext. intros i. rewrite !nth_error_map. destruct (Nat.lt_ge_cases i (length l)) as [H|H].
  - rewrite (nth_error_nth' l d H). rewrite (nth_error_nth' (seq 0 (length l)) 0) by (now rewrite seq_length). cbn. rewrite seq_nth by auto. reflexivity.
  - rewrite !(proj2 (nth_error_None _ _)); auto. now rewrite seq_length.
Qed.

Lemma skipn_tl {A} (l : list A) : forall k, skipn (S k) l = tl (skipn k l).
Proof. induction l as [|x l IH]; intros [|k]; auto. cbn [skipn]. rewrite <- IH. reflexivity. Qed.

Section Obj.
Context {N : Num}.
Notation mst := (mst N).

(** ** Vertices whose pointers are all live *)
Definition alive (n : nat) (s : mst) : Prop := mV s = seq 0 n /\ exists f, hv s = pool n f.
Lemma alive_vertex n s i : alive n s -> i < n -> m_vertex s i = Ok i.
Proof. intros (H & _) Hi. unfold m_vertex. rewrite H. now apply vget_seq. Qed.
Lemma alive_new : alive 0 m_new.
Proof. split; auto. exists (fun _ => mk_vertex []). reflexivity. Qed.
Lemma alive_add n s pos : alive n s -> returns (do_op (AddVertex pos) s) (alive (S n)).
Proof.
  intros (HV & f & Hf). unfold do_op, new_vertex, m_addVertex, set_hv. cbn [hv he hd mV mE mD].
  rewrite Hf, pool_len, pool_snoc, deref_pool by lia. cbn [bind]. rewrite store_pool by lia. cbn [bind]. eexists. split; [reflexivity|].
  split; cbn [hv mV]; [rewrite HV, seq_S; reflexivity|]. eexists. reflexivity.
Qed.

(** ** What setupNeighbors needs not to leave the pools *)
Record wired (n m : nat) (s : mst) : Prop := {
  wi_alive : alive n s;
  wi_elems : mE s = seq 0 m;
  wi_heap : length (he s) = m;
  wi_elem : forall e, e < m -> exists x, deref (he s) e = Ok x /\ length (sx_v (me_sx x)) = 3 /\ length (me_n x) = 3 /\
     exists a b c, me_v x = [Some a; Some b; Some c] /\ a < n /\ b < n /\ c < n;
  wi_owner : forall k x, deref (hv s) k = Ok x -> forall e, In e (mv_el x) -> e < m }.
Lemma deref_app {A} (h : list (option A)) x k : k < length h -> deref (h ++ [x]) k = deref h k.
Proof. intros H. unfold deref. now rewrite nth_error_app1. Qed.
Lemma deref_last {A} (h : list (option A)) x : deref (h ++ [Some x]) (length h) = Ok x.
Proof. unfold deref. rewrite nth_error_app2, Nat.sub_diag by lia. reflexivity. Qed.
Lemma deref_lt {A} (h : list (option A)) k x : deref h k = Ok x -> k < length h.
Proof. unfold deref. intros H. apply nth_error_Some. destruct (nth_error h k); [discriminate|discriminate]. Qed.
Lemma store_spec {A} (h : list (option A)) k x y : deref h k = Ok x ->
  exists h', store h k y = Ok h' /\ length h' = length h /\ forall j, deref h' j = if j =? k then Ok y else deref h j.
Proof.
  intros H. pose proof (deref_lt _ _ _ H) as Hk. exists (upd h k (Some y)). unfold store. rewrite H. cbn [bind].
  split; auto. split; [apply upd_length|]. intros j. unfold deref. rewrite nth_error_upd.
  destruct (j =? k) eqn:E; cbn [andb]; auto. rewrite (proj2 (Nat.ltb_lt _ _) Hk). reflexivity.
Qed.
Lemma wired_vertices n s : alive n s -> mE s = [] -> he s = [] -> (forall k x, deref (hv s) k = Ok x -> mv_el x = []) -> wired n 0 s.
Proof.
  intros A E H V. constructor; auto.
  - now rewrite H.
  - intros; lia.
  - intros k x Hx e He. rewrite (V k x Hx) in He. destruct He.
Qed.
Lemma wired_add n m s a b c : wired n m s -> a < n -> b < n -> c < n -> returns (do_op (AddElement a b c) s) (wired n (S m)).
Proof.
  intros [A E H X O] Ha Hb Hc. unfold do_op. rewrite !(alive_vertex n) by auto. cbn [bind].
  unfold new_element, m_addElement, set_he. cbn [hv he hd mV mE mD]. rewrite H.
  destruct A as (HV & f & Hf).
  eapply returns_mono; [apply (for_returns (fun i s' => mV s' = seq 0 n /\ mE s' = seq 0 (S m) /\ length (he s') = S m /\
      (exists f, hv s' = pool n f) /\ (forall k x, deref (hv s') k = Ok x -> forall e, In e (mv_el x) -> e < S m) /\
      (forall e, e < m -> deref (he s') e = deref (he s) e) /\
      exists x, deref (he s') m = Ok x /\ length (sx_v (me_sx x)) = 3 /\ length (me_n x) = 3 /\ me_v x = [Some a; Some b; Some c])); [lia| |]|].
  - cbn [hv he hd mV mE mD]. split; [auto|]. split; [rewrite E, seq_S; reflexivity|]. split; [rewrite app_length; cbn; lia|].
    split; [eauto|]. split; [intros k x Hx e He; specialize (O k x Hx e He); lia|].
    split; [intros e He; apply deref_app; lia|]. rewrite <- H, deref_last. eexists. split; [reflexivity|]. repeat split.
  - intros i s' Hi (IV & IE & IL & (g & Hg) & IO & IX & x & Hx & L1 & L2 & L3). rewrite Hx. cbn [bind]. rewrite L3.
    assert (Q : exists q, nth_error [Some a; Some b; Some c] i = Some (Some q) /\ q < n)
      by (destruct i as [|[|[|]]]; [exists a|exists b|exists c|lia]; auto).
    destruct Q as (q & Q & Hq). unfold vget. rewrite Q. cbn [bind nn]. rewrite Hg, deref_pool by auto. cbn [bind].
    unfold sx_put. rewrite vset_ok by lia. cbn [bind].
    destruct (store_spec (he s') m x (mkME (mkSx (upd (sx_v (me_sx x)) i (mv_pos (g q))) (sx_prep (me_sx x)) (sx_m (me_sx x)) (sx_inv (me_sx x)) (sx_det (me_sx x)))
       (me_v x) (me_n x) (me_dof x)) Hx) as (h' & Hh & Lh & Dh).
    rewrite L3 in Hh. rewrite Hh. cbn [bind].
    unfold push_el. rewrite deref_pool by auto. cbn [bind]. rewrite store_pool by auto. cbn [bind]. eexists. split; [reflexivity|].
    cbn [hv he hd mV mE mD]. split; [auto|]. split; [auto|]. split; [lia|]. split; [eauto|]. split; [|split].
    + intros k y Hy e He. apply deref_pool_inv in Hy as (Hk & ->). destruct (Nat.eq_dec k q) as [->|Hn].
      * rewrite fup_eq in He. cbn in He. apply in_app_iff in He as [He|[<-|[]]]; [|lia].
        eapply IO; [|exact He]. rewrite Hg. now apply deref_pool.
      * rewrite fup_ne in He by auto. eapply IO; [|exact He]. rewrite Hg. now apply deref_pool.
    + intros e He. rewrite Dh. destruct (e =? m) eqn:Em; [apply Nat.eqb_eq in Em; lia|]. apply IX; auto.
    + rewrite Dh, Nat.eqb_refl. eexists. split; [reflexivity|]. cbn. rewrite upd_length. rewrite L3. auto.
  - cbn beta. intros s' (IV & IE & IL & (g & Hg) & IO & IX & x & Hx & L1 & L2 & L3). constructor; auto.
    + split; eauto.
    + intros e He. destruct (Nat.eq_dec e m) as [->|Hn].
      * exists x. split; auto. split; auto. split; auto. exists a, b, c. auto.
      * rewrite IX by lia. apply X. lia.
Qed.

(** ** setupNeighbors on arbitrary triangles, also with repeated corners *)
Lemma wired_neighbor n m s p i d : wired n m s -> p < m -> i < 3 ->
  returns (set_neighbor (he s) p i d) (fun g => forall h l, wired n m (mkM (hv s) g h (mV s) (mE s) l)).
Proof.
  intros [A E H X O] Hp Hi. unfold set_neighbor. destruct (X p Hp) as (x & Hx & L1 & L2 & a & b & c & L3 & Ha & Hb & Hc).
  rewrite Hx. cbn [bind]. rewrite vset_ok by lia. cbn [bind].
  destruct (store_spec (he s) p x (mkME (me_sx x) (me_v x) (upd (me_n x) i (Some d)) (me_dof x)) Hx) as (h' & Hh & Lh & Dh).
  rewrite Hh. eexists. split; [reflexivity|]. intros h l. constructor; cbn [hv he hd mV mE mD]; auto; [lia|].
  intros e He. rewrite Dh. destruct (e =? p) eqn:Ep.
  - eexists. split; [reflexivity|]. cbn. rewrite upd_length. split; auto. split; auto. exists a, b, c. auto.
  - apply X; auto.
Qed.
Lemma shared_in vs i : length vs = 3 -> returns (sn_shared vs i) (fun sh => length sh = (if i <? 3 then 2 else 3) /\ forall v, In v sh -> In v vs).
Proof.
  destruct vs as [|a [|b [|c [|? ?]]]]; try discriminate. intros _.
  destruct i as [|[|[|i]]]; cbn; eexists; (split; [reflexivity|]); cbn; intuition auto.
Qed.
Lemma wired_find n m s p sh : wired n m s -> length sh = 2 -> (forall v, In v sh -> exists k, v = Some k /\ k < n) ->
  post (sn_find s p sh) (fun e1 => forall f, e1 = Some f -> f < m) (fun e => e = TooManySharedFaces).
Proof.
  intros [A E H X O] Hl Hin. unfold sn_find.
  apply (for_post (fun _ e1 => forall f, e1 = Some f -> f < m)); [lia|discriminate|].
  intros j e1 Hj He1. assert (Hs : exists v, nth_error sh j = Some v) by (destruct (nth_error sh j) eqn:Es; eauto; apply nth_error_None in Es; lia).
  destruct Hs as (v & Hs). unfold vget. rewrite Hs. cbn [bind]. destruct (Hin v (nth_error_In _ _ Hs)) as (k & -> & Hk). cbn [nn bind].
  destruct A as (_ & f & Hf). rewrite Hf, deref_pool by auto. cbn [bind].
  assert (Ho : forall e, In e (mv_el (f k)) -> e < m) by (intros e; apply (O k); rewrite Hf; now apply deref_pool).
  revert e1 He1 Ho. generalize (mv_el (f k)). induction l as [|oe l IH]; intros e1 He1 Ho; cbn [foreach]; [exact He1|].
  destruct (oe =? p); [cbn [bind]; apply IH; auto; intros; apply Ho; now right|].
  destruct (X oe) as (x & Hx & _); [apply Ho; now left|]. rewrite Hx. cbn [bind].
  assert (Hr : forall e, In e l -> e < m) by (intros; apply Ho; now right).
  assert (Ho0 : oe < m) by (apply Ho; now left).
  destruct (sn_matches sh (me_v x) =? 2); [|cbn [bind]; apply IH; auto].
  destruct e1 as [g|]; [destruct (negb (g =? oe)); [reflexivity|]|]; cbn [bind]; apply IH; auto; intros ? [= <-]; auto.
Qed.
Lemma opposite_lt sh vs : forall j k, sn_opposite sh vs j = Some k -> k < j + length vs.
Proof. induction vs as [|v vs IH]; intros j k; cbn; [discriminate|]. destruct (in_shared sh v); [intros H; apply IH in H; lia|intros [= <-]; lia]. Qed.
Lemma wired_face n m s p i : wired n m s -> p < m -> i < 3 -> post (sn_face p i s) (wired n m) (fun e => e = TooManySharedFaces).
Proof.
  intros W Hp Hi. unfold sn_face. destruct (wi_elem _ _ _ W p Hp) as (x & Hx & L1 & L2 & a & b & c & L3 & Ha & Hb & Hc).
  rewrite Hx. cbn [bind]. destruct (nth_error (me_n x) i) as [y|] eqn:Ey; [|apply nth_error_None in Ey; lia].
  unfold vget at 1. rewrite Ey. cbn [bind]. destruct y as [y|]; [exact W|].
  destruct (shared_in (me_v x) i) as (sh & Hsh & Ls & Is); [now rewrite L3|]. rewrite Hsh. cbn [bind].
  rewrite (proj2 (Nat.ltb_lt _ _) Hi) in Ls. rewrite Ls. cbn [Nat.eqb negb].
  destruct (wired_neighbor n m s p i (length (hd s)) W Hp Hi) as (g & Hg & Wg). rewrite Hg. cbn [bind].
  specialize (Wg (hd s) (mD s)). fold (set_he s g) in Wg. apply post_bind.
  eapply post_mono; [apply (wired_find n m (set_he s g) p sh Wg Ls)| |auto].
  - intros v Hv. apply Is in Hv. rewrite L3 in Hv. destruct Hv as [<-|[<-|[<-|[]]]]; eauto.
  - cbn beta. intros e1 He1. destruct e1 as [f|].
    + specialize (He1 f eq_refl). destruct (wi_elem _ _ _ Wg f He1) as (o & Ho & M1 & M2 & a' & b' & c' & M3 & _).
      rewrite Ho. cbn [bind]. destruct (sn_opposite sh (me_v o) 0) as [j|] eqn:Ej.
      * apply opposite_lt in Ej. rewrite M3 in Ej. cbn in Ej.
        destruct (wired_neighbor n m (set_he s g) f j (length (hd s)) Wg He1 ltac:(lia)) as (g' & Hg' & Wg').
        cbn [hv he hd mV mE mD set_he] in Hg'. cbn [he set_he]. rewrite Hg'. cbn [bind post]. apply Wg'.
      * cbn [bind post]. destruct Wg as [B1 B2 B3 B4 B5]. constructor; cbn [hv he hd mV mE mD set_he] in *; auto.
    + cbn [bind post]. destruct Wg as [B1 B2 B3 B4 B5]. constructor; cbn [hv he hd mV mE mD set_he] in *; auto.
Qed.
Theorem wired_setup n m s : wired n m s -> post (m_setupNeighbors s) (wired n m) (fun e => e = TooManySharedFaces).
Proof.
  intros W. unfold m_setupNeighbors. rewrite (wi_elems _ _ _ W).
  assert (G : forall l s, (forall p, In p l -> p < m) -> wired n m s ->
     post (foreach l (fun p s => for_ 0 3 (fun i s => sn_face p i s) s) s) (wired n m) (fun e => e = TooManySharedFaces)).
  { induction l as [|p l IH]; intros s0 Hl W0; cbn [foreach]; [exact W0|]. apply post_bind.
    eapply post_mono; [apply (for_post (fun _ => wired n m) (fun e => e = TooManySharedFaces)); [lia|exact W0|]| |auto].
    - intros i s1 Hi W1. apply wired_face; auto; [apply Hl; now left|lia].
    - cbn beta. intros s1 W1. apply IH; auto. intros q Hq. apply Hl. now right. }
  apply G; auto. intros p Hp. apply in_seq in Hp. lia.
Qed.

(** ** The two loops *)
Lemma vertices_loop yI xI (pos : list N) : xI < 3 -> yI < 3 -> forall s,
  for_ 0 (length pos / 3) (obj_vertex yI xI pos) s =
  foreach (map (fun p => AddVertex [coord p xI; coord p yI]) (triples pos)) do_op s.
Proof.
  intros Hx Hy s. unfold for_. rewrite Nat.sub_0_r, for_foreach. destruct pos as [|d0 pos']; [reflexivity|]. set (pos := d0 :: pos').
  rewrite (map_nth_seq _ (triples pos) (d0, d0, d0)), triples_len, foreach_map. apply foreach_ext. intros i s' Hi. apply in_seq in Hi.
  unfold obj_vertex. rewrite !(vget_triple pos (d0, d0, d0)) by (auto; lia). reflexivity.
Qed.
Lemma vertices_wired (l : list (list N)) : forall n s, wired n 0 s -> (forall k x, deref (hv s) k = Ok x -> mv_el x = []) ->
  returns (foreach (map (fun p => AddVertex p) l) do_op s) (wired (n + length l) 0).
Proof.
  induction l as [|p l IH]; intros n s W V; cbn [map foreach length].
  - eexists. split; [reflexivity|]. now rewrite Nat.add_0_r.
  - destruct W as [(HV & f & Hf) E H X O]. unfold do_op at 1. unfold new_vertex, m_addVertex, set_hv. cbn [hv he hd mV mE mD].
    rewrite Hf, pool_len, pool_snoc, deref_pool by lia. cbn [bind]. rewrite store_pool by lia. cbn [bind].
    rewrite <- Nat.add_succ_comm.
    assert (V' : forall k x, deref (pool (S n) (fup (fup f n (mk_vertex p)) n (mkMV (mv_bound (fup f n (mk_vertex p) n)) (mv_impl (fup f n (mk_vertex p) n))
       (length (mV s)) (mv_pos (fup f n (mk_vertex p) n)) (mv_el (fup f n (mk_vertex p) n))))) k = Ok x -> mv_el x = []).
    { intros k x Hx. apply deref_pool_inv in Hx as (Hk & ->). destruct (Nat.eq_dec k n) as [->|Hn].
      - rewrite !fup_eq. reflexivity.
      - rewrite !fup_ne by auto. apply (V k). rewrite Hf. apply deref_pool. lia. }
    apply IH; [|exact V']. apply wired_vertices; cbn [hv he hd mV mE mD]; auto.
    + split; cbn [hv mV]; [rewrite HV, seq_S; reflexivity|eauto].
    + now apply length_zero_iff_nil.
Qed.
Lemma wired_new : wired 0 0 m_new.
Proof. apply wired_vertices; auto; [apply alive_new|]. intros k x Hx. destruct k; discriminate. Qed.

(** the range check of one face *)
Lemma element_step idxs vc d i s m : alive vc s -> i < length idxs / 3 -> m = nth i (triples idxs) d ->
  obj_element idxs vc i s =
  if (coord m 0 <? vc) && (coord m 1 <? vc) && (coord m 2 <? vc) then do_op (AddElement (coord m 0) (coord m 1) (coord m 2)) s else Throw LoadObjError.
Proof.
  intros A Hi ->. unfold obj_element, obj_corner. rewrite !(vget_triple idxs d) by (auto; lia). cbn [bind].
  unfold do_op. assert (B : forall a, vc <=? a = negb (a <? vc)) by (intros; apply Nat.leb_antisym).
  rewrite !B. destruct (_ <? vc) eqn:E0; cbn [negb bind andb]; auto. apply Nat.ltb_lt in E0.
  rewrite (alive_vertex vc) by auto. cbn [bind].
  destruct (coord _ 1 <? vc) eqn:E1; cbn [negb bind andb]; auto. apply Nat.ltb_lt in E1. rewrite (alive_vertex vc) by auto. cbn [bind].
  destruct (coord _ 2 <? vc); cbn [negb bind andb]; reflexivity.
Qed.
Definition okf (vc : nat) (f : nat * nat * nat) : bool := (coord f 0 <? vc) && (coord f 1 <? vc) && (coord f 2 <? vc).
Lemma elements_loop vc l : forall m (s : mst), wired vc m s ->
  if forallb (okf vc) l
  then returns (foreach (map (fun f => AddElement (coord f 0) (coord f 1) (coord f 2)) l) do_op s) (wired vc (m + length l)) /\
       foreach l (fun f s => if okf vc f then do_op (AddElement (coord f 0) (coord f 1) (coord f 2)) s else Throw LoadObjError) s =
       foreach (map (fun f => AddElement (coord f 0) (coord f 1) (coord f 2)) l) do_op s
  else foreach l (fun f s => if okf vc f then do_op (AddElement (coord f 0) (coord f 1) (coord f 2)) s else Throw LoadObjError) s = Throw LoadObjError.
Proof.
  induction l as [|f l IH]; intros m s W; cbn [forallb map foreach length].
  - split; auto. eexists. split; [reflexivity|]. now rewrite Nat.add_0_r.
  - destruct (okf vc f) eqn:Ef; cbn [andb bind]; auto.
    unfold okf in Ef. apply andb_true_iff in Ef as (Ef & E2). apply andb_true_iff in Ef as (E0 & E1). apply Nat.ltb_lt in E0, E1, E2.
    destruct (wired_add vc m s _ _ _ W E0 E1 E2) as (s' & Hs & W'). rewrite Hs. cbn [bind].
    specialize (IH (S m) s' W'). rewrite <- Nat.add_succ_comm. exact IH.
Qed.
Lemma elements_model idxs vc (s : mst) m : wired vc m s ->
  for_ 0 (length idxs / 3) (obj_element idxs vc) s =
  foreach (triples idxs) (fun f s => if okf vc f then do_op (AddElement (coord f 0) (coord f 1) (coord f 2)) s else Throw LoadObjError) s.
Proof.
  intros W. unfold for_. rewrite Nat.sub_0_r, for_foreach. rewrite <- triples_len.
  assert (Q : forall l k (s : mst) m, wired vc m s -> k + length l = length (triples idxs) -> skipn k (triples idxs) = l ->
     foreach (seq k (length l)) (obj_element idxs vc) s =
     foreach l (fun f s => if okf vc f then do_op (AddElement (coord f 0) (coord f 1) (coord f 2)) s else Throw LoadObjError) s).
  { clear s m W. induction l as [|f l IH]; intros k s m W Hk Hs; cbn [length seq foreach]; auto. cbn [length] in Hk.
    assert (Ef : f = nth k (triples idxs) f).
    { rewrite <- (firstn_skipn k (triples idxs)). rewrite app_nth2; rewrite firstn_length_le by lia; [|lia].
      rewrite Nat.sub_diag, Hs. reflexivity. }
    rewrite (element_step idxs vc f k s f); auto; [|exact (proj1 (conj (wi_alive _ _ _ W) I))|rewrite <- triples_len; lia].
    fold (okf vc f). destruct (okf vc f) eqn:Eo; cbn [bind]; auto.
    unfold okf in Eo. apply andb_true_iff in Eo as (Eo & E2). apply andb_true_iff in Eo as (E0 & E1). apply Nat.ltb_lt in E0, E1, E2.
    destruct (wired_add vc m s _ _ _ W E0 E1 E2) as (s' & Hs' & W'). rewrite Hs'. cbn [bind]. apply (IH (S k) s' (S m)); auto; [lia|].
    rewrite skipn_tl, Hs. reflexivity. }
  apply (Q (triples idxs) 0 s m); auto.
Qed.

Lemma nonempty_counts (sh : shape N) : nonempty sh -> m_reserve (length (positions sh) / 3) = Ok tt /\ m_reserve (length (indices sh) / 3) = Ok tt.
Proof.
  intros (H & H'). unfold m_reserve. rewrite <- !triples_len. destruct (triples (positions sh)); [congruence|]. destruct (triples (indices sh)); [congruence|]. auto.
Qed.
Lemma ok_faces (sh : shape N) : forallb (okf (vertex_count sh)) (triples (indices sh)) = true <-> in_range sh.
Proof.
  rewrite forallb_forall. unfold in_range, faces. split.
  - intros H f k Hf Hk. apply in_map_iff in Hf as (t & <- & Ht). specialize (H t Ht). unfold okf in H.
    apply andb_true_iff in H as (H & E2). apply andb_true_iff in H as (E0 & E1). apply Nat.ltb_lt in E0, E1, E2. destruct Hk as [<-|[<-|[<-|[]]]]; auto.
  - intros H t Ht. assert (G : forall k, In k [coord t 0; coord t 1; coord t 2] -> k < vertex_count sh).
    { intros k. apply H. apply in_map_iff. eauto. }
    unfold okf. rewrite !(proj2 (Nat.ltb_lt _ _)); auto; apply G; cbn; auto.
Qed.
Lemma obj_cases yI xI (sh : shape N) rest : xI < 3 -> yI < 3 -> nonempty sh ->
  if forallb (okf (vertex_count sh)) (triples (indices sh))
  then obj_load yI xI (sh :: rest) = (let* s := build (obj_program yI xI sh) in m_setupNeighbors s) /\
       returns (build (obj_program yI xI sh)) (wired (vertex_count sh) (length (triples (indices sh))))
  else obj_load yI xI (sh :: rest) = Throw LoadObjError.
Proof.
  intros Hx Hy Hn. unfold obj_load. destruct (nonempty_counts sh Hn) as (-> & ->). cbn [bind]. rewrite vertices_loop by auto.
  unfold build, obj_program. rewrite foreach_app.
  replace (map (fun p => AddVertex [coord p xI; coord p yI]) (triples (positions sh)))
    with (map (fun p => AddVertex p) (map (fun p => [coord p xI; coord p yI]) (triples (positions sh)))) by (rewrite map_map; reflexivity).
  destruct (vertices_wired (map (fun p => [coord p xI; coord p yI]) (triples (positions sh))) 0 m_new wired_new) as (s & Hs & W).
  { intros k x Hk. destruct k; discriminate. }
  rewrite Hs. cbn [bind]. rewrite map_length in W. cbn [Nat.add] in W. fold (vertex_count sh) in W.
  rewrite <- (triples_len (positions sh)). fold (vertex_count sh). rewrite (elements_model _ _ _ 0 W).
  pose proof (elements_loop (vertex_count sh) (triples (indices sh)) 0 s W) as Q.
  destruct (forallb _ _).
  - destruct Q as ((s' & Hs' & W') & E). rewrite E, Hs'. cbn [bind]. split; auto. eexists. split; [reflexivity|exact W'].
  - rewrite Q. reflexivity.
Qed.
Theorem obj_loads yI xI (sh : shape N) rest : xI < 3 -> yI < 3 -> nonempty sh -> in_range sh ->
  obj_load yI xI (sh :: rest) = let* s := build (obj_program yI xI sh) in m_setupNeighbors s.
Proof. intros Hx Hy Hn Hr. pose proof (obj_cases yI xI sh rest Hx Hy Hn) as Q. rewrite (proj2 (ok_faces sh) Hr) in Q. apply Q. Qed.
Theorem obj_rejects yI xI (sh : shape N) rest : xI < 3 -> yI < 3 -> nonempty sh ->
  (obj_load yI xI (sh :: rest) = Throw LoadObjError <-> ~ in_range sh).
Proof.
  intros Hx Hy Hn. pose proof (obj_cases yI xI sh rest Hx Hy Hn) as Q. rewrite <- ok_faces. destruct (forallb _ _).
  - split; [|intros H; destruct H; auto]. intros E. exfalso. destruct Q as (Q & (s & Hs & W)). rewrite Q, Hs in E. cbn [bind] in E.
    pose proof (wired_setup _ _ _ W) as P. rewrite E in P. discriminate.
  - split; [intros _; discriminate|auto].
Qed.
Theorem obj_safe yI xI (sh : shape N) rest : xI < 3 -> yI < 3 -> nonempty sh ->
  post (obj_load yI xI (sh :: rest)) (fun s => length (mV s) = vertex_count sh /\ length (mE s) = length (faces sh))
    (fun e => e = LoadObjError \/ e = TooManySharedFaces).
Proof.
  intros Hx Hy Hn. pose proof (obj_cases yI xI sh rest Hx Hy Hn) as Q. destruct (forallb _ _).
  - destruct Q as (Q & (s & Hs & W)). rewrite Q, Hs. cbn [bind]. eapply post_mono; [apply (wired_setup _ _ _ W)| |cbn; auto].
    cbn beta. intros s' [(HV & _) HE _ _ _]. rewrite HV, HE, !seq_length. unfold faces. rewrite map_length. auto.
  - rewrite Q. cbn. auto.
Qed.

(** ** Valid programs *)
Lemma program_points yI xI (sh : shape N) : points (obj_program yI xI sh) = points2 yI xI sh.
Proof.
  unfold obj_program, points2. induction (triples (positions sh)) as [|p l IH]; cbn [map app points]; [|now rewrite IH].
  induction (triples (indices sh)); auto.
Qed.
Lemma program_tris yI xI (sh : shape N) : tris (obj_program yI xI sh) = faces sh.
Proof.
  unfold obj_program, faces. induction (triples (positions sh)) as [|p l IH]; cbn [map app tris]; auto.
  induction (triples (indices sh)) as [|f l IH]; cbn [map tris]; congruence.
Qed.
Lemma program_marked yI xI (sh : shape N) k : ~ marked (obj_program yI xI sh) k.
Proof. unfold marked, obj_program. rewrite in_app_iff, !in_map_iff. intros [(? & ? & _)|(? & ? & _)]; discriminate. Qed.
Lemma program_valid yI xI (sh : shape N) : in_range sh -> distinct_corners sh -> valid 0 (obj_program yI xI sh).
Proof.
  intros Hr Hd. assert (G : forall l n, n + length l = vertex_count sh ->
    valid n (map (fun p : N * N * N => AddVertex [coord p xI; coord p yI]) l ++ map (fun f => AddElement (coord f 0) (coord f 1) (coord f 2)) (triples (indices sh)))).
  { induction l as [|p l IH]; intros n Hn; cbn [map app valid length] in *.
    - rewrite Nat.add_0_r in Hn. subst n.
      assert (A : forall f, In f (triples (indices sh)) -> In [coord f 0; coord f 1; coord f 2] (faces sh)) by (intros f Hf; apply in_map_iff; eauto).
      revert A. generalize (triples (indices sh)). induction l as [|f l IH]; intros A; cbn [map valid]; auto.
      pose proof (fun k => Hr _ k (A f (or_introl eq_refl))) as R. specialize (Hd _ (A f (or_introl eq_refl))).
      apply NoDup_cons_iff in Hd as (D1 & Hd). apply NoDup_cons_iff in Hd as (D2 & _). cbn in D1, D2.
      split; [repeat split; apply R; cbn; auto|]. split; [repeat split; intros E; [apply D1|apply D1|apply D2]; rewrite E; auto|].
      apply IH. intros g Hg. apply A. now right.
    - split; auto. apply IH. lia. }
  apply G. reflexivity.
Qed.
Theorem setup_holds (ops : list (mop N)) : valid 0 ops -> ~ three_share_a_face (tris ops) ->
  returns (let* s := build ops in m_setupNeighbors s) (holds (points ops) (marked ops) (tris ops)).
Proof.
  intros Hv H3. pose proof (setup_neighbours ops Hv) as Q. destruct (build_ok ops Hv) as (Hb & HT). rewrite Hb in *. cbn [bind] in *.
  destruct (m_setupNeighbors _) as [s'|e| | | |]; cbn [bind post fst snd] in Q; try contradiction; [|destruct Q; contradiction].
  destruct Q as (Hn & Hh & HV & _). exists s'. split; auto. constructor; auto.
  - rewrite HV. unfold mesh_of. cbn [mV]. now rewrite seq_length.
  - intros k Hk. unfold m_vertex. rewrite HV, Hh. unfold mesh_of. cbn [mV hv]. rewrite vget_seq, deref_pool by auto. split; auto.
    eexists. split; [reflexivity|]. unfold vtx. cbn. repeat split; auto; rewrite markfn_spec; intuition discriminate.
Qed.
Theorem obj_mesh yI xI (sh : shape N) rest : xI < 3 -> yI < 3 -> nonempty sh -> in_range sh -> distinct_corners sh ->
  (~ three_share_a_face (faces sh) -> returns (obj_load yI xI (sh :: rest)) (holds (points2 yI xI sh) (fun _ => False) (faces sh))) /\
  (three_share_a_face (faces sh) -> obj_load yI xI (sh :: rest) = Throw TooManySharedFaces).
Proof.
  intros Hx Hy Hn Hr Hd. rewrite obj_loads by auto. pose proof (program_valid yI xI sh Hr Hd) as Hv. rewrite <- (program_tris yI xI sh). split; intros H3.
  - destruct (setup_holds _ Hv H3) as (s & Hs & [A B C]). exists s. split; auto. rewrite program_points in *. constructor; auto.
    intros k Hk. destruct (B k Hk) as (B1 & x & B2 & B3 & B4 & B5). split; auto. exists x. split; [auto|]. split; [auto|]. split; [auto|]. split; [|intros []].
    intros F. apply B5 in F. now apply program_marked in F.
  - now apply (setup_iff _ Hv).
Qed.
End Obj.
