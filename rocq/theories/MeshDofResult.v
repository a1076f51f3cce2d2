(** The results about prepareMesh. *)
From Coq Require Import List Arith Bool Lia Ring Field.
From Verif Require Import Base BaseProofs Num OrdField UtilsSpec VectorModel SimplexModel SimplexSpec MeshModel MeshSpec MeshPool MeshProofs MeshResult MeshValid MeshDofSpec MeshDof ShapeModel ShapeSpec.
Import ListNotations.
Local Open Scope nat_scope.
Open Scope res_scope.

Lemma nodup_map_in {A B} (f : A -> B) l : NoDup l -> (forall x y, In x l -> In y l -> f x = f y -> x = y) -> NoDup (map f l).
Proof.
  induction l as [|x l IH]; intros ND H; cbn; [constructor|]. inversion ND as [|? ? Hx Hl]; subst. constructor.
  - rewrite in_map_iff. intros (y & E & Hy). apply H in E; [|now right|now left]. subst. auto.
  - apply IH; auto. intros a b Ha Hb. apply H; now right.
Qed.
Lemma nodup_app {A} (l k : list A) : NoDup l -> NoDup k -> (forall x, In x l -> ~ In x k) -> NoDup (l ++ k).
Proof.
  induction l as [|x l IH]; intros Hl Hk D; auto. inversion Hl; subst. cbn. constructor.
  - rewrite in_app_iff. intros [H|H]; [auto|]. apply (D x); [now left|auto].
  - apply IH; auto. intros y Hy. apply D. now right.
Qed.
Lemma foreach_ext_in {A S} (l : list A) (f g : A -> S -> res S) : (forall x, In x l -> forall s, f x s = g x s) -> forall s, foreach l f s = foreach l g s.
Proof.
  induction l as [|x l IH]; intros H s; [reflexivity|]. cbn [foreach]. rewrite H by now left. destruct (g x s); cbn [bind]; auto. apply IH. intros y Hy. apply H. now right.
Qed.

Section Dof.
Context {N : Num}.
Notation mst := (mst N).
Variables (nv : nat) (fv : nat -> mvert N) (fs : nat -> simplex N) (T : list (list nat)).
Let m := length T.
Let tr e := nth e T [].
Variables (nb : nat -> list (option nat)) (nd : nat) (xs : nat -> list nat) (o : nat -> nat) (q : nat -> option nat).
Hypothesis HT : okT nv T.
Hypothesis G : graph T nb nd xs o q.
Hypothesis Hset : forall e i, e < m -> i < 3 -> setp nb e i.
Hypothesis Hpos : forall k, k < nv -> length (mv_pos (fv k)) = 2.

Definition eg (e i : nat) : nat := match nth_error (nb e) i with Some (Some d) => d | _ => 0 end.
Definition chunk (e : nat) : list (nat * nat) := [(e, eg e 2); (e, eg e 0); (e, eg e 1)].
Definition pairs (n : nat) : list (nat * nat) := flat_map chunk (seq 0 n).
Lemma eg_ok e i : e < m -> i < 3 -> eg e i < nd /\ nth_error (nb e) i = Some (Some (eg e i)) /\ vget (nb e) i = Ok (Some (eg e i)) /\ same_set (xs (eg e i)) (without i (tr e)).
Proof.
  intros He Hi. destruct (the_edge T nb nd xs o q G Hset e i He Hi) as (d & A & B & C & D). unfold eg. rewrite B. auto.
Qed.
Lemma eg_inj e i j : e < m -> i < 3 -> j < 3 -> eg e i = eg e j -> i = j.
Proof.
  intros He Hi Hj E. destruct (eg_ok e i He Hi) as (_ & _ & _ & A). destruct (eg_ok e j He Hj) as (_ & _ & _ & B). rewrite E in A.
  apply (without_inj (tr e) i j (tr_triple nv T HT e He) Hi Hj). eapply same_trans; [apply same_sym; exact A|exact B].
Qed.
Lemma pairs_S n : pairs (S n) = pairs n ++ chunk n.
Proof. unfold pairs. rewrite seq_S, flat_map_app. cbn [flat_map]. rewrite app_nil_r. reflexivity. Qed.
Notation st := (st nv fv fs T nb nd xs o q).
Notation stL := stL.
Lemma second_done : m_prepareMesh 2 (net nv fv fs T nb nd xs o q) = Ok (st (pairs m)).
Proof.
  unfold m_prepareMesh. rewrite (first_done nv fv fs T nb nd xs o q HT G Hset). cbn [bind Nat.eqb]. rewrite st_start.
  assert (K : forall j k, k + j = m -> foreach (seq k j) (fun p s => let* s := pm_edge 2 p s in let* s := pm_edge 0 p s in pm_edge 1 p s) (st (pairs k)) = Ok (st (pairs m))).
  { induction j as [|j IH]; intros k Hk; cbn [seq foreach]; [do 3 f_equal; lia|]. assert (Hkm : k < m) by lia.
    destruct (eg_ok k 0 Hkm ltac:(lia)) as (A0 & _ & B0 & _). destruct (eg_ok k 1 Hkm ltac:(lia)) as (A1 & _ & B1 & _). destruct (eg_ok k 2 Hkm ltac:(lia)) as (A2 & _ & B2 & _).
    rewrite (pm_edge_step nv fv fs T nb nd xs o q HT G Hpos (pairs k) k 2 _ Hkm B2 A2). cbn [bind].
    rewrite (pm_edge_step nv fv fs T nb nd xs o q HT G Hpos _ k 0 _ Hkm B0 A0). cbn [bind].
    rewrite (pm_edge_step nv fv fs T nb nd xs o q HT G Hpos _ k 1 _ Hkm B1 A1). cbn [bind]. rewrite <- !app_assoc. cbn [app].
    change [(k, eg k 2); (k, eg k 0); (k, eg k 1)] with (chunk k). rewrite <- pairs_S. apply IH. lia. }
  cbn [MeshDof.st mE]. fold m. apply (K m 0 eq_refl).
Qed.
Lemma first_order : m_prepareMesh 1 (net nv fv fs T nb nd xs o q) = Ok (st []).
Proof. unfold m_prepareMesh. rewrite (first_done nv fv fs T nb nd xs o q HT G Hset). cbn [bind Nat.eqb]. now rewrite st_start. Qed.

Lemma pairs_in n e d : In (e, d) (pairs n) <-> e < n /\ exists i, i < 3 /\ d = eg e i.
Proof.
  unfold pairs. rewrite in_flat_map. split.
  - intros (f & Hf & Hin). apply in_seq in Hf. destruct Hin as [E|[E|[E|[]]]]; inversion E; subst; (split; [lia|]); [exists 2|exists 0|exists 1]; split; auto; lia.
  - intros (He & i & Hi & ->). exists e. split; [apply in_seq; lia|]. destruct i as [|[|[|]]]; cbn; auto; lia.
Qed.
Lemma chunk_nodup e : e < m -> NoDup (chunk e).
Proof.
  intros He. assert (J : forall i j, i < 3 -> j < 3 -> i <> j -> (e, eg e i) <> (e, eg e j)) by (intros i j Hi Hj Hn E; inversion E as [E']; apply eg_inj in E'; auto).
  unfold chunk. repeat constructor; cbn; intros H; repeat (destruct H as [H|H]; [revert H; apply J; lia|]); auto.
Qed.
Lemma pairs_nodup n : n <= m -> NoDup (pairs n).
Proof.
  induction n as [|n IH]; intros Hn; [constructor|]. rewrite pairs_S. apply nodup_app; [apply IH; lia|apply chunk_nodup; lia|].
  intros (e, d) H1 H2. apply pairs_in in H1 as (H1 & _). destruct H2 as [E|[E|[E|[]]]]; inversion E; lia.
Qed.
Lemma pairs_of e n : e < n -> filter (fun p => fst p =? e) (pairs n) = chunk e.
Proof.
  intros He. induction n as [|n IH]; [lia|]. rewrite pairs_S, filter_app. destruct (Nat.eq_dec e n) as [->|Hne].
  - replace (filter (fun p => fst p =? n) (pairs n)) with (@nil (nat * nat)).
    + cbn. rewrite Nat.eqb_refl. reflexivity.
    + symmetry. destruct (filter _ _) as [|(f, d) l] eqn:E; auto. exfalso. assert (H : In (f, d) (filter (fun p => fst p =? n) (pairs n))) by (rewrite E; now left).
      apply filter_In in H as (H & F). apply pairs_in in H as (H & _). apply Nat.eqb_eq in F. cbn in F. lia.
  - rewrite IH by lia. cbn. replace (n =? e) with false by (symmetry; apply Nat.eqb_neq; auto). reflexivity.
Qed.
Lemma edge_elements d : d < nd -> forall e, (e < m /\ exists i, i < 3 /\ d = eg e i) <-> (Some (o d) = Some e \/ q d = Some e).
Proof.
  intros Hd e. destruct (g_edge _ _ _ _ _ _ G d Hd) as (A & (i & Hi & Ei) & C). fold (tr (o d)) in Ei. fold m in A, C. split.
  - intros (He & j & Hj & ->). destruct (eg_ok e j He Hj) as (_ & _ & _ & S). destruct (Nat.eq_dec e (o (eg e j))) as [<-|Hne]; [now left|]. right. apply C. split; auto. split; auto.
    intros z Hz. apply S in Hz. eapply without_in; eauto.
  - intros [E|E].
    + inversion E; subst e. split; auto. exists i. split; auto. assert (X : nth_error (nb (o d)) i = Some (Some d)).
      { apply (g_all _ _ _ _ _ _ G); auto. rewrite Ei. intros z; reflexivity. }
      unfold eg. now rewrite X.
    + apply C in E as (Hne & He & Hinc). split; auto. destruct (edge_two nv T nb nd xs o q HT G d Hd) as (x & y & Exy & Hx & Hy & Hxy).
      assert (Hxe : In x (tr e)) by (apply Hinc; rewrite Exy; now left). assert (Hye : In y (tr e)) by (apply Hinc; rewrite Exy; right; now left).
      destruct (face_of (tr e) x y (tr_triple nv T HT e He) Hxy Hxe Hye) as (j & Hj & S). exists j. split; auto.
      assert (X : nth_error (nb e) j = Some (Some d)) by (apply (g_all _ _ _ _ _ _ G); auto; rewrite Exy; exact S). unfold eg. now rewrite X.
Qed.
Notation L := (stL (pairs m)).
Lemma L_in d : In d L <-> d < nd.
Proof.
  unfold MeshDof.stL. rewrite firsts_in, in_map_iff. split.
  - intros ((e, d') & <- & H). apply pairs_in in H as (He & i & Hi & ->). apply eg_ok; auto.
  - intros Hd. destruct (proj2 (edge_elements d Hd (o d)) (or_introl eq_refl)) as (He & i & Hi & Ed). exists (o d, d). split; auto. apply pairs_in. split; eauto.
Qed.
Lemma L_len : length L = nd.
Proof.
  rewrite <- (seq_length nd 0). apply Permutation.Permutation_length. apply Permutation.NoDup_Permutation; [apply firsts_nodup|apply seq_NoDup|].
  intros d. rewrite L_in, in_seq. lia.
Qed.
Definition Mof (d : nat) : nat := nv + index d L.
Lemma Mof_lt d : d < nd -> nv <= Mof d < nv + nd.
Proof. intros Hd. unfold Mof. pose proof (index_lt d L (proj2 (L_in d) Hd)). rewrite L_len in *. lia. Qed.
Lemma Mof_inj d d' : d < nd -> d' < nd -> Mof d = Mof d' -> d = d'.
Proof.
  intros Hd Hd' E. unfold Mof in E. rewrite <- (nth_index d L) by now apply L_in. rewrite <- (nth_index d' L) by now apply L_in. f_equal. lia.
Qed.
Lemma at_Mof d : d < nd -> stv nv fv xs q (pairs m) (Mof d) = mkMV (match q d with None => true | Some _ => false end) true (Mof d) (midpos fv xs d) (map fst (filter (fun p => snd p =? d) (pairs m))).
Proof.
  intros Hd. unfold stv. pose proof (Mof_lt d Hd). replace (Mof d <? nv) with false by (symmetry; apply Nat.ltb_ge; lia).
  replace (Mof d - nv) with (index d L) by (unfold Mof; lia). rewrite nth_index by now apply L_in. reflexivity.
Qed.
Lemma Mof_onto k : nv <= k < nv + nd -> exists d, d < nd /\ k = Mof d.
Proof.
  intros Hk. exists (nth (k - nv) L 0). assert (Hl : k - nv < length L) by (rewrite L_len; lia). pose proof (nth_In L 0 Hl) as Hin. split; [now apply L_in|].
  unfold Mof. assert (index (nth (k - nv) L 0) L = k - nv); [|lia]. apply (proj1 (NoDup_nth L 0) (firsts_nodup _)); auto; [now apply index_lt|now apply nth_index].
Qed.
Lemma els_nodup d : NoDup (map fst (filter (fun p => snd p =? d) (pairs m))).
Proof.
  apply nodup_map_in; [apply NoDup_filter; apply pairs_nodup; auto|]. intros (e, a) (f, b) H1 H2 E. apply filter_In in H1 as (_ & H1), H2 as (_ & H2).
  apply Nat.eqb_eq in H1, H2. cbn in *. congruence.
Qed.
Lemma els_in d : d < nd -> forall e, In e (map fst (filter (fun p => snd p =? d) (pairs m))) <-> (Some (o d) = Some e \/ q d = Some e).
Proof.
  intros Hd e. rewrite <- (edge_elements d Hd e). rewrite in_map_iff. split.
  - intros ((f, b) & <- & H). apply filter_In in H as (H & F). apply Nat.eqb_eq in F. cbn in F. subst b. now apply pairs_in in H.
  - intros H. exists (e, d). split; auto. apply filter_In. split; [now apply pairs_in|cbn; apply Nat.eqb_refl].
Qed.
Definition sr : mst := net nv fv fs T nb nd xs o q.
Definition st2 : mst := st (pairs m).
Lemma keeps P : keeps_mesh sr (st P).
Proof.
  split.
  - repeat split. cbn [sr net mV MeshDof.st]. rewrite seq_app. eauto.
  - intros k Hk. cbn [sr net mV MeshDof.st hv] in *. apply in_seq in Hk. rewrite !deref_pool by lia. now rewrite stv_old by lia.
  - intros e He. cbn [sr net mE MeshDof.st he] in *. apply in_seq in He. eexists. eexists. rewrite !deref_pool by lia. repeat split.
  - intros d Hd. cbn [sr net mD MeshDof.st hd] in *. apply in_seq in Hd. eexists. eexists. rewrite !deref_pool by lia. repeat split.
Qed.
Lemma linear : linear_nodes sr (st []).
Proof.
  split.
  - cbn [sr net mV hv MeshDof.st]. rewrite Nat.add_0_r. split; auto. apply pool_ext. intros k Hk. now apply stv_old.
  - intros e He. cbn [sr net mE MeshDof.st he] in *. apply in_seq in He. eexists. rewrite !deref_pool by lia. split; auto. cbn. apply app_nil_r.
  - intros d Hd. cbn [sr net mD MeshDof.st hd] in *. apply in_seq in Hd. eexists. rewrite !deref_pool by lia. split; auto. cbn. apply app_nil_r.
Qed.
Lemma deref_M d : d < nd -> deref (hv st2) (Mof d) = Ok (stv nv fv xs q (pairs m) (Mof d)).
Proof. intros Hd. unfold st2. cbn [MeshDof.st hv]. apply deref_pool. pose proof (Mof_lt d Hd). rewrite L_len. lia. Qed.
Lemma dof2 e : e < m -> me_dof (ste nv fs T nb (pairs m) e) = map Some (tr e) ++ [Some (Mof (eg e 2)); Some (Mof (eg e 0)); Some (Mof (eg e 1))].
Proof. intros He. unfold ste. cbn [me_dof]. rewrite pairs_of by auto. reflexivity. Qed.
Section Mid.
Hypothesis HF : FieldLaws N.
Hypothesis HN : NatLaws N.
Add Field dfld : (fl_field N HF).
Lemma nat2 : @nofnat N 2 = (n1 + n1)%num.
Proof. rewrite !(nl_S N HN), (nl_0 N HN). ring. Qed.
Lemma half (a : N) : (a * (n1 / nofnat 2))%num = (a / (n1 + n1))%num.
Proof. rewrite nat2. rewrite (Fdiv_def (fl_field N HF) a). reflexivity. Qed.
Lemma mid_is d x y : xs d = [x; y] -> midpos fv xs d = midpoint (mv_pos (fv x)) (mv_pos (fv y)).
Proof. intros E. unfold midpos, midpoint. rewrite E. cbn [nth]. now rewrite !half. Qed.
Lemma mid_sym (a b : list N) : midpoint a b = midpoint b a.
Proof. unfold midpoint. f_equal; [|f_equal]; f_equal; ring. Qed.
Lemma new2 : new_vertices sr st2 Mof.
Proof.
  split.
  - unfold sr, st2. cbn [net mV mD MeshDof.st]. rewrite !seq_length, L_len. reflexivity.
  - intros d Hd. cbn [sr net mV mD] in *. apply in_seq in Hd. pose proof (Mof_lt d ltac:(lia)) as H. unfold st2, m_vertex. cbn [MeshDof.st mV]. rewrite L_len, !seq_length. split; [lia|].
    apply vget_seq. lia.
  - intros d d' Hd Hd'. cbn [sr net mD] in *. apply in_seq in Hd, Hd'. apply Mof_inj; lia.
  - intros d x y e0 e1 (Hd & ed & Ed & Ev & E0 & E1) px py (vx & Dx & Px) (vy & Dy & Py). cbn [sr net mD hd hv] in *. apply in_seq in Hd. rewrite deref_pool in Ed by lia. inversion Ed; subst ed. clear Ed.
    cbn [nedg ed_v ed_e0 ed_e1] in *. destruct (edge_two nv T nb nd xs o q HT G d ltac:(lia)) as (x' & y' & Exy & Hx & Hy & Hxy). rewrite Exy in Ev. inversion Ev; subst x' y'.
    apply deref_pool_inv in Dx as (_ & ->), Dy as (_ & ->). eexists. split; [apply deref_M; lia|]. rewrite at_Mof by lia. cbn [mv_impl mv_gi mv_pos mv_bound mv_el]. split; auto. split; auto.
    rewrite <- E1. split; [rewrite <- Px, <- Py; now apply mid_is|]. split; [destruct (q d); split; congruence|]. split; [apply els_nodup|].
    intros e. rewrite els_in by lia. now rewrite <- E0.
  - intros d Hd. cbn [sr net mD] in *. apply in_seq in Hd. eexists. unfold st2. cbn [MeshDof.st hd]. rewrite deref_pool by lia. split; [reflexivity|]. unfold std. cbn [ed_dof ed_v].
    replace (inb d L) with true; [reflexivity|]. symmetry. apply inb_spec, L_in. lia.
  - intros e He. cbn [sr net mE] in *. apply in_seq in He. fold m in He. eexists. exists (eg e 0), (eg e 1), (eg e 2). unfold st2. cbn [MeshDof.st he]. rewrite deref_pool by (fold m; lia). split; [reflexivity|].
    split; [|rewrite dof2 by lia; reflexivity]. cbn [ste me_n]. pose proof (g_len _ _ _ _ _ _ G e ltac:(fold m; lia)) as Hl.
    destruct (eg_ok e 0) as (_ & A & _); [lia|lia|]. destruct (eg_ok e 1) as (_ & B & _); [lia|lia|]. destruct (eg_ok e 2) as (_ & C & _); [lia|lia|].
    destruct (nb e) as [|x0 [|x1 [|x2 [|]]]]; try discriminate. cbn in A, B, C. congruence.
Qed.
Lemma quadratic e : e < m -> quadratic_nodes st2 e.
Proof.
  intros He. pose proof (tr_triple nv T HT e He) as Ht. destruct (triple_abc _ Ht) as (a & b & c & Eabc & Hab & Hac & Hbc).
  assert (Hin : forall k, In k (tr e) -> k < nv) by (intros k Hk; eapply (tr_lt nv T HT); eauto).
  fold (tr e) in Eabc. assert (Ha : a < nv) by (apply Hin; rewrite Eabc; cbn; auto). assert (Hb : b < nv) by (apply Hin; rewrite Eabc; cbn; auto).
  assert (Hc : c < nv) by (apply Hin; rewrite Eabc; cbn; auto).
  assert (Old : forall k, k < nv -> vertex_at st2 k (mv_pos (fv k))).
  { intros k Hk. exists (fv k). split; auto. unfold st2. cbn [MeshDof.st hv]. rewrite deref_pool by lia. now rewrite stv_old. }
  assert (New : forall i x y, i < 3 -> without i (tr e) = [x; y] -> x <> y -> vertex_at st2 (Mof (eg e i)) (midpoint (mv_pos (fv x)) (mv_pos (fv y)))).
  { intros i x y Hi Hw Hxy. destruct (eg_ok e i He Hi) as (Hd & _ & _ & S). eexists. split; [now apply deref_M|]. rewrite at_Mof by auto. cbn [mv_pos].
    destruct (edge_two nv T nb nd xs o q HT G _ Hd) as (x' & y' & Exy & _ & _ & Hxy'). rewrite (mid_is _ x' y') by auto. rewrite Exy, Hw in S.
    assert (D : (x' = x /\ y' = y) \/ (x' = y /\ y' = x)).
    { destruct (proj1 (S x') (or_introl eq_refl)) as [<-|[<-|[]]]; destruct (proj1 (S y') (or_intror (or_introl eq_refl))) as [<-|[<-|[]]]; auto; congruence. }
    destruct D as [(-> & ->)|(-> & ->)]; [reflexivity|apply mid_sym]. }
  eexists. exists a, b, c, (Mof (eg e 2)), (Mof (eg e 0)), (Mof (eg e 1)), (mv_pos (fv a)), (mv_pos (fv b)), (mv_pos (fv c)).
  split; [unfold st2; cbn [MeshDof.st he]; now apply deref_pool|]. split; [cbn [ste me_v]; fold (tr e); now rewrite Eabc|]. split; [rewrite dof2 by auto; now rewrite Eabc|].
  split; [auto|]. split; [auto|]. split; [auto|].
  split; [auto|]. split; [auto|]. split; [auto|]. split; [|split].
  - apply New; auto. rewrite Eabc. reflexivity.
  - apply New; auto. rewrite Eabc. reflexivity.
  - rewrite mid_sym. apply New; auto. rewrite Eabc. reflexivity.
Qed.
End Mid.

(** *** validate *)
Lemma same_element e : e < m -> vl_element st2 e = vl_element sr e.
Proof.
  intros He. unfold vl_element, st2, sr. cbn [MeshDof.st he net hv]. rewrite !deref_pool by auto. cbn [bind ste nelt me_v me_sx me_n].
  f_equal. unfold for_. apply for_n_ext. intros i u Hi. fold (tr e). unfold vget. rewrite nth_error_map. destruct (nth_error (tr e) i) as [k|] eqn:Ek; cbn [option_map bind]; [|reflexivity].
  assert (Hk : k < nv) by (eapply (tr_lt nv T HT); [exact He|eapply nth_error_In; exact Ek]). rewrite !deref_pool by lia. now rewrite stv_old.
Qed.
Hypothesis Hel : forall k e, k < nv -> In e (mv_el (fv k)) -> e < m.
Lemma exb l p : existsb (fun x => peqb x (Some p)) (map Some l) = inb p l.
Proof.
  destruct (inb p l) eqn:E.
  - apply inb_spec in E. apply existsb_exists. exists (Some p). split; [now apply in_map|cbn; apply Nat.eqb_refl].
  - apply inb_false in E. destruct (existsb _ _) eqn:X; auto. apply existsb_exists in X as (x & Hx & Ex). apply in_map_iff in Hx as (y & <- & Hy). cbn in Ex. apply Nat.eqb_eq in Ex. subst. tauto.
Qed.
Lemma same_vertex k id : k < nv -> vl_vertex st2 k id = vl_vertex sr k id.
Proof.
  intros Hk. unfold vl_vertex, st2, sr. cbn [MeshDof.st he net hv]. rewrite !deref_pool by lia. cbn [bind]. rewrite stv_old by auto.
  destruct (negb _); auto. destruct (_ =? 0); auto. apply foreach_ext_in. intros e He u. assert (Hem : e < m) by eauto.
  rewrite !deref_pool by auto. cbn [bind]. rewrite dof2 by auto. cbn [nelt me_dof me_v ste length Nat.eqb]. rewrite app_length. cbn [length]. rewrite Nat.add_comm. cbn [Nat.add Nat.eqb].
  rewrite existsb_app. rewrite !exb. cbn [existsb peqb].
  assert (X : forall i, i < 3 -> Mof (eg e i) =? k = false).
  { intros i Hi. apply Nat.eqb_neq. destruct (eg_ok e i Hem Hi) as (Hd & _). pose proof (Mof_lt _ Hd). lia. }
  rewrite !X by lia. cbn [orb]. now rewrite orb_false_r.
Qed.
Lemma new_vertex_valid d : d < nd -> vl_vertex st2 (Mof d) (Mof d) = Ok tt.
Proof.
  intros Hd. unfold vl_vertex. rewrite deref_M by auto. cbn [bind]. rewrite at_Mof by auto. cbn [mv_gi mv_el]. rewrite Nat.eqb_refl. cbn [negb].
  set (l := map fst (filter (fun p => snd p =? d) (pairs m))). assert (Hl : forall e, In e l <-> (Some (o d) = Some e \/ q d = Some e)) by now apply els_in.
  destruct (length l =? 0) eqn:E0.
  { apply Nat.eqb_eq in E0. apply length_zero_iff_nil in E0. exfalso. rewrite E0 in Hl. apply (proj2 (Hl (o d))). auto. }
  assert (K : forall l', incl l' l -> foreach l' (fun e _ => let* e := deref (he st2) e in
     let found := if length (me_dof e) =? 0 then existsb (fun x => peqb x (Some (Mof d))) (me_v e) else existsb (fun x => peqb x (Some (Mof d))) (me_dof e) in
     if negb found then Throw MalformedVertexElementConnection else Ok tt) tt = Ok tt); [|apply K; apply incl_refl].
  induction l' as [|e l' IH]; intros Hin; [reflexivity|]. cbn [foreach]. assert (He : In e l) by (apply Hin; now left). apply Hl, edge_elements in He as (He & i & Hi & Ed); auto.
  unfold st2 at 1. cbn [MeshDof.st he]. rewrite deref_pool by auto. cbn [bind]. rewrite dof2 by auto. rewrite app_length. cbn [length]. rewrite Nat.add_comm. cbn [Nat.add Nat.eqb].
  rewrite existsb_app. cbn [existsb peqb].
  assert (X : (Mof (eg e 2) =? Mof d) || ((Mof (eg e 0) =? Mof d) || ((Mof (eg e 1) =? Mof d) || false)) = true).
  { rewrite Ed. destruct i as [|[|[|]]]; try lia; rewrite Nat.eqb_refl, ?orb_true_r; reflexivity. }
  rewrite X, orb_true_r. cbn [negb bind]. apply IH. intros z Hz. apply Hin. now right.
Qed.
Lemma same_verdict : m_validate st2 = m_validate sr.
Proof.
  unfold m_validate. unfold st2 at 1. cbn [sr MeshDof.st mV mE net]. rewrite L_len, seq_app, foreach_app. cbn [Nat.add].
  change (st (pairs m)) with st2. fold sr.
  rewrite (foreach_ext_in (seq 0 nv) (fun p id => let* _ := vl_vertex st2 p id in Ok (S id)) (fun p id => let* _ := vl_vertex sr p id in Ok (S id))).
  2:{ intros k Hk id. apply in_seq in Hk. rewrite same_vertex by lia. reflexivity. }
  assert (Id : forall l id r, foreach l (fun p id => let* _ := vl_vertex sr p id in Ok (S id)) id = Ok r -> r = id + length l).
  { induction l as [|k l IH]; intros id r E; cbn [foreach] in E; [inversion E; cbn; lia|]. destruct (vl_vertex sr k id) as [u| | | | |]; cbn [bind] in E; try discriminate. apply IH in E. cbn. lia. }
  destruct (foreach (seq 0 nv) _ 0) as [r| | | | |] eqn:E; cbn [bind]; try reflexivity. apply Id in E. rewrite seq_length in E. cbn in E. subst r.
  assert (K : forall j k, k + j = nd -> foreach (seq (nv + k) j) (fun p id => let* _ := vl_vertex st2 p id in Ok (S id)) (nv + k) = Ok (nv + nd)).
  { induction j as [|j IH]; intros k Hk; cbn [seq foreach]; [f_equal; lia|]. destruct (Mof_onto (nv + k) ltac:(lia)) as (d & Hd & Ed).
    rewrite Ed at 1 2. rewrite new_vertex_valid by auto. cbn [bind]. rewrite <- Nat.add_succ_r. apply IH. lia. }
  specialize (K nd 0 eq_refl). rewrite Nat.add_0_r in K. rewrite K. cbn [bind]. apply foreach_ext_in. intros e He u. apply in_seq in He. apply same_element. unfold m. lia.
Qed.
End Dof.

Section Images.
Context {N : Num}.
Hypothesis HO : OrdFieldLaws N.
Let HF : FieldLaws N := of_field N HO.
Add Field ifld : (fl_field N HF).
Lemma nat_nz2 : (n1 + n1)%num <> (n0 : N).
Proof. intros E. apply (olt_irrefl HO (n0 : N)). rewrite <- E at 2. apply (olt_0_add HO); [apply (olt_0_1 HO)|apply (olt_le HO), (olt_0_1 HO)]. Qed.
Lemma images (a0 a1 b0 b1 c0 c1 : N) : let im := image [a0; a1] [b0; b1] [c0; c1] in
  im (nth 0 (nodes 2 2) []) = [a0; a1] /\ im (nth 1 (nodes 2 2) []) = [b0; b1] /\ im (nth 2 (nodes 2 2) []) = [c0; c1] /\
  im (nth 3 (nodes 2 2) []) = midpoint [a0; a1] [b0; b1] /\ im (nth 4 (nodes 2 2) []) = midpoint [b0; b1] [c0; c1] /\ im (nth 5 (nodes 2 2) []) = midpoint [c0; c1] [a0; a1].
Proof.
  pose proof nat_nz2 as Z. cbv zeta. unfold image, midpoint, nodes, one_half. cbn [map nth].
  repeat split; repeat (apply f_equal2; [|try reflexivity]); try reflexivity; field; auto.
Qed.
End Images.

Section Result.
Context {N : Num}.
Lemma ready_net (ops : list (mop N)) s : valid 0 ops -> ready ops s -> exists fv fs nb nd xs o q, s = net (length (points ops)) fv fs (tris ops) nb nd xs o q /\
  graph (tris ops) nb nd xs o q /\ (forall e i, e < length (tris ops) -> i < 3 -> setp nb e i) /\ (forall k, k < length (points ops) -> length (mv_pos (fv k)) = 2) /\
  (forall k e, k < length (points ops) -> In e (mv_el (fv k)) -> e < length (tris ops)).
Proof.
  intros Hv R. destruct (build_ok ops Hv) as (E & HT). induction R as [s Hs|s s' R IH Hs|s s' R IH Hs].
  - rewrite E in Hs. cbn [bind] in Hs. pose proof (setup_mesh (points ops) (markfn (fun _ => false) ops) (tris ops) HT) as P. rewrite Hs in P. cbn [post] in P.
    destruct P as (nb & nd & xs & o & q & -> & G & H). do 7 eexists. split; [reflexivity|]. split; [auto|]. split; [auto|]. split.
    + intros k Hk. cbn [vtx mv_pos]. apply (points_len ops 0 Hv). now apply nth_In.
    + intros k e Hk He. cbn [vtx mv_el] in He. now apply owners_in in He as (He & _).
  - destruct IH as (fv & fs & nb & nd & xs & o & q & -> & G & H & Hp & He). rewrite boundaries_net in Hs by auto. inversion Hs; subst s'.
    do 7 eexists. split; [reflexivity|]. split; [auto|]. split; [auto|]. split; [exact Hp|exact He].
  - destruct IH as (fv & fs & nb & nd & xs & o & q & -> & G & H & Hp & He).
    assert (X : exists fs', s' = net (length (points ops)) fv fs' (tris ops) nb nd xs o q).
    { unfold m_prepare in Hs. cbn [net mE] in Hs. revert Hs.
      assert (K : forall l fs s', incl l (seq 0 (length (tris ops))) -> foreach l (fun p s => let* e := deref (he s) p in let* x := sx_prepare (me_sx e) in
         let* g := store (he s) p (mkME x (me_v e) (me_n e) (me_dof e)) in Ok (set_he s g)) (net (length (points ops)) fv fs (tris ops) nb nd xs o q) = Ok s' ->
         exists fs', s' = net (length (points ops)) fv fs' (tris ops) nb nd xs o q).
      { clear. induction l as [|e l IH]; intros fs s' Hin; cbn [foreach]; intros Hs; [inversion Hs; eauto|].
        assert (Hk : e < length (tris ops)) by (assert (In e (seq 0 (length (tris ops)))) as Hs' by (apply Hin; now left); apply in_seq in Hs'; lia).
        cbn [net he] in Hs. rewrite deref_pool in Hs by auto. cbn [bind] in Hs. destruct (sx_prepare (me_sx (nelt fs (tris ops) nb e))) as [x| | | | |]; cbn [bind] in Hs; try discriminate.
        rewrite store_pool in Hs by auto. cbn [bind] in Hs. apply (IH (fup fs e x)); [intros z Hz; apply Hin; now right|]. rewrite <- Hs. f_equal.
        unfold set_he, net. cbn [hv hd mV mE mD]. f_equal. apply pool_ext. intros k Hk'. unfold nelt. destruct (Nat.eq_dec k e) as [->|Hn]; [now rewrite !fup_eq|now rewrite !fup_ne]. }
      apply K. apply incl_refl. }
    destruct X as (fs' & ->). do 7 eexists. split; [reflexivity|]. auto.
Qed.
Theorem dof_first (ops : list (mop N)) s : valid 0 ops -> ready ops s -> returns (m_prepareMesh 1 s) (fun s' => keeps_mesh s s' /\ linear_nodes s s').
Proof.
  intros Hv R. destruct (build_ok ops Hv) as (_ & HT). destruct (ready_net ops s Hv R) as (fv & fs & nb & nd & xs & o & q & -> & G & H & Hp & He).
  eexists. split; [apply (first_order _ _ _ _ _ _ _ _ _ HT G H)|]. split; [apply keeps|apply linear].
Qed.
Theorem dof_second (HF : FieldLaws N) (HN : NatLaws N) (ops : list (mop N)) s : valid 0 ops -> ready ops s ->
  returns (m_prepareMesh 2 s) (fun s' => keeps_mesh s s' /\ (exists M, new_vertices s s' M) /\ forall e, In e (mE s') -> quadratic_nodes s' e).
Proof.
  intros Hv R. destruct (build_ok ops Hv) as (_ & HT). destruct (ready_net ops s Hv R) as (fv & fs & nb & nd & xs & o & q & -> & G & H & Hp & He).
  eexists. split; [apply (second_done _ _ _ _ _ _ _ _ _ HT G H Hp)|]. split; [apply keeps|]. split; [eexists; eapply new2; eauto|].
  intros e Hin. cbn [MeshDof.st mE] in Hin. apply in_seq in Hin. eapply quadratic; eauto. lia.
Qed.
Lemma at_nodes (HO : OrdFieldLaws N) (s : mst N) e : quadratic_nodes s e -> dof_at_nodes s e (nodes 2 2).
Proof.
  intros (x & a & b & c & p & q & r & pa & pb & pc & Dx & Ev & Ed & La & Lb & Lc & Va & Vb & Vc & Vp & Vq & Vr).
  exists x, a, b, c, pa, pb, pc. rewrite Ed. do 6 (split; [auto|]).
  pose proof (nat_nz2 HO) as Z. destruct pa as [|a0 [|a1 [|]]]; try discriminate. destruct pb as [|b0 [|b1 [|]]]; try discriminate. destruct pc as [|c0 [|c1 [|]]]; try discriminate.
  assert (F : FieldLaws N) by apply (of_field N HO).
  pose proof (images HO a0 a1 b0 b1 c0 c1) as I. cbv zeta in I. destruct I as (I0 & I1 & I2 & I3 & I4 & I5).
  rewrite <- I0 in Va at 1. rewrite <- I1 in Vb at 1. rewrite <- I2 in Vc at 1. rewrite <- I3 in Vp. rewrite <- I4 in Vq. rewrite <- I5 in Vr.
  intros i Hi. cbn in Hi. destruct i as [|[|[|[|[|[|]]]]]]; try lia; cbn [nth nodes nth_error]; eexists; (split; [reflexivity|]); assumption.
Qed.
Theorem dof_nodes (HO : OrdFieldLaws N) (HN : NatLaws N) (ops : list (mop N)) s : valid 0 ops -> ready ops s ->
  returns (m_prepareMesh 2 s) (fun s' => forall e, In e (mE s') -> dof_at_nodes s' e (nodes 2 2)).
Proof.
  intros Hv R. destruct (dof_second (of_field N HO) HN ops s Hv R) as (s' & E & _ & _ & Q). exists s'. split; auto. intros e He. apply (at_nodes HO). auto.
Qed.
Theorem dof_validate (ops : list (mop N)) s : valid 0 ops -> ready ops s -> returns (m_prepareMesh 2 s) (fun s' => m_validate s' = m_validate s).
Proof.
  intros Hv R. destruct (build_ok ops Hv) as (_ & HT). destruct (ready_net ops s Hv R) as (fv & fs & nb & nd & xs & o & q & -> & G & H & Hp & He).
  eexists. split; [apply (second_done _ _ _ _ _ _ _ _ _ HT G H Hp)|]. eapply same_verdict; eauto.
Qed.
End Result.
