(** What handleMesh does after solving: the error arrays and the files. *)
From Coq Require Import List Arith Bool ZArith Lia Ring Field.
From Verif Require Import Base BaseProofs Num OrdField UtilsModel UtilsSpec Spec SpecProofs VectorModel VectorProofs DenseModel MatI SimplexModel SimplexSpec SimplexProofs SimplexResult
  MeshModel MeshSpec MeshPool MeshProofs MeshResult MeshDofSpec MeshDof MeshDofResult ShapeModel ShapeProofs QuadModel QuadSpec QuadProofs FemModel FemSpec FemProofs IterResult FemAssemble FemMesh FemResult.
Import ListNotations.
Local Open Scope nat_scope.
Open Scope res_scope.

Section FemPost.
Context {N : Num} (HO : OrdFieldLaws N) (HN : NatLaws N).
Let HF : FieldLaws N := of_field N HO.
Add Field fpofld : (fl_field N HF).
Ltac lit := cbv [Pos.to_nat Pos.iter_op Nat.add]; rewrite ?(nl_S N HN), ?(nl_0 N HN).

Lemma positions o P T (s s' : mst N) V D bd : low o -> discrete o P T s s' V D bd -> (forall p, In p P -> length p = 2) -> okT (length P) T ->
  forall k, k < length V -> length (nth k V []) = 2.
Proof.
  intros Ho HD HP HT k Hk. pose proof (di_nodes _ _ _ _ _ _ _ _ HD) as Hn.
  destruct (Nat.lt_ge_cases k (length P)) as [L|L].
  - apply HP. rewrite <- (no_vertices _ _ _ _ _ Hn). rewrite <- (firstn_skipn (length P) V) at 1. rewrite app_nth1 by (rewrite firstn_length; lia).
    apply nth_In. rewrite firstn_length. lia.
  - destruct (di_used _ _ _ _ _ _ _ _ HD k (conj L Hk)) as (e & He & Hin). rewrite (no_count _ _ _ _ _ Hn) in He. destruct Ho as [-> | ->].
    + destruct (no_first _ _ _ _ _ Hn eq_refl) as (-> & _). lia.
    + destruct (no_second _ _ _ _ _ Hn eq_refl e He) as (a & b & c & p & q & r & E1 & E2 & _ & Ep & Eq & Er).
      destruct (HT (nth e T [])) as (_ & _ & C); [now apply nth_In|]. rewrite E1 in C. rewrite E2 in Hin. cbn [In] in Hin, C.
      assert (C1 := C a (or_introl eq_refl)). assert (C2 := C b (or_intror (or_introl eq_refl))). assert (C3 := C c (or_intror (or_intror (or_introl eq_refl)))).
      destruct Hin as [Hin|[Hin|[Hin|[Hin|[Hin|[Hin|[]]]]]]]; try lia; subst k; rewrite ?Ep, ?Eq, ?Er; reflexivity.
Qed.
Section Post.
Variables (o : nat) (P : list (list N)) (T : list (list nat)) (s0 s : mst N) (V : list (list N)) (D : list (list nat)) (bd : nat -> bool).
Hypothesis Ho : low o.
Hypothesis HD : discrete o P T s0 s V D bd.
Hypothesis HV2 : forall k, k < length V -> length (nth k V []) = 2.
Hypothesis Hpr : forall e, e < length D -> proper (corner V D e).
Variables (X : list N) (x : nat -> N).
Hypothesis HX : reads X (length V) x.
Notation n := (length V).
Notation m := (length D).
Let Hc := di_carries _ _ _ _ _ _ _ _ HD.
Lemma pos_pair k : k < n -> nth k V [] = [nth 0 (nth k V []) n0; nth 1 (nth k V []) n0].
Proof. intros Hk. specialize (HV2 k Hk). destruct (nth k V []) as [|a [|b [|]]]; cbn in HV2; try lia. reflexivity. Qed.

Lemma exact_ok sol : exists E, fem_exact sol s X = Ok E /\ reads E n (fun i => nabs (sol (nth i V []) - x i)%num).
Proof.
  unfold fem_exact. destruct (ca_lists _ _ _ _ Hc) as (EV & _). rewrite EV, seq_length.
  destruct (foreach_seq (fun t (E : list N) => reads E n (fun i => if i <? t then nabs (sol (nth i V []) - x i)%num else n0)) n
    (fun p E => let* v := deref (hv s) p in let* uh := v_at X (mv_gi v) in v_set E (mv_gi v) (nabs (sol (mv_pos v) - uh))%num) (v_new n)) as (E & H1 & H2).
  - eapply reads_ext; [apply reads_new|]. reflexivity.
  - intros e E He HE. destruct (ca_vertex _ _ _ _ Hc e He) as (v & E1 & Hg & Hp & _). rewrite E1. cbn [bind]. rewrite Hg, (reads_at _ _ _ _ HX He). cbn [bind].
    rewrite Hp. destruct (reads_set _ _ _ e (nabs (sol (nth e V []) - x e))%num HE He) as (E' & -> & R). apply returns_ok.
    eapply reads_ext; [exact R|]. intros i Hi. cbv beta. destruct (Nat.eqb_spec i e) as [->|Hne].
    + now rewrite (proj2 (Nat.ltb_lt e (S e))) by lia.
    + destruct (Nat.ltb_spec i e), (Nat.ltb_spec i (S e)); auto; lia.
  - exists E. split; auto. eapply reads_ext; [exact H2|]. intros i Hi. cbv beta. now rewrite (proj2 (Nat.ltb_lt _ _) Hi).
Qed.
Lemma data_ok : fem_data s X = Ok (map (fun i => (nth 0 (nth i V []) n0, nth 1 (nth i V []) n0, x i)) (seq 0 n)).
Proof.
  unfold fem_data. destruct (ca_lists _ _ _ _ Hc) as (EV & _). rewrite EV.
  assert (R : returns (foreach (seq 0 n) (fun p l => let* v := deref (hv s) p in let* a := v_at (mv_pos v) 0 in let* b := v_at (mv_pos v) 1 in let* u := v_at X (mv_gi v) in Ok (l ++ [(a, b, u)])) [])
     (fun l => l = map (fun i => (nth 0 (nth i V []) n0, nth 1 (nth i V []) n0, x i)) (seq 0 n))).
  { apply (foreach_seq (fun t l => l = map (fun i => (nth 0 (nth i V []) n0, nth 1 (nth i V []) n0, x i)) (seq 0 t))); [reflexivity|].
    intros e l He ->. destruct (ca_vertex _ _ _ _ Hc e He) as (v & E1 & Hg & Hp & _). rewrite E1. cbn [bind]. rewrite Hg, Hp.
    rewrite !(v_at_ok _ _) by (rewrite HV2; auto). cbn [bind]. rewrite (reads_at _ _ _ _ HX He). cbn [bind]. apply returns_ok.
    rewrite seq_S, map_app. reflexivity. }
  destruct R as (l & -> & ->). reflexivity.
Qed.
Lemma m_is : m = length T. Proof. apply (no_count _ _ _ _ _ (di_nodes _ _ _ _ _ _ _ _ HD)). Qed.
Lemma node_low e i : e < m -> i < 3 -> node T e i = node D e i /\ node T e i < n.
Proof.
  intros He Hi. assert (E : node T e i = node D e i).
  { destruct Ho as [E | E].
    - destruct (no_first _ _ _ _ _ (di_nodes _ _ _ _ _ _ _ _ HD) E) as (_ & ->). reflexivity.
    - rewrite m_is in He. destruct (no_second _ _ _ _ _ (di_nodes _ _ _ _ _ _ _ _ HD) E e He) as (a & b & c & p & q & r & E1 & E2 & _).
      unfold node. rewrite E1, E2. destruct i as [|[|[|]]]; try lia; reflexivity. }
  split; auto. rewrite E. apply (di_in _ _ _ _ _ _ _ _ HD); auto. destruct Ho as [-> | ->]; lia.
Qed.
Lemma vertex_ok e t ls i : e < m -> i < 3 -> deref (he s) e = Ok t -> me_v t = map Some (nth e T []) -> ls = me_v t -> i < length (nth e T []) ->
  exists v, fem_vertex s ls i = Ok v /\ mv_gi v = node D e i /\ mv_pos v = nth (node D e i) V [].
Proof.
  intros He Hi E Ev -> Hl. unfold fem_vertex. rewrite Ev, (vget_ok _ _ (Some 0)) by (rewrite map_length; auto). rewrite (map_nth Some). cbn [bind nn].
  fold (node T e i). destruct (node_low e i He Hi) as (<- & Hn). destruct (ca_vertex _ _ _ _ Hc _ Hn) as (v & -> & Hg & Hp & _). exists v. rewrite Hg, Hp. auto.
Qed.
Hypothesis HT3 : forall e, e < length T -> length (nth e T []) = 3.
Lemma mesh_file : fem_mesh s = Ok (map (fun e => (node T e 0 + 1, node T e 1 + 1, node T e 2 + 1)) (seq 0 (length T))).
Proof.
  unfold fem_mesh. destruct (ca_lists _ _ _ _ Hc) as (_ & EV). rewrite EV, m_is.
  match goal with |- foreach _ ?F _ = _ => assert (R : returns (foreach (seq 0 (length T)) F []) (fun l => l = map (fun e => (node T e 0 + 1, node T e 1 + 1, node T e 2 + 1)) (seq 0 (length T)))) end.
  { apply (foreach_seq (fun t l => l = map (fun e => (node T e 0 + 1, node T e 1 + 1, node T e 2 + 1)) (seq 0 t))); [reflexivity|].
    intros e l He ->. assert (He' : e < m) by now rewrite m_is. destruct (di_faces _ _ _ _ _ _ _ _ HD e 0 He ltac:(lia)) as (t & d & ed & y & z & E & Ev & _). rewrite E. cbn [bind].
    destruct (vertex_ok e t (me_v t) 0 He' ltac:(lia) E Ev eq_refl ltac:(rewrite HT3; auto)) as (v0 & -> & G0 & _).
    destruct (vertex_ok e t (me_v t) 1 He' ltac:(lia) E Ev eq_refl ltac:(rewrite HT3; auto)) as (v1 & -> & G1 & _).
    destruct (vertex_ok e t (me_v t) 2 He' ltac:(lia) E Ev eq_refl ltac:(rewrite HT3; auto)) as (v2 & -> & G2 & _). cbn [bind]. apply returns_ok.
    rewrite G0, G1, G2. rewrite <- !(fun i Hi => proj1 (node_low e i He' Hi)) by lia. rewrite seq_S, map_app. reflexivity. }
  destruct R as (l & -> & ->). reflexivity.
Qed.
(** *** The a posteriori estimate *)
Lemma gap_sym (p q : list N) : gap p q = gap q p.
Proof. unfold gap. f_equal. ring. Qed.
Lemma dist_ok (i j : nat) : i < n -> j < n -> (let* df := v_sub (nth i V []) (nth j V []) in v_mag df) = Ok (gap (nth i V []) (nth j V [])).
Proof.
  intros Hi Hj. rewrite (pos_pair i Hi), (pos_pair j Hj). unfold gap. cbn [nth]. generalize (nth 0 (nth i V []) n0) (nth 1 (nth i V []) n0) (nth 0 (nth j V []) n0) (nth 1 (nth j V []) n0).
  intros a b c d. cbn. apply ok_val'. f_equal. ring.
Qed.
Lemma dist_then (i j : nat) {B} (K : N -> res B) : i < n -> j < n -> (let* df := v_sub (nth i V []) (nth j V []) in let* m := v_mag df in K m) = K (gap (nth i V []) (nth j V [])).
Proof.
  intros Hi Hj. pose proof (dist_ok i j Hi Hj) as E. destruct (v_sub (nth i V []) (nth j V [])) as [df| | | | |]; cbn [bind] in *; try discriminate. now rewrite E.
Qed.
Lemma edge_vertex ed y z (k : nat) : ed_v ed = [Some y; Some z] -> y < n -> z < n -> k < 2 ->
  exists v, fem_vertex s (ed_v ed) k = Ok v /\ mv_gi v = nth k [y; z] 0 /\ mv_pos v = nth (nth k [y; z] 0) V [].
Proof.
  intros -> Hy Hz Hk. unfold fem_vertex. destruct k as [|[|]]; try lia; cbn [vget nth_error bind nn nth].
  - destruct (ca_vertex _ _ _ _ Hc y Hy) as (v & -> & Hg & Hp & _). exists v. rewrite Hg, Hp. auto.
  - destruct (ca_vertex _ _ _ _ Hc z Hz) as (v & -> & Hg & Hp & _). exists v. rewrite Hg, Hp. auto.
Qed.
Lemma set0 (a b c : N) : v_set [a; b] 0 c = Ok [c; b]. Proof. reflexivity. Qed.
Lemma set1 (a b c : N) : v_set [a; b] 1 c = Ok [a; c]. Proof. reflexivity. Qed.
Lemma sum2 (a b : N) : v_sum [a; b] = Ok (a + b)%num. Proof. cbn. apply ok_val'. ring. Qed.
Lemma face_ok e i t fe : e < m -> i < 3 -> deref (he s) e = Ok t ->
  fem_face s t X i fe = Ok (fe + face_part V x (node D e i) (node D e ((i + 1) mod 3)) (node D e ((i + 2) mod 3)))%num.
Proof.
  intros He Hi Et. assert (He' : e < length T) by now rewrite <- m_is.
  destruct (di_faces _ _ _ _ _ _ _ _ HD e i He' Hi) as (t' & d & ed & y & z & E & Ev & En & Ed & Eyz & Hyz). assert (t' = t) by congruence. subst t'.
  unfold fem_face. unfold vget at 1. rewrite En. cbn [bind nn]. rewrite Ed. cbn [bind].
  destruct (vertex_ok e t (me_v t) i He Hi E Ev eq_refl ltac:(rewrite HT3; auto)) as (w & -> & Gw & Pw). cbn [bind]. rewrite Gw, Pw.
  assert (Hm1 : (i + 1) mod 3 < 3) by (apply Nat.mod_upper_bound; lia). assert (Hm2 : (i + 2) mod 3 < 3) by (apply Nat.mod_upper_bound; lia).
  destruct (node_low e i He Hi) as (Ei & Li), (node_low e _ He Hm1) as (E1 & L1), (node_low e _ He Hm2) as (E2 & L2). rewrite <- Ei, <- E1, <- E2.
  assert (Ly : y < n /\ z < n) by (destruct Hyz as [(-> & ->)|(-> & ->)]; auto). destruct Ly as (Ly & Lz).
  destruct (edge_vertex ed y z 0 Eyz Ly Lz ltac:(lia)) as (v0 & F0 & G0 & P0). destruct (edge_vertex ed y z 1 Eyz Ly Lz ltac:(lia)) as (v1 & F1 & G1 & P1). cbn [nth] in *.
  rewrite (reads_at _ _ _ _ HX Li). cbn [bind]. rewrite F0, F1. cbn [bind]. rewrite G0, G1, P0, P1. rewrite (reads_at _ _ _ _ HX Ly), (reads_at _ _ _ _ HX Lz). cbn [bind].
  rewrite !dist_then by auto. change (@v_new N 2) with [@n0 N; n0]. cbn [bind]. rewrite set0. cbn [bind]. rewrite set1. cbn [bind].
  rewrite dist_then by auto.
  unfold v_magSqr. rewrite (dot2 HO). cbn [bind]. apply ok_val'. unfold face_part, steep2. cbn zeta.
  destruct Hyz as [(-> & ->)|(-> & ->)]; [reflexivity|]. rewrite (gap_sym (nth (node T e ((i + 2) mod 3)) V []) (nth (node T e ((i + 1) mod 3)) V [])). ring.
Qed.
(** the cell term of order 2 *)
Lemma grad2_ok q (a b : N) (nv : list N) : q < 6 -> length nv = 6 -> sf_gradient2_nv 2 2 q [a; b] nv = Ok [nth 4 nv n0 * d2shape q 0; nth 5 nv n0 * d2shape q 1]%num.
Proof.
  intros Hq Hl. destruct nv as [|u0 [|u1 [|u2 [|u3 [|u4 [|u5 [|]]]]]]]; cbn in Hl; try lia.
  repeat (destruct q as [|q]; [cbn; repeat (apply ok_cons'; [lit; ring|]); reflexivity|]). lia.
Qed.
Lemma values_ok e t : e < m -> deref (he s) e = Ok t -> exists nv, 
  for_ 0 (sf_dof 2 o) (fun i nv => let* g := fem_dof s t i in let* u := v_at X g in v_set nv i u) (v_new (sf_dof 2 o)) = Ok nv /\ reads nv (3 * o) (fun k => x (node D e k)).
Proof.
  intros He Et. destruct (dof_ok HO o V D bd s Hc (di_len _ _ _ _ _ _ _ _ HD) (di_in _ _ _ _ _ _ _ _ HD) e He) as (t' & E & _ & Hd). assert (t' = t) by congruence. subst t'.
  change (sf_dof 2 o) with (3 * o).
  destruct (for_returns (fun k (nv : list N) => reads nv (3 * o) (fun i => if i <? k then x (node D e i) else n0)) 0 (3 * o)
     (fun i nv => let* g := fem_dof s t i in let* u := v_at X g in v_set nv i u) (v_new (3 * o))) as (nv & E1 & H1).
  - lia.
  - eapply reads_ext; [apply reads_new|]. reflexivity.
  - intros i nv Hi Hnv. destruct (Hd i ltac:(lia)) as (-> & L). cbn [bind]. rewrite (reads_at _ _ _ _ HX L). cbn [bind].
    destruct (reads_set _ _ _ i (x (node D e i)) Hnv ltac:(lia)) as (nv' & -> & R). apply returns_ok. eapply reads_ext; [exact R|].
    intros k Hk. cbv beta. destruct (Nat.eqb_spec k i) as [->|Hne].
    + now rewrite (proj2 (Nat.ltb_lt i (S i))) by lia.
    + destruct (Nat.ltb_spec k i), (Nat.ltb_spec k (S i)); auto; lia.
  - exists nv. split; auto. eapply reads_ext; [exact H1|]. intros i Hi. cbv beta. now rewrite (proj2 (Nat.ltb_lt _ _) Hi).
Qed.
Lemma cell_ok (f : list N -> N) e (nv : list N) : o = 2 -> e < m -> reads nv 6 (fun k => x (node D e k)) ->
  q_eval_index 2 (2 + 1) (fun i local => let* g2 := sf_gradient2_nv 2 2 i local nv in let* t := d_mulv (pinv (corner V D e) (dval (corner V D e))) g2 in let* t := v_sum t in
     let* gl := sx_toGlobal (prep (corner V D e)) local in Ok (t + f gl)%num) n0 =
  Ok (bigsum 4 (fun q => let w c := x (node D e (4 + c)) * d2shape q c in qw 2 q * (pull (corner V D e) w 0 + pull (corner V D e) w 1 + f (place (corner V D e) (qp 2 q 0) (qp 2 q 1)))))%num.
Proof.
  intros _ He (Ln & Hn). set (p := corner V D e).
  set (h := fun q => (pull p (fun c => x (node D e (4 + c)) * d2shape q c) 0 + pull p (fun c => x (node D e (4 + c)) * d2shape q c) 1 + f (place p (qp 2 q 0) (qp 2 q 1)))%num).
  rewrite (eval_index_is HF 2 (2 + 1) _ (map h (seq 0 4))).
  - apply ok_val'. rewrite (wsum_nth HF) by reflexivity. change (length (nweights 2 (2 + 1))) with 4.
    transitivity (bigsum 4 (fun q => nth q (@nweights N 2 (2 + 1)) n0 * h q))%num.
    + match goal with |- (n0 + ?u)%num = _ => transitivity u; [ring|] end. apply bigsum_ext. intros q Hq. f_equal. rewrite (nth_indep _ n0 (h 0)) by (rewrite map_length, seq_length; auto).
      rewrite (map_nth h), seq_nth by auto. reflexivity.
    + apply bigsum_ext. intros q Hq. cbn zeta. unfold h. f_equal. unfold nweights, qw.
      rewrite (nth_indep _ n0 (n0 * unit_volume 2)%num) by (rewrite map_length; exact Hq). rewrite (map_nth (fun w => w * unit_volume 2)%num). apply (half_vol HO HN).
  - now apply (in_rules 2), or_intror.
  - reflexivity.
  - intros i Hi. change (length (@gl_points N 2 (2 + 1))) with 4 in Hi. rewrite (nth_indep _ n0 (h 0)) by (rewrite map_length, seq_length; auto). rewrite (map_nth h), seq_nth by auto. cbn [Nat.add].
    unfold h, qp. change (gl_points 2 3) with (@gl_points N 2 (2 + 1)). destruct (points2 2 (nth i (@gl_points N 2 (2 + 1)) [])) as (a & b & Eab); [now right|now apply nth_In|]. rewrite Eab. cbn [nth].
    rewrite grad2_ok by (auto; lia). rewrite !Hn by lia. cbn [bind]. rewrite (pull_ok HO) by (now apply Hpr). cbn [bind]. rewrite sum2. cbn [bind]. rewrite global_eq. cbn [bind].
    apply ok_val'. f_equal. f_equal. unfold place. cbn [map]. apply list2_eq; ring.
Qed.
Lemma post_element_ok (HS : SqrtLaws N) f e t : e < m -> deref (he s) e = Ok t ->
  exists d, longest (corner V D e) d /\ fem_post_element o f s t X = Ok (post_part o f V D x e d).
Proof.
  intros He Et. destruct (ca_element _ _ _ _ Hc e He) as (t' & sx0 & E & Hd & Hcn & Hsx). assert (t' = t) by congruence. subst t'.
  pose proof (prepared HO _ _ _ Hcn Hsx) as Ep. pose proof (prep_made HO _ _ Hcn) as Hmade.
  destruct (diameter_ok HO HS (prep (corner V D e)) (corner V D e) Hmade) as (d & Edm & Hd0 & Hd1 & Hd2). exists d. split; [repeat split; auto|].
  unfold fem_post_element. rewrite Ep. cbn [sx_determinant sx_inverseMatrix prep sx_prep sx_det sx_inv assert_ bind]. fold (prep (corner V D e)). rewrite Edm. cbn [bind].
  assert (Fe : for_ 0 3 (fun (i : nat) (fe : N) => fem_face s t X i fe) n0 = Ok (bigsum 3 (fun i => face_part V x (node D e i) (node D e ((i + 1) mod 3)) (node D e ((i + 2) mod 3))))).
  { unfold for_. cbn [Nat.sub for_n]. rewrite !(face_ok e) by (auto; lia). cbn [bind]. rewrite (face_ok e) by (auto; lia). cbn [bind]. rewrite (face_ok e) by (auto; lia). reflexivity. }
  rewrite Fe. unfold post_part. destruct (Nat.eqb_spec o 2) as [E2|E2].
  - destruct (values_ok e t He Et) as (nv & -> & Hnv). cbn [bind]. rewrite E2 in Hnv |- *. rewrite (cell_ok f e nv E2 He Hnv). cbn [bind].
    rewrite (dval_proper _ (Hpr e He)). reflexivity.
  - reflexivity.
Qed.
Lemma post_ok (HS : SqrtLaws N) f : exists E, fem_post o f s X = Ok E /\ length E = length D /\
  forall e, e < length D -> exists d, longest (corner V D e) d /\ nth e E n0 = post_part o f V D x e d.
Proof.
  unfold fem_post. destruct (ca_lists _ _ _ _ Hc) as (_ & EV). rewrite EV, seq_length.
  destruct (foreach_seq (fun t (st : nat * list N) => fst st = t /\ length (snd st) = m /\ forall e, e < t -> exists d, longest (corner V D e) d /\ nth e (snd st) n0 = post_part o f V D x e d) m
    (fun e st => let '(k, P) := st in let* t := deref (he s) e in let* nk := fem_post_element o f s t X in let* P := v_set P k nk in Ok (Datatypes.S k, P)) (0, v_new m)) as (st & E1 & E2 & E3 & E4).
  - split; [reflexivity|]. split; [apply repeat_length|]. intros e He. lia.
  - intros e [k E] He (H1 & H2 & H3). cbn [fst snd] in *. subst k. destruct (ca_element _ _ _ _ Hc e He) as (t & _ & Et & _). rewrite Et. cbn [bind].
    destruct (post_element_ok HS f e t He Et) as (d & Hd & ->). cbn [bind]. rewrite v_set_ok by lia. cbn [bind]. apply returns_ok. cbn [fst snd].
    split; auto. split; [now rewrite upd_length|]. intros e' He'. rewrite nth_upd. destruct (Nat.eqb_spec e' e) as [->|Hne]; cbn [andb].
    + rewrite H2, (proj2 (Nat.ltb_lt _ _) He). exists d. auto.
    + apply H3. lia.
  - rewrite E1. cbn [bind]. exists (snd st). auto.
Qed.
End Post.
End FemPost.
