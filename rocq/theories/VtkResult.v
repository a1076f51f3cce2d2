(** What the exported file says. *)
From Coq Require Import String List Arith Bool ZArith Lia.
From Verif Require Import Base BaseProofs Num OrdField UtilsSpec VectorModel SimplexModel SimplexSpec SimplexResult MeshModel MeshSpec MeshPool MeshProofs MeshResult MeshValid
  MeshDofSpec MeshDof MeshDofResult ObjSpec ObjProofs VtkModel VtkSpec VtkProofs.
Import ListNotations.
Local Open Scope list_scope.
Local Open Scope nat_scope.
Open Scope res_scope.

Lemma slices {A} (c : list (list A)) d : (forall l, In l c -> length l = d) -> forall e, e < length c ->
  firstn (S e * d - e * d) (skipn (e * d) (List.concat c)) = nth e c [].
Proof.
  intros H e. replace (S e * d - e * d) with d by lia. revert e. induction c as [|l c IH]; intros e He; cbn [length] in He; [lia|].
  pose proof (H l (or_introl eq_refl)) as Hl. destruct e as [|e]; cbn [List.concat nth].
  - cbn [Nat.mul skipn]. rewrite firstn_app, <- Hl, Nat.sub_diag, firstn_all. cbn. apply app_nil_r.
  - rewrite skipn_app. rewrite skipn_all2 by (cbn; lia). cbn [app]. replace (S e * d - length l) with (e * d) by (cbn; lia).
    apply IH; [intros; apply H; now right|lia].
Qed.
Lemma concat_len {A} (c : list (list A)) d : (forall l, In l c -> length l = d) -> length (List.concat c) = length c * d.
Proof.
  induction c as [|l c IH]; intros H; auto. cbn [List.concat length]. rewrite app_length, IH by (intros; apply H; now right). rewrite (H l) by now left. reflexivity.
Qed.

Section Vtk.
Context {N : Num}.
Notation mst := (mst N).
Section Read.
Variables (s : mst) (o : Z) (pd cd : list (string * list N)).
Hypothesis EX : exportable (elem_off 2 o) s.
Hypothesis RD : element_data_ready o s.
Hypothesis PD : pd <> [].
Notation out := (cat_lines (Lall s o pd cd)).
Lemma pts : points_of out = map (fun p => (nth 0 (mv_pos (vx s p)) n0, nth 1 (mv_pos (vx s p)) n0, n0)) (mV s).
Proof.
  unfold points_of. rewrite file_lines, read_points. induction (mV s) as [|p l IH]; auto. cbn [map List.concat]. rewrite vals_app. cbn [pline vals flat_map app triples].
  f_equal. exact IH.
Qed.
Lemma conn : connectivity_of out = List.concat (map (fun p => map (fun q => mv_gi (vx s (dofp q))) (me_dof (exx s p))) (mE s)).
Proof.
  unfold connectivity_of. rewrite file_lines, read_conn. induction (mE s) as [|p l IH]; auto. cbn [map List.concat]. rewrite ints_app. f_equal; auto.
  unfold cline. apply ints_nline.
Qed.
Lemma offs : offsets_of out = map (fun i => i * elem_off 2 o) (seq 1 (length (mE s))).
Proof. unfold offsets_of. rewrite file_lines, read_offs. apply ints_nline. Qed.
Lemma typs : types_of out = map (fun _ => elem_type 2 o) (seq 0 (length (mE s))).
Proof. unfold types_of. rewrite file_lines, read_types. apply ints_nline. Qed.
Lemma off_nth e : e < length (mE s) -> nth e (offsets_of out) 0 = S e * elem_off 2 o.
Proof.
  intros He. rewrite offs. rewrite (nth_indep _ 0 (0 * elem_off 2 o)) by (now rewrite map_length, seq_length). rewrite (map_nth (fun i => i * elem_off 2 o)), seq_nth by auto. reflexivity.
Qed.
Lemma cell e p : nth_error (mE s) e = Some p -> cell_of out e = map (fun q => mv_gi (vx s (dofp q))) (me_dof (exx s p)).
Proof.
  intros He. assert (Hl : e < length (mE s)) by (apply nth_error_Some; congruence). unfold cell_of. rewrite off_nth by auto.
  replace (nth e (0 :: offsets_of out) 0) with (e * elem_off 2 o); [|destruct e as [|e]; auto; cbn [nth]; now rewrite off_nth by lia].
  rewrite conn. rewrite slices.
  - apply nth_error_nth. rewrite nth_error_map, He. reflexivity.
  - intros l Hi. apply in_map_iff in Hi as (q & <- & Hq). rewrite map_length. now apply (ex_elem s _ EX q).
  - now rewrite map_length.
Qed.
Lemma point k p : nth_error (mV s) k = Some p -> stands_for s (Some p) (nth k (points_of out) (n0, n0, n0)).
Proof.
  intros Hk. destruct (ex_vertex s _ EX p) as (A & B); [eapply nth_error_In; exact Hk|]. exists p, (vx s p), (nth 0 (mv_pos (vx s p)) n0), (nth 1 (mv_pos (vx s p)) n0).
  split; auto. split; auto. split; auto. rewrite pts. apply nth_error_nth. rewrite nth_error_map, Hk. reflexivity.
Qed.
Lemma described : describes (elem_type 2 o) s out.
Proof.
  split.
  - rewrite file_lines. unfold Lall, Lheader. apply in_app_iff. left. apply in_app_iff. left. cbn. auto.
  - split; [rewrite pts; apply map_length|exact point].
  - split; [rewrite offs; now rewrite map_length, seq_length|]. split; [rewrite typs; now rewrite map_length, seq_length|].
    rewrite conn. rewrite (concat_len _ (elem_off 2 o)).
    + rewrite map_length, offs. destruct (length (mE s)) as [|n]; auto. rewrite seq_S, map_app. cbn [map]. rewrite last_last. reflexivity.
    + intros l Hi. apply in_map_iff in Hi as (q & <- & Hq). rewrite map_length. now apply (ex_elem s _ EX q).
  - intros e p He. assert (Hl : e < length (mE s)) by (apply nth_error_Some; congruence). split.
    + rewrite typs. rewrite (nth_indep _ 0 (elem_type 2 o)) by (now rewrite map_length, seq_length). apply (map_nth (fun _ => elem_type 2 o) _ 0).
    + destruct (ex_elem s _ EX p) as (A & _ & B); [eapply nth_error_In; exact He|]. exists (exx s p). split; auto. unfold cell_points. rewrite (cell e p He), map_map.
      revert B. induction (me_dof (exx s p)) as [|q l IH]; intros B; constructor; [|apply IH; intros; apply B; now right].
      destruct (B q (or_introl eq_refl)) as (Eq & Hq). apply In_nth_error in Hq as (k & Hk). destruct (ex_vertices _ _ EX k _ Hk) as (v & a & b & Hv & Hg & _).
      assert (G : mv_gi (vx s (dofp q)) = k) by (unfold vx; now rewrite Hv). rewrite G, Eq at 1. apply point. exact Hk.
Qed.
End Read.
Theorem export_ok (s : mst) o pd cd : exportable (elem_off 2 o) s -> element_data_ready o s -> pd <> [] ->
  returns (vtk_write o s pd cd) (fun out => describes (elem_type 2 o) s out).
Proof. intros EX RD PD. eexists. split; [eapply all_lines; eauto|]. now apply described. Qed.
Theorem export_data d (s : mst) o pd cd : exportable d s -> element_data_ready o s -> pd <> [] -> NoDup (map fst pd) -> NoDup (map fst cd) ->
  returns (vtk_write o s pd cd) (fun out =>
    (forall name v, In (name, v) pd -> vals (array (data_tag name) (before_cell_data out)) = v) /\
    (forall name v, In (name, v) cd -> vals (array (data_tag name) (in_cell_data out)) = v)).
Proof.
  intros EX RD PD H1 H2. eexists. split; [eapply all_lines; eauto|]. unfold before_cell_data, in_cell_data. rewrite file_lines. split; intros name v Hin.
  - rewrite read_pointdata with (v := v) by auto. apply vals_nline.
  - rewrite read_celldata with (v := v) by auto. apply vals_nline.
Qed.
Theorem export_labels d (s : mst) o pd cd : exportable d s -> element_data_ready o s -> pd <> [] ->
  returns (vtk_write o s pd cd) (fun out =>
    ints (array boundary_tag (before_cell_data out)) = (if option_set o VertexBoundaryLabel then flags mv_bound s else []) /\
    ints (array implicit_tag (before_cell_data out)) = (if option_set o VertexImplicitLabel then flags mv_impl s else []) /\
    vals (array determinant_tag (in_cell_data out)) = (if option_set o ElementDeterminant then determinants s else [])).
Proof.
  intros EX RD PD. eexists. split; [eapply all_lines; eauto|]. unfold before_cell_data, in_cell_data. rewrite file_lines.
  assert (F : forall f : mvert N -> bool, map (fun p => if f (vx s p) then 1 else 0) (mV s) = flags f s).
  { intros f. apply map_ext_in. intros p Hp. destruct (ex_vertex s _ EX p Hp) as (-> & _). reflexivity. }
  assert (G : map (fun p => sx_det (me_sx (exx s p))) (mE s) = determinants s).
  { apply map_ext_in. intros p Hp. destruct (ex_elem s _ EX p Hp) as (-> & _). reflexivity. }
  rewrite read_boundary, read_implicit, read_det, !F, G.
  repeat split; destruct (option_set _ _); auto; (apply ints_nline || apply vals_nline).
Qed.
Theorem export_matrices d (s : mst) o pd cd : exportable d s -> element_data_ready o s -> pd <> [] ->
  returns (vtk_write o s pd cd) (fun out =>
    records matrix_text (in_cell_data out) = (if option_set o ElementMatrix then matrices s else []) /\
    records gradient_text (in_cell_data out) = (if option_set o ElementGradient then gradients s else [])).
Proof.
  intros EX RD PD. eexists. split; [eapply all_lines; eauto|]. unfold in_cell_data. rewrite file_lines, read_mat, read_grad. split.
  - destruct (option_set o ElementMatrix) eqn:O; auto. apply map_ext_in. intros p Hp. unfold element_data_ready in RD. rewrite O, orb_true_r in RD.
    destruct (RD eq_refl p Hp) as (x & Hx & Hm & Hr). unfold mvals, exx. rewrite Hx. cbn [bind]. unfold sx_matrix. rewrite Hr. cbn [assert_ bind].
    destruct (made_shape' x.(me_sx) Hm) as (_ & (a & b & c & e & ->) & _). reflexivity.
  - destruct (option_set o ElementGradient) eqn:O; auto. apply map_ext_in. intros p Hp. unfold element_data_ready in RD. rewrite O, orb_true_r in RD.
    destruct (RD eq_refl p Hp) as (x & Hx & Hm & Hr). unfold gvals, exx. rewrite Hx. reflexivity.
Qed.
(** Meshes made by prepareMesh can be exported. *)
Lemma prepare_vertices (s s' : mst) : m_prepare s = Ok s' -> hv s' = hv s.
Proof.
  unfold m_prepare. generalize (mE s). intros l. revert s. induction l as [|e l IH]; intros s; cbn [foreach]; intros E; [now inversion E|].
  destruct (deref (he s) e) as [x| | | | |]; cbn [bind] in E; try discriminate. destruct (sx_prepare (me_sx x)) as [y| | | | |]; cbn [bind] in E; try discriminate.
  destruct (store _ _ _) as [g| | | | |]; cbn [bind] in E; try discriminate. apply IH in E. exact E.
Qed.
Lemma ready_numbers (ops : list (mop N)) s : valid 0 ops -> ready ops s -> forall k x, deref (hv s) k = Ok x -> mv_gi x = k.
Proof.
  intros Hv R. destruct (build_ok ops Hv) as (E & HT). induction R as [s Hs|s s' R IH Hs|s s' R IH Hs]; intros k x Hx.
  - pose proof (setup_neighbours ops Hv) as Q. rewrite E in Q, Hs. cbn [bind] in Q, Hs. rewrite Hs in Q. cbn [bind post fst snd] in Q. destruct Q as (_ & Hh & _).
    rewrite Hh in Hx. unfold mesh_of in Hx. cbn [hv] in Hx. apply deref_pool_inv in Hx as (_ & ->). reflexivity.
  - destruct (ready_net ops s Hv R) as (fv & fs & nb & nd & xs & o & q & -> & G & H & Hp & He). rewrite boundaries_net in Hs by auto. inversion Hs; subst s'.
    cbn [net hv] in Hx. apply deref_pool_inv in Hx as (Hk & ->). unfold bfv. cbn. apply (IH k). cbn [net hv]. now apply deref_pool.
  - rewrite (prepare_vertices _ _ Hs) in Hx. eauto.
Qed.
Theorem prepared_exportable (ops : list (mop N)) s order : valid 0 ops -> ready ops s -> order = 1 \/ order = 2 ->
  returns (m_prepareMesh order s) (exportable (3 * order)).
Proof.
  intros Hv R Ho. pose proof (ready_numbers ops s Hv R) as Hg. destruct (build_ok ops Hv) as (_ & HT).
  destruct (ready_net ops s Hv R) as (fv & fs & nb & nd & xs & o & q & -> & G & H & Hp & He).
  set (nv := length (points ops)) in *. set (T := tris ops) in *.
  assert (V : forall P k p, nth_error (mV (st nv fv fs T nb nd xs o q P)) k = Some p -> exists v a b, deref (hv (st nv fv fs T nb nd xs o q P)) p = Ok v /\ mv_gi v = k /\ mv_pos v = [a; b]).
  { intros P k p Hk. cbn [st mV hv] in *. assert (Hlt : k < nv + length (stL P)) by (rewrite <- (seq_length (nv + length (stL P)) 0); apply nth_error_Some; congruence).
    rewrite (nth_error_nth' _ 0) in Hk by (now rewrite seq_length). rewrite seq_nth in Hk by auto. injection Hk as <-. cbn [Nat.add].
    rewrite deref_pool by auto. unfold stv. destruct (k <? nv) eqn:E.
    - apply Nat.ltb_lt in E. pose proof (Hp k E) as L2. assert (Gk : mv_gi (fv k) = k) by (apply Hg; cbn [net hv]; now apply deref_pool).
      destruct (mv_pos (fv k)) as [|a [|b [|]]] eqn:Ep; try discriminate. exists (fv k), a, b. auto.
    - unfold midpos. do 3 eexists. split; [reflexivity|]. cbn. auto. }
  assert (IC : forall e k, e < length T -> In k (nth e T []) -> k < nv) by (intros e k He' Hk; eapply (tr_lt nv T HT); eauto).
  destruct Ho as [-> | ->].
  - eexists. split; [apply (first_order _ _ _ _ _ _ _ _ _ HT G H)|]. split; [apply V|]. intros p Hi. cbn [st mE he mV] in *. apply in_seq in Hi. rewrite deref_pool by lia.
    eexists. split; [reflexivity|]. cbn [ste me_dof filter map]. rewrite app_nil_r, map_length. pose proof (tr_triple nv T HT p ltac:(lia)) as (L3 & _). split; [exact L3|].
    intros r Hr. apply in_map_iff in Hr as (k & <- & Hk). exists k. split; auto. apply in_seq. specialize (IC p k ltac:(lia) Hk). lia.
  - eexists. split; [apply (second_done _ _ _ _ _ _ _ _ _ HT G H Hp)|]. split; [apply V|]. intros p Hi. cbn [st mE he mV] in *. apply in_seq in Hi. rewrite deref_pool by lia.
    eexists. split; [reflexivity|]. rewrite dof2 by lia. pose proof (tr_triple nv T HT p ltac:(lia)) as (L3 & _).
    split; [rewrite app_length, map_length, L3; reflexivity|]. intros r Hr. apply in_app_iff in Hr as [Hr|Hr].
    + apply in_map_iff in Hr as (k & <- & Hk). exists k. split; auto. apply in_seq. specialize (IC p k ltac:(lia) Hk). lia.
    + assert (M : forall i, i < 3 -> exists k, Some (Mof nv T nb (eg nb p i)) = Some k /\ In k (seq 0 (nv + length (stL (pairs nb (length T)))))).
      { intros i Hi'. eexists. split; [reflexivity|]. apply in_seq. destruct (eg_ok T nb nd xs o q G H p i ltac:(lia) Hi') as (Hd & _).
        pose proof (Mof_lt nv T nb nd xs o q HT G H _ Hd). rewrite (L_len nv T nb nd xs o q HT G H). lia. }
      destruct Hr as [<-|[<-|[<-|[]]]]; apply M; lia.
Qed.
Lemma keeps_data (s s' : mst) o : keeps_mesh s s' -> element_data_ready o s -> element_data_ready o s'.
Proof.
  intros K R Hb p Hp. destruct (km_lists _ _ K) as (HE & _). rewrite HE in Hp. destruct (R Hb p Hp) as (x & Hx & Hm & Hr).
  destruct (km_elements _ _ K p Hp) as (y & y' & Hy & Hy' & Es & _). assert (x = y) by congruence. subst y. exists y'. rewrite Es. auto.
Qed.
Lemma prepared_keeps (ops : list (mop N)) s order s' : valid 0 ops -> ready ops s -> order = 1 \/ order = 2 -> m_prepareMesh order s = Ok s' -> keeps_mesh s s'.
Proof.
  intros Hv R Ho E. destruct (build_ok ops Hv) as (_ & HT). destruct (ready_net ops s Hv R) as (fv & fs & nb & nd & xs & o & q & -> & G & H & Hp & He).
  destruct Ho as [-> | ->]; [rewrite (first_order _ _ _ _ _ _ _ _ _ HT G H) in E|rewrite (second_done _ _ _ _ _ _ _ _ _ HT G H Hp) in E]; inversion E; apply keeps.
Qed.
Theorem export_mesh (ops : list (mop N)) s order o pd cd : valid 0 ops -> ready ops s -> (order = 1 /\ option_set o IsQuadratic = false) \/ (order = 2 /\ option_set o IsQuadratic = true) ->
  element_data_ready o s -> pd <> [] ->
  returns (let* s' := m_prepareMesh order s in let* out := vtk_write o s' pd cd in Ok (s', out))
    (fun r => keeps_mesh s (fst r) /\ describes (if order =? 1 then 5 else 22) (fst r) (snd r)).
Proof.
  intros Hv R Ho RD PD. assert (Ho' : order = 1 \/ order = 2) by tauto. destruct (prepared_exportable ops s order Hv R Ho') as (s' & E & X).
  pose proof (prepared_keeps ops s order s' Hv R Ho' E) as K. rewrite E. cbn [bind].
  assert (Eo : elem_off 2 o = 3 * order /\ elem_type 2 o = if order =? 1 then 5 else 22) by (unfold elem_off, elem_type; destruct Ho as [(-> & ->)|(-> & ->)]; auto).
  destruct Eo as (E1 & E2). rewrite <- E1 in X. destruct (export_ok s' o pd cd X (keeps_data _ _ _ K RD) PD) as (out & Eout & D). rewrite Eout. cbn [bind]. eexists. split; [reflexivity|].
  cbn [fst snd]. rewrite <- E2. auto.
Qed.
Definition pad (x : list N) : N * N * N := (nth 0 x n0, nth 1 x n0, n0).
Lemma stands_at (s : mst) p x pt : stands_for s (Some p) pt -> vertex_at s p x -> pt = pad x.
Proof. intros (p' & v & a & b & [= <-] & Hv & Ha & ->) (v' & Hv' & <-). assert (v = v') by congruence. subst v'. rewrite Ha. reflexivity. Qed.
Theorem export_quadratic (HF : FieldLaws N) (HN : NatLaws N) (ops : list (mop N)) s o pd cd : valid 0 ops -> ready ops s -> option_set o IsQuadratic = true ->
  element_data_ready o s -> pd <> [] ->
  returns (let* s' := m_prepareMesh 2 s in let* out := vtk_write o s' pd cd in Ok (s', out))
    (fun r => forall e p, nth_error (mE (fst r)) e = Some p -> exists x a b c pa pb pc, deref (he (fst r)) p = Ok x /\ me_v x = [Some a; Some b; Some c] /\
       vertex_at (fst r) a pa /\ vertex_at (fst r) b pb /\ vertex_at (fst r) c pc /\
       cell_points (snd r) e = [pad pa; pad pb; pad pc; pad (midpoint pa pb); pad (midpoint pb pc); pad (midpoint pc pa)]).
Proof.
  intros Hv R Ho RD PD. destruct (export_mesh ops s 2 o pd cd Hv R (or_intror (conj eq_refl Ho)) RD PD) as ((s', out) & E & _ & D). exists (s', out). split; auto.
  destruct (dof_second HF HN ops s Hv R) as (s'' & E2 & _ & _ & Q). rewrite E2 in E. cbn [bind] in E. destruct (vtk_write o s'' pd cd); cbn [bind] in E; try discriminate.
  inversion E; subst. cbn [fst snd] in *. intros e p He. destruct (de_cells _ _ _ D e p He) as (_ & x & Hx & F). destruct (Q p (nth_error_In _ _ He)) as (y & a & b & c & i & j & k & pa & pb & pc & Hy & Hm & Hd & L1 & L2 & L3 & A & B & C & I & J & Kk).
  assert (x = y) by congruence. subst y. rewrite Hd in F. exists x, a, b, c, pa, pb, pc. repeat (split; [assumption|]).
  repeat match goal with H : Forall2 _ (_ :: _) _ |- _ => inversion H; subst; clear H | H : Forall2 _ [] _ |- _ => inversion H; subst; clear H end.
  repeat match goal with H : stands_for _ (Some ?v) _, X : vertex_at _ ?v _ |- _ => rewrite (stands_at _ _ _ _ H X); clear H end. reflexivity.
Qed.
Theorem export_ready (HO : OrdFieldLaws N) (ops : list (mop N)) s o : valid 0 ops -> (let* s := build ops in m_setupNeighbors s) = Ok s ->
  returns (m_prepare s) (fun s' => ready ops s' /\ element_data_ready o s').
Proof.
  intros Hv Hs. destruct (prepare_mesh_ok HO ops s Hv Hs) as (s' & E & _ & _ & _ & HE & _ & X). exists s'. split; auto. split; [eapply rd_prepare; [apply rd_setup; exact Hs|exact E]|].
  intros _ p Hp. rewrite HE in Hp. pose proof (setup_neighbours ops Hv) as Q. destruct (build_ok ops Hv) as (Eb & _). rewrite Eb in Q, Hs. cbn [bind] in Q, Hs. rewrite Hs in Q. cbn [bind post fst snd] in Q.
  destruct Q as (Nh & _). 
  assert (Hlt : p < length (tris ops)).
  { destruct (ready_net ops s Hv (rd_setup ops s ltac:(rewrite Eb; exact Hs))) as (fv & fs & nb & nd & xs & o' & q & -> & _). cbn [net mE] in Hp. apply in_seq in Hp. lia. }
  destruct (X p Hlt) as (x & x' & Hx & Hx' & _ & _ & _ & Hpr & (Hc & _)). exists x'. split; auto. split; auto.
  unfold sx_prepare in Hpr. repeat match type of Hpr with bind ?r _ = _ => destruct r; cbn [bind] in Hpr; try discriminate end. inversion Hpr. reflexivity.
Qed.
End Vtk.
