(** The VTK exporter. *)
From Coq Require Import String List Arith Bool ZArith Lia.
From Verif Require Import Base BaseProofs Num VectorModel VectorProofs DenseModel DenseProofs DensePropProofs LUModel SimplexModel SimplexSpec SimplexProofs
  MeshModel MeshPool ObjSpec ObjProofs VtkModel VtkSpec.
Import ListNotations.
Local Open Scope string_scope.
Local Open Scope list_scope.
Local Open Scope nat_scope.
Open Scope res_scope.

Section Vtk.
Context {N : Num}.
Notation line := (list (tok N)).
Notation mst := (mst N).

(** ** Lines *)
Definition cat_lines (ls : list line) : list (tok N) := flat_map (fun l => l ++ [Nl]) ls.
Definition clean (l : line) : Prop := ~ In Nl l.
Lemma cat_app a b : cat_lines (a ++ b) = cat_lines a ++ cat_lines b.
Proof. apply flat_map_app. Qed.
Lemma lines_line l r : clean l -> lines (l ++ Nl :: r) = l :: lines r.
Proof.
  unfold clean. induction l as [|t l IH]; intros H; cbn [app lines]; auto. rewrite IH by (intros X; apply H; now right).
  destruct t; auto. destruct H. now left.
Qed.
Lemma lines_cat ls : (forall l, In l ls -> clean l) -> lines (cat_lines ls) = ls ++ [[]].
Proof.
  induction ls as [|l ls IH]; intros H; auto. cbn [cat_lines flat_map]. fold (cat_lines ls). rewrite <- app_assoc. cbn [app].
  rewrite lines_line by (apply H; now left). rewrite IH by (intros; apply H; now right). reflexivity.
Qed.
Lemma emit_ok {A} (l : list A) (g : A -> res (list (tok N))) f : (forall x, In x l -> g x = Ok (f x)) -> emit l g = Ok (flat_map f l).
Proof.
  intros H. unfold emit.
  assert (G : forall acc, foreach l (fun x out => let* y := g x in Ok (out ++ y)) acc = Ok (acc ++ flat_map f l)).
  { induction l as [|x l IH]; intros acc; cbn [foreach flat_map]; [now rewrite app_nil_r|]. rewrite H by now left. cbn [bind].
    rewrite IH by (intros; apply H; now right). now rewrite app_assoc. }
  apply (G []).
Qed.
Lemma cat_map {A} (f : A -> line) l : cat_lines (map f l) = flat_map (fun x => f x ++ [Nl]) l.
Proof. induction l as [|x l IH]; auto. cbn [map cat_lines flat_map]. fold (cat_lines (map f l)). now rewrite IH. Qed.
Lemma below_skip tag A B : (forall l, In l A -> is_tag tag l = false) -> below tag (A ++ B) = @below N tag B.
Proof. induction A as [|l A IH]; intros H; cbn [app below]; auto. rewrite H by now left. apply IH. intros; apply H; now right. Qed.
Lemma above_keep tag A B : (forall l, In l A -> is_tag tag l = false) -> above tag (A ++ B) = A ++ @above N tag B.
Proof. induction A as [|l A IH]; intros H; cbn [app above]; auto. rewrite H by now left. now rewrite IH by (intros; apply H; now right). Qed.

(** ** Number lines *)
Definition nline (l : list (tok N)) : line := flat_map (fun t => [t; Str " "]) l.
Definition numeric (t : tok N) : Prop := match t with Val _ | Int _ => True | _ => False end.
Lemma nline_clean l : (forall t, In t l -> numeric t) -> clean (nline l).
Proof.
  intros H X. apply in_flat_map in X as (t & Ht & Hin). specialize (H t Ht). destruct Hin as [->|[E|[]]]; [exact H|discriminate].
Qed.
Lemma nline_tag tag l : tag <> [] -> (forall t, In t l -> numeric t) -> is_tag tag (nline l) = false.
Proof.
  intros Ht H. destruct tag as [|a tag]; [congruence|]. destruct l as [|t l]; auto. specialize (H t (or_introl eq_refl)). destruct t; try contradiction; reflexivity.
Qed.
Lemma vals_nline l : vals (nline (map Val l)) = l.
Proof. induction l as [|x l IH]; auto. cbn [map nline flat_map app vals]. f_equal. exact IH. Qed.
Lemma ints_nline l : ints (nline (map Int l)) = l.
Proof. induction l as [|x l IH]; auto. cbn [map nline flat_map app ints]. f_equal. exact IH. Qed.
Lemma num_vals l : forall t, In t (map Val l) -> numeric t.
Proof. intros t H. apply in_map_iff in H as (x & <- & _). exact I. Qed.
Lemma num_ints l : forall t, In t (map Int l) -> numeric t.
Proof. intros t H. apply in_map_iff in H as (x & <- & _). exact I. Qed.
Lemma vals_app a b : vals (a ++ b) = vals a ++ @vals N b.
Proof. apply flat_map_app. Qed.
Lemma ints_app a b : ints (a ++ b) = ints a ++ @ints N b.
Proof. apply flat_map_app. Qed.

(** ** The parts as lines *)
Section Parts.
Variables (s : mst) (o : Z).
Definition vx (p : nat) : mvert N := match deref (hv s) p with Ok v => v | _ => mk_vertex [] end.
Definition exx (p : nat) : melem N := match deref (he s) p with Ok v => v | _ => mk_element [] end.
Definition dofp (q : option nat) : nat := match q with Some p => p | None => 0 end.
Definition pline (p : nat) : line := [Val (nth 0 (mv_pos (vx p)) n0); Str " "; Val (nth 1 (mv_pos (vx p)) n0); Str " "; Val n0].
Definition cline (p : nat) : line := nline (map Int (map (fun q => mv_gi (vx (dofp q))) (me_dof (exx p)))).
Definition dline (d : string * list N) : list line :=
  [[Str "<DataArray Name="""; Str (fst d); Str """ type=""Float32"" format=""ascii"">"]; nline (map Val (snd d)); [Str "</DataArray>"]].
Definition fin : line := [Str "</DataArray>"].
Definition label (tag : string) (f : mvert N -> bool) : list line :=
  [[Str tag]; nline (map Int (map (fun p => if f (vx p) then 1 else 0) (mV s))); fin].
Definition Lheader : list line :=
  [[Str "<?xml version=""1.0""?>"]; [Str "<VTKFile type=""UnstructuredGrid"" version=""0.1"" byte_order=""LittleEndian"">"]; [Str "<UnstructuredGrid>"];
   [Str "<Piece NumberOfPoints="""; Int (length (mV s)); Str """ NumberOfCells="""; Int (length (mE s)); Str """>"]].
Definition Lpoints : list line :=
  [[Str "<Points>"]; [Str "<DataArray type=""Float32"" NumberOfComponents=""3"" format=""ascii"">"]] ++ map pline (mV s) ++ [fin; [Str "</Points>"]].
Definition Lconn : list line := [Str "<DataArray type=""Int32"" Name=""connectivity"" format=""ascii"">"] :: map cline (mE s) ++ [fin].
Definition Loffs : list line := [[Str "<DataArray type=""Int32"" Name=""offsets"" format=""ascii"">"]; nline (map Int (map (fun i => i * elem_off 2 o) (seq 1 (length (mE s))))); fin].
Definition Ltypes : list line := [[Str "<DataArray type=""UInt8"" Name=""types"" format=""ascii"">"]; nline (map Int (map (fun _ => elem_type 2 o) (seq 0 (length (mE s))))); fin].
Definition Lcells : list line := [[Str "<Cells>"]] ++ Lconn ++ Loffs ++ Ltypes ++ [[Str "</Cells>"]].
Definition Lpd (pd : list (string * list N)) : list line :=
  [[Str "<PointData Scalars="""; Str (match pd with [] => "" | d :: _ => fst d end); Str """>"]] ++ flat_map dline pd ++
  (if option_set o VertexBoundaryLabel then label "<DataArray Name=""BoundaryLabel"" type=""UInt8"" format=""ascii"">" mv_bound else []) ++
  (if option_set o VertexImplicitLabel then label "<DataArray Name=""ImplicitLabel"" type=""UInt8"" format=""ascii"">" mv_impl else []) ++
  [[Str "</PointData>"]].
Definition Ldet : list line := [[Str "<DataArray Name=""ElementDeterminant"" type=""Float32"" format=""ascii"">"]; nline (map Val (map (fun p => sx_det (me_sx (exx p))) (mE s))); fin].
Definition mvals (p : nat) : list N := dv (sx_m (me_sx (exx p))).
Definition gvals (p : nat) : list N := match sx_gradient (me_sx (exx p)) 0 with Ok g => g | _ => [] end.
Definition Lmat : list line := [Str "<DataArray Name=""ElementMatrix"" type=""Float32"" NumberOfComponents="""; Int 4; Str """ format=""ascii"">"] :: map (fun p => nline (map Val (mvals p))) (mE s) ++ [fin].
Definition Lgrad : list line := [Str "<DataArray Name=""ElementGradient"" type=""Float32"" NumberOfComponents="""; Int 4; Str """ format=""ascii"">"] :: map (fun p => nline (map Val (gvals p))) (mE s) ++ [fin].
Definition Lcd (cd : list (string * list N)) : list line :=
  [[Str "<CellData>"]] ++ flat_map dline cd ++ (if option_set o ElementDeterminant then Ldet else []) ++
  (if option_set o ElementMatrix then Lmat else []) ++ (if option_set o ElementGradient then Lgrad else []) ++ [[Str "</CellData>"]].
Definition Lend : list line := [[Str "</Piece>"]; [Str "</UnstructuredGrid>"]; [Str "</VTKFile>"]; []].
Definition Lall pd cd : list line := Lheader ++ Lpoints ++ Lcells ++ Lpd pd ++ Lcd cd ++ Lend.

Variable d : nat.
Hypothesis EX : exportable d s.
Lemma ex_vertex p : In p (mV s) -> deref (hv s) p = Ok (vx p) /\ mv_pos (vx p) = [nth 0 (mv_pos (vx p)) n0; nth 1 (mv_pos (vx p)) n0].
Proof.
  intros Hp. apply In_nth_error in Hp as (k & Hk). destruct (ex_vertices d s EX k p Hk) as (v & a & b & Hv & _ & Hab). unfold vx. rewrite Hv, Hab. auto.
Qed.
Lemma ex_elem p : In p (mE s) -> deref (he s) p = Ok (exx p) /\ length (me_dof (exx p)) = d /\ forall q, In q (me_dof (exx p)) -> q = Some (dofp q) /\ In (dofp q) (mV s).
Proof.
  intros Hp. destruct (ex_elements d s EX p Hp) as (x & Hx & Hl & Hq). unfold exx. rewrite Hx. split; auto. split; auto.
  intros q H. destruct (Hq q H) as (r & -> & Hr). auto.
Qed.
Lemma flat_single {A} (f : A -> tok N) l : flat_map (fun x => [f x; Str " "]) l = nline (map f l).
Proof. unfold nline. induction l; cbn; auto. now rewrite IHl. Qed.
Lemma points_lines : vtk_points 2 s = Ok (cat_lines Lpoints).
Proof.
  unfold vtk_points. rewrite (emit_ok _ _ (fun p => pline p ++ [Nl])).
  - cbn [bind]. f_equal. unfold Lpoints. rewrite !cat_app, cat_map. reflexivity.
  - intros p Hp. destruct (ex_vertex p Hp) as (-> & E). cbn [bind]. unfold vtk_point. rewrite E. reflexivity.
Qed.
Lemma conn_lines : vtk_connectivity s = Ok (cat_lines Lconn).
Proof.
  unfold vtk_connectivity. rewrite (emit_ok _ _ (fun p => cline p ++ [Nl])).
  - cbn [bind]. f_equal. unfold Lconn. change (?a :: ?b ++ ?c) with ([a] ++ b ++ c). rewrite !cat_app, cat_map. reflexivity.
  - intros p Hp. destruct (ex_elem p Hp) as (-> & _ & Hq). cbn [bind]. rewrite (emit_ok _ _ (fun q => [Int (mv_gi (vx (dofp q))); Str " "])).
    + cbn [bind]. rewrite (flat_single (fun q => Int (mv_gi (vx (dofp q))))). unfold cline. now rewrite map_map.
    + intros q H. destruct (Hq q H) as (E & Hr). destruct q as [r|]; [|discriminate]. cbn [nn bind dofp] in *. destruct (ex_vertex _ Hr) as (-> & _). reflexivity.
Qed.
Lemma offs_lines : vtk_offsets 2 o s = Ok (cat_lines Loffs).
Proof.
  unfold vtk_offsets. rewrite (emit_ok _ _ (fun i => [Int (i * elem_off 2 o); Str " "])) by reflexivity. cbn [bind]. f_equal.
  rewrite (flat_single (fun i => Int (i * elem_off 2 o))). unfold Loffs. rewrite map_map. cbn [cat_lines flat_map app]. f_equal. now rewrite <- app_assoc.
Qed.
Lemma types_lines : vtk_types 2 o s = Ok (cat_lines Ltypes).
Proof.
  unfold vtk_types. rewrite (emit_ok _ _ (fun i => [Int (elem_type 2 o); Str " "])) by reflexivity. cbn [bind]. f_equal.
  rewrite (flat_single (fun i => Int (elem_type 2 o))). unfold Ltypes. rewrite map_map. cbn [cat_lines flat_map app]. f_equal. now rewrite <- app_assoc.
Qed.
Lemma cells_lines : vtk_cells 2 o s = Ok (cat_lines Lcells).
Proof. unfold vtk_cells. rewrite conn_lines, offs_lines, types_lines. cbn [bind]. unfold Lcells. now rewrite !cat_app. Qed.
Lemma data_lines dd : vtk_data dd = Ok (cat_lines (dline dd)).
Proof.
  unfold vtk_data. rewrite (emit_ok _ _ (fun i => [Val (nth i (snd dd) n0); Str " "])).
  - cbn [bind]. f_equal. rewrite (flat_single (fun i => Val (nth i (snd dd) n0))). unfold dline. cbn [cat_lines flat_map app].
    replace (map (fun i => Val (nth i (snd dd) n0)) (seq 0 (v_size (snd dd)))) with (map (@Val N) (snd dd)) by apply (map_nth_seq Val (snd dd) n0).
    do 4 f_equal. rewrite <- app_assoc. reflexivity.
  - intros i Hi. apply in_seq in Hi. unfold v_at. rewrite (proj2 (Nat.ltb_lt i (v_size (snd dd)))) by lia. cbn [assert_ bind].
    rewrite (vget_ok _ _ n0) by (unfold v_size in *; lia). reflexivity.
Qed.
Lemma datas_lines l : emit l vtk_data = Ok (cat_lines (flat_map dline l)).
Proof.
  rewrite (emit_ok _ _ (fun x => cat_lines (dline x))) by (intros; apply data_lines). f_equal.
  induction l; cbn [flat_map]; auto. now rewrite IHl, cat_app.
Qed.
Lemma label_lines tag f : vtk_label tag f s = Ok (cat_lines (label tag f)).
Proof.
  unfold vtk_label. rewrite (emit_ok _ _ (fun p => [Int (if f (vx p) then 1 else 0); Str " "])).
  - cbn [bind]. rewrite (flat_single (fun p => Int (if f (vx p) then 1 else 0))). unfold label. rewrite map_map. cbn [cat_lines flat_map app].
    do 3 f_equal. rewrite <- app_assoc. reflexivity.
  - intros p Hp. destruct (ex_vertex p Hp) as (-> & _). reflexivity.
Qed.
Lemma pd_lines pd : pd <> [] -> vtk_pointdata o s pd = Ok (cat_lines (Lpd pd)).
Proof.
  intros H. destruct pd as [|d0 pd]; [congruence|]. unfold vtk_pointdata. cbn [bind]. rewrite datas_lines. cbn [bind].
  rewrite !label_lines. unfold Lpd. rewrite !cat_app.
  destruct (option_set o VertexBoundaryLabel), (option_set o VertexImplicitLabel); reflexivity.
Qed.
Hypothesis RD : element_data_ready o s.
Lemma det_lines : option_set o ElementDeterminant = true -> vtk_determinants s = Ok (cat_lines Ldet).
Proof.
  intros H. unfold element_data_ready in RD. rewrite H in RD. specialize (RD eq_refl). unfold vtk_determinants.
  rewrite (emit_ok _ _ (fun p => [Val (sx_det (me_sx (exx p))); Str " "])).
  - cbn [bind]. rewrite (flat_single (fun p => Val (sx_det (me_sx (exx p))))). unfold Ldet. rewrite map_map. cbn [cat_lines flat_map app].
    do 3 f_equal. rewrite <- app_assoc. reflexivity.
  - intros p Hp. destruct (RD p Hp) as (x & Hx & _ & Hr). unfold exx. rewrite Hx. cbn [bind]. unfold sx_determinant. rewrite Hr. reflexivity.
Qed.
Lemma made_shape' x : sx_made x -> sx_shape (N := N) x.
Proof.
  induction 1 as [|l x H|x i v x' _ IH Hl E|x x' _ IH E].
  - exact new_shape.
  - eapply of_list_shape; eassumption.
  - eapply put_shape; eauto.
  - destruct IH as ((p & Hp) & H2). assert (Hs : sx_shape x) by (split; eauto). rewrite (prepare_eq x p Hs Hp) in E.
    destruct (det_fixed (pmat p)); cbn [bind] in E; try discriminate. inversion E; subst.
    split; [exists p; reflexivity|]. split; do 4 eexists; reflexivity.
Qed.
Lemma mat_lines : option_set o ElementMatrix = true -> vtk_matrices 2 s = Ok (cat_lines Lmat).
Proof.
  intros H. unfold element_data_ready in RD. rewrite H, orb_true_r in RD. specialize (RD eq_refl). unfold vtk_matrices.
  rewrite (emit_ok _ _ (fun p => nline (map Val (mvals p)) ++ [Nl])).
  - cbn [bind]. f_equal. unfold Lmat. change (?a :: ?b ++ ?c) with ([a] ++ b ++ c). rewrite !cat_app, cat_map. reflexivity.
  - intros p Hp. destruct (RD p Hp) as (x & Hx & Hm & Hr). unfold mvals, exx. rewrite Hx. cbn [bind]. unfold sx_matrix. rewrite Hr. cbn [assert_ bind].
    destruct (made_shape' x.(me_sx) Hm) as (_ & (a & b & c & e & ->) & _). reflexivity.
Qed.
Lemma grad_lines : option_set o ElementGradient = true -> vtk_gradients 2 s = Ok (cat_lines Lgrad) /\ forall p, In p (mE s) -> length (gvals p) = 2.
Proof.
  intros H. unfold element_data_ready in RD. rewrite H, orb_true_r in RD. specialize (RD eq_refl). unfold vtk_gradients.
  assert (G : forall p, In p (mE s) -> exists x a b, deref (he s) p = Ok x /\ sx_gradient (me_sx x) 0 = Ok [a; b]).
  { intros p Hp. destruct (RD p Hp) as (x & Hx & Hm & Hr). destruct (made_shape' x.(me_sx) Hm) as ((q & Hq) & _ & _). exists x. do 2 eexists. split; auto.
    unfold sx_gradient. rewrite Hr. unfold sx_get. rewrite Hq. reflexivity. }
  split.
  - rewrite (emit_ok _ _ (fun p => nline (map Val (gvals p)) ++ [Nl])).
    + cbn [bind]. f_equal. unfold Lgrad. change (?a :: ?b ++ ?c) with ([a] ++ b ++ c). rewrite !cat_app, cat_map. reflexivity.
    + intros p Hp. destruct (G p Hp) as (x & a & b & Hx & Hg). unfold gvals, exx. rewrite Hx. cbn [bind]. rewrite Hg. cbn [bind]. rewrite iterate_ok. reflexivity.
  - intros p Hp. destruct (G p Hp) as (x & a & b & Hx & Hg). unfold gvals, exx. now rewrite Hx, Hg.
Qed.
Lemma cd_lines cd : vtk_celldata 2 o s cd = Ok (cat_lines (Lcd cd)).
Proof.
  unfold vtk_celldata. rewrite datas_lines. cbn [bind]. unfold Lcd. rewrite !cat_app.
  destruct (option_set o ElementDeterminant) eqn:E1; [rewrite det_lines by auto|]; cbn [bind];
  (destruct (option_set o ElementMatrix) eqn:E2; [rewrite mat_lines by auto|]); cbn [bind];
  (destruct (option_set o ElementGradient) eqn:E3; [rewrite (proj1 (grad_lines E3))|]); reflexivity.
Qed.
Lemma all_lines pd cd : pd <> [] -> vtk_write o s pd cd = Ok (cat_lines (Lall pd cd)).
Proof.
  intros H. unfold vtk_write. rewrite points_lines, cells_lines, pd_lines, cd_lines by auto. cbn [bind]. unfold Lall. rewrite !cat_app. reflexivity.
Qed.
Lemma data_clean pd : List.Forall clean (flat_map dline pd).
Proof.
  apply Forall_forall. intros l H. apply in_flat_map in H as (e & _ & [<-|[<-|[<-|[]]]]); [|apply nline_clean, num_vals|]; intros X; cbn in X; intuition discriminate.
Qed.
Lemma map_clean {A} (f : A -> line) l : (forall x, clean (f x)) -> List.Forall clean (map f l).
Proof. intros H. apply Forall_forall. intros x Hx. apply in_map_iff in Hx as (y & <- & _). apply H. Qed.
Lemma if_all (P : line -> Prop) (b : bool) l : List.Forall P l -> List.Forall P (if b then l else []).
Proof. destruct b; auto. Qed.
Lemma num_clean l : (forall t, In t l -> numeric t) -> clean (nline l).
Proof. apply nline_clean. Qed.
Ltac lit := let X := fresh in intros X; cbn in X; intuition discriminate.
Ltac num := first [apply num_vals | apply num_ints].
Ltac cl := repeat first
  [ apply data_clean | apply Forall_nil | apply if_all | (apply map_clean; intros ?) | (apply Forall_cons) | (apply Forall_app; split) ];
  first [ apply nline_clean; num | lit ].
Lemma all_clean pd cd : List.Forall clean (Lall pd cd).
Proof.
  unfold Lall, Lheader, Lpoints, Lcells, Lconn, Loffs, Ltypes, Lpd, Lcd, Lend, Ldet, Lmat, Lgrad, label, fin, cline. cl.
Qed.
Lemma file_lines pd cd : lines (cat_lines (Lall pd cd)) = Lall pd cd ++ [[]].
Proof. apply lines_cat. apply Forall_forall. apply all_clean. Qed.

(** ** Reading the parts *)
Definition notag (tag : list string) (A : list line) : Prop := List.Forall (fun l => is_tag tag l = false) A.
Lemma below_no tag A B : notag tag A -> below tag (A ++ B) = below tag B.
Proof. intros H. apply below_skip. now apply Forall_forall. Qed.
Lemma above_no tag A B : notag tag A -> above tag (A ++ B) = A ++ above tag B.
Proof. intros H. apply above_keep. now apply Forall_forall. Qed.
Lemma notag_map {A} tag (f : A -> line) l : (forall x, is_tag tag (f x) = false) -> notag tag (map f l).
Proof. intros H. apply Forall_forall. intros x Hx. apply in_map_iff in Hx as (y & <- & _). apply H. Qed.
Lemma notag_data a pd : String.eqb a "<DataArray Name=""" = false -> String.eqb a "</DataArray>" = false -> notag [a] (flat_map dline pd).
Proof.
  intros H H'. apply Forall_forall. intros l Hl. apply in_flat_map in Hl as (e & _ & [<-|[<-|[<-|[]]]]); [cbn [is_tag]; now rewrite H|apply nline_tag; [discriminate|apply num_vals]|cbn [is_tag]; now rewrite H'].
Qed.
Ltac nt := repeat first
  [ (apply notag_data; reflexivity) | apply Forall_nil | apply if_all | (apply notag_map; intros ?) | apply Forall_cons | (apply Forall_app; split) ];
  first [ (apply nline_tag; [discriminate|num]) | reflexivity ].
Ltac unf := unfold Lall, Lheader, Lpoints, Lcells, Lconn, Loffs, Ltypes, Lpd, Lcd, Lend, Ldet, Lmat, Lgrad, label, fin, cline.
Lemma array_at tag A l B C : notag tag A -> is_tag tag l = true -> notag ["</DataArray>"] B ->
  array tag (A ++ l :: B ++ fin :: C) = List.concat B.
Proof.
  intros HA Hl HB. unfold array. rewrite below_no by auto. cbn [below]. rewrite Hl. rewrite above_no by auto. cbn [above fin is_tag String.eqb Ascii.eqb Bool.eqb andb].
  now rewrite app_nil_r.
Qed.
Ltac same := repeat first [ rewrite <- app_assoc | progress cbn [app] ]; reflexivity.
Section Read.
Variables pd cd : list (string * list N).
Notation L := (Lall pd cd ++ [[]]).
Lemma read_points : array points_tag L = List.concat (map pline (mV s)).
Proof.
  unfold Lall, Lpoints. rewrite <- !app_assoc. change (?a ++ [?x; ?y] ++ ?b ++ [?c; ?d] ++ ?e) with (a ++ [x; y] ++ b ++ c :: d :: e).
  change (?a ++ [?x; ?y] ++ ?b) with (a ++ [x] ++ (y :: b)). rewrite app_assoc. apply array_at; [unf; nt|reflexivity|nt].
Qed.
Lemma read_conn : array connectivity_tag L = List.concat (map cline (mE s)).
Proof.
  replace L with ((Lheader ++ Lpoints ++ [[Str "<Cells>"]]) ++ [Str "<DataArray type=""Int32"" Name=""connectivity"" format=""ascii"">"] :: map cline (mE s) ++
    fin :: Loffs ++ Ltypes ++ [[Str "</Cells>"]] ++ Lpd pd ++ Lcd cd ++ Lend ++ [[]]) by (unfold Lall, Lcells, Lconn; same).
  apply array_at; [unf; nt|reflexivity|unf; nt].
Qed.
Lemma read_offs : array offsets_tag L = nline (map Int (map (fun i => i * elem_off 2 o) (seq 1 (length (mE s))))).
Proof.
  replace L with ((Lheader ++ Lpoints ++ [[Str "<Cells>"]] ++ Lconn) ++ [Str "<DataArray type=""Int32"" Name=""offsets"" format=""ascii"">"] ::
    [nline (map Int (map (fun i => i * elem_off 2 o) (seq 1 (length (mE s)))))] ++
    fin :: Ltypes ++ [[Str "</Cells>"]] ++ Lpd pd ++ Lcd cd ++ Lend ++ [[]]) by (unfold Lall, Lcells, Loffs; same).
  rewrite array_at; [apply app_nil_r|unf; nt|reflexivity|unf; nt].
Qed.
Lemma read_types : array types_tag L = nline (map Int (map (fun _ => elem_type 2 o) (seq 0 (length (mE s))))).
Proof.
  replace L with ((Lheader ++ Lpoints ++ [[Str "<Cells>"]] ++ Lconn ++ Loffs) ++ [Str "<DataArray type=""UInt8"" Name=""types"" format=""ascii"">"] ::
    [nline (map Int (map (fun _ => elem_type 2 o) (seq 0 (length (mE s)))))] ++
    fin :: [[Str "</Cells>"]] ++ Lpd pd ++ Lcd cd ++ Lend ++ [[]]) by (unfold Lall, Lcells, Ltypes; same).
  rewrite array_at; [apply app_nil_r|unf; nt|reflexivity|unf; nt].
Qed.
(** user data *)
Lemma read_data A l name v B : notag (data_tag name) A -> NoDup (map fst l) -> In (name, v) l ->
  array (data_tag name) (A ++ flat_map dline l ++ B) = nline (map Val v).
Proof.
  intros HA Hn Hin. apply in_split in Hin as (l1 & l2 & ->). rewrite flat_map_app. cbn [flat_map]. rewrite <- !app_assoc, app_assoc.
  change (dline (name, v) ++ flat_map dline l2 ++ B) with ([Str "<DataArray Name="""; Str name; Str """ type=""Float32"" format=""ascii"">"] :: [nline (map Val v)] ++ fin :: flat_map dline l2 ++ B).
  rewrite array_at; [apply app_nil_r| |cbn; now rewrite String.eqb_refl|].
  - apply Forall_app. split; auto. apply Forall_forall. intros x Hx. apply in_flat_map in Hx as ((n', v') & Hi & [<-|[<-|[<-|[]]]]); [|apply nline_tag; [discriminate|num]|reflexivity].
    cbn [data_tag is_tag fst]. replace (String.eqb name n') with false; [rewrite andb_false_r; reflexivity|]. symmetry. apply String.eqb_neq. intros ->.
    rewrite map_app in Hn. cbn [map fst] in Hn. apply NoDup_remove_2 in Hn. apply Hn. apply in_app_iff. left. apply in_map_iff. exists (n', v'). auto.
  - apply Forall_cons; [|apply Forall_nil]. apply nline_tag; [discriminate|num].
Qed.
Lemma split_cd : above ["<CellData>"] L = Lheader ++ Lpoints ++ Lcells ++ Lpd pd /\ below ["<CellData>"] L = tl (Lcd cd) ++ Lend ++ [[]].
Proof.
  assert (H : notag ["<CellData>"] (Lheader ++ Lpoints ++ Lcells ++ Lpd pd)) by (unf; nt).
  assert (E : L = (Lheader ++ Lpoints ++ Lcells ++ Lpd pd) ++ [Str "<CellData>"] :: tl (Lcd cd) ++ Lend ++ [[]]).
  { unfold Lall. rewrite <- !app_assoc. reflexivity. }
  rewrite E. rewrite above_no, below_no by auto. split; [|reflexivity]. cbn [above]. change (is_tag ["<CellData>"] [Str "<CellData>"]) with true. cbn iota. apply app_nil_r.
Qed.
Lemma read_pointdata name v : NoDup (map fst pd) -> In (name, v) pd -> array (data_tag name) (above ["<CellData>"] L) = nline (map Val v).
Proof.
  intros Hn Hin. rewrite (proj1 split_cd). unfold Lpd. rewrite (app_assoc Lcells), (app_assoc Lpoints), (app_assoc Lheader).
  apply read_data; auto. unf. nt.
Qed.
Lemma read_celldata name v : NoDup (map fst cd) -> In (name, v) cd -> array (data_tag name) (below ["<CellData>"] L) = nline (map Val v).
Proof.
  intros Hn Hin. rewrite (proj2 split_cd). unfold Lcd. cbn [app tl]. rewrite <- !app_assoc. apply (read_data []); auto. constructor.
Qed.
Lemma read_none tag A : notag tag A -> array tag A = [].
Proof. intros H. unfold array. rewrite <- (app_nil_r A), below_no by auto. reflexivity. Qed.
Lemma read_boundary : array boundary_tag (above ["<CellData>"] L) = if option_set o VertexBoundaryLabel then nline (map Int (map (fun p => if mv_bound (vx p) then 1 else 0) (mV s))) else [].
Proof.
  rewrite (proj1 split_cd). unfold Lpd. destruct (option_set o VertexBoundaryLabel); [|apply read_none; unf; nt].
  set (X := if option_set o VertexImplicitLabel then _ else _). set (Y := [Str "<PointData Scalars="""; _; _]).
  replace (Lheader ++ _) with ((Lheader ++ Lpoints ++ Lcells ++ [Y] ++ flat_map dline pd) ++ [Str "<DataArray Name=""BoundaryLabel"" type=""UInt8"" format=""ascii"">"] ::
    [nline (map Int (map (fun p => if mv_bound (vx p) then 1 else 0) (mV s)))] ++ fin :: X ++ [[Str "</PointData>"]]) by (unfold label; same).
  rewrite array_at; [apply app_nil_r|unf; nt|reflexivity|nt].
Qed.
Lemma read_implicit : array implicit_tag (above ["<CellData>"] L) = if option_set o VertexImplicitLabel then nline (map Int (map (fun p => if mv_impl (vx p) then 1 else 0) (mV s))) else [].
Proof.
  rewrite (proj1 split_cd). unfold Lpd. destruct (option_set o VertexImplicitLabel); [|apply read_none; unf; nt].
  set (X := if option_set o VertexBoundaryLabel then _ else _). set (Y := [Str "<PointData Scalars="""; _; _]).
  replace (Lheader ++ _) with ((Lheader ++ Lpoints ++ Lcells ++ [Y] ++ flat_map dline pd ++ X) ++ [Str "<DataArray Name=""ImplicitLabel"" type=""UInt8"" format=""ascii"">"] ::
    [nline (map Int (map (fun p => if mv_impl (vx p) then 1 else 0) (mV s)))] ++ fin :: [[Str "</PointData>"]]) by (unfold label; same).
  rewrite array_at; [apply app_nil_r|unf; nt|reflexivity|nt].
Qed.
Lemma read_det : array determinant_tag (below ["<CellData>"] L) = if option_set o ElementDeterminant then nline (map Val (map (fun p => sx_det (me_sx (exx p))) (mE s))) else [].
Proof.
  rewrite (proj2 split_cd). unfold Lcd. cbn [app tl]. destruct (option_set o ElementDeterminant); [|apply read_none; unf; nt].
  rewrite <- !app_assoc. match goal with |- array _ (_ ++ Ldet ++ ?X) = _ => change (Ldet ++ X) with
    ([Str "<DataArray Name=""ElementDeterminant"" type=""Float32"" format=""ascii"">"] :: [nline (map Val (map (fun p => sx_det (me_sx (exx p))) (mE s)))] ++ fin :: X) end.
  rewrite array_at; [apply app_nil_r|unf; nt|reflexivity|nt].
Qed.
Definition begins (text : string) (l : line) : bool := match l with Str b :: _ => String.eqb text b | _ => false end.
Definition nobeg (text : string) (A : list line) : Prop := List.Forall (fun l => begins text l = false) A.
Lemma after_no text A B : nobeg text A -> after (N := N) text (A ++ B) = after text B.
Proof. induction 1 as [|l r Hl _ IH]; cbn [app after]; auto. fold (begins text l). now rewrite Hl. Qed.
Lemma beg_map {A} text (f : A -> line) l : (forall x, begins text (f x) = false) -> nobeg text (map f l).
Proof. intros H. apply Forall_forall. intros x Hx. apply in_map_iff in Hx as (y & <- & _). apply H. Qed.
Lemma nline_beg text l : (forall t, In t l -> numeric t) -> begins text (nline l) = false.
Proof. destruct l as [|t l]; intros H; [reflexivity|]. specialize (H t (or_introl eq_refl)). destruct t; try contradiction; reflexivity. Qed.
Lemma beg_data text dd : String.eqb text "<DataArray Name=""" = false -> String.eqb text "</DataArray>" = false -> nobeg text (flat_map dline dd).
Proof.
  intros H H'. apply Forall_forall. intros l Hl. apply in_flat_map in Hl as (e & _ & [<-|[<-|[<-|[]]]]); [cbn [begins]; exact H|apply nline_beg, num_vals|cbn [begins]; exact H'].
Qed.
Ltac nb := repeat first
  [ (apply beg_data; reflexivity) | apply Forall_nil | apply if_all | (apply beg_map; intros ?) | apply Forall_cons | (apply Forall_app; split) ];
  first [ (apply nline_beg; num) | reflexivity ].
Lemma records_at text A l B C : nobeg text A -> begins text l = true -> notag ["</DataArray>"] B ->
  records text (A ++ l :: B ++ fin :: C) = map vals B.
Proof.
  intros HA Hl HB. unfold records. rewrite after_no by auto. cbn [after]. fold (begins text l). rewrite Hl. rewrite above_no by auto. cbn [above fin is_tag String.eqb Ascii.eqb Bool.eqb andb].
  now rewrite app_nil_r.
Qed.
Lemma records_none text A : nobeg text A -> records (N := N) text A = [].
Proof. intros H. unfold records. rewrite <- (app_nil_r A), after_no by auto. reflexivity. Qed.
Lemma vals_rows {A} (f : A -> list N) l : map vals (map (fun p => nline (map Val (f p))) l) = map f l.
Proof. rewrite map_map. apply map_ext. intros a. apply vals_nline. Qed.
Lemma read_mat : records matrix_text (below ["<CellData>"] L) = if option_set o ElementMatrix then map mvals (mE s) else [].
Proof.
  rewrite (proj2 split_cd). unfold Lcd. cbn [app tl]. destruct (option_set o ElementMatrix); [|apply records_none; unf; nb].
  rewrite <- !app_assoc. rewrite app_assoc. match goal with |- records _ ((_ ++ _) ++ Lmat ++ ?X) = _ => change (Lmat ++ X) with
    ([Str "<DataArray Name=""ElementMatrix"" type=""Float32"" NumberOfComponents="""; Int 4; Str """ format=""ascii"">"] :: (map (fun p => nline (map Val (mvals p))) (mE s) ++ [fin]) ++ X) end.
  rewrite <- (app_assoc (map _ _)). cbn [app].
  rewrite records_at; [apply vals_rows|unf; nb|reflexivity|nt].
Qed.
Lemma read_grad : records gradient_text (below ["<CellData>"] L) = if option_set o ElementGradient then map gvals (mE s) else [].
Proof.
  rewrite (proj2 split_cd). unfold Lcd. cbn [app tl]. destruct (option_set o ElementGradient); [|apply records_none; unf; nb].
  rewrite <- !app_assoc. rewrite 2 app_assoc. match goal with |- records _ (((_ ++ _) ++ _) ++ Lgrad ++ ?X) = _ => change (Lgrad ++ X) with
    ([Str "<DataArray Name=""ElementGradient"" type=""Float32"" NumberOfComponents="""; Int 4; Str """ format=""ascii"">"] :: (map (fun p => nline (map Val (gvals p))) (mE s) ++ [fin]) ++ X) end.
  rewrite <- (app_assoc (map _ _)). cbn [app].
  rewrite records_at; [apply vals_rows|unf; nb|reflexivity|nt].
Qed.
End Read.
End Parts.
End Vtk.
