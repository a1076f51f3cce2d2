(** The linear system of the finite element example. *)
From Coq Require Import List Arith Bool ZArith Lia Ring Field.
From Verif Require Import Base BaseProofs Num OrdField UtilsModel UtilsSpec Spec SpecProofs VectorModel MatI SimplexModel SimplexSpec SimplexProofs SimplexResult
  MeshModel MeshSpec MeshPool MeshProofs MeshResult MeshHandle MeshHandleProofs MeshValid MeshDofSpec MeshDof MeshDofResult ShapeProofs FemModel FemSpec FemProofs IterResult FemAssemble FemMesh.
Import ListNotations.
Local Open Scope nat_scope.
Open Scope res_scope.

Section FemR.
Context {N : Num} (HO : OrdFieldLaws N) (HN : NatLaws N).
Let HF : FieldLaws N := of_field N HO.
Add Field frfld : (fl_field N HF).
(** any connected mesh *)
Definition connected (P : list (list N)) (T : list (list nat)) (s : mst N) : Prop :=
  okT (length P) T /\ (forall p, In p P -> length p = 2) /\ exists fv fs nb nd xs o q, form P T s fv fs nb nd xs o q.
Lemma ready_connected (ops : list (mop N)) s : valid 0 ops -> ready ops s -> connected (points ops) (tris ops) s.
Proof. intros Hv R. destruct (build_ok ops Hv) as (_ & HT). split; auto. split; [apply (points_len ops 0 Hv)|]. now apply (ready_form HO). Qed.
Lemma discrete_ok o P T (s0 s : mst N) : low o -> connected P T s0 -> m_prepare s0 = Ok s ->
  returns (m_prepareMesh o s) (fun s' => exists V D bd, discrete o P T s s' V D bd).
Proof.
  intros Ho (HT & HP & fv & fs & nb & nd & xs & ow & q & [-> G H Hpos Hx]) Hp.
  rewrite (prepare_net HO _ _ _ _ _ _ _ _ _ _ Hx) in Hp. inversion Hp; subst s. clear Hp.
  assert (Hfs : forall e, e < length T -> exists s0, corners s0 (corner P T e)) by eauto.
  assert (HM : form P T (net (length P) fv (fun e => prep (corner P T e)) T nb nd xs ow q) fv
     (fun e => prep (corner P T e)) nb nd xs ow q) by (split; auto; intros e He; eapply prep_made; eauto).
  destruct Ho as [-> | ->].
  - eapply returns_mono; [eapply first_discrete; eauto|]. intros s1 X. do 3 eexists. exact X.
  - eapply returns_mono; [eapply second_discrete; eauto|]. intros s1 X. do 3 eexists. exact X.
Qed.
Lemma thin_proper (p : nat -> nat -> N) : thin p = false -> proper p.
Proof.
  unfold thin. intros E. apply orb_false_iff in E as (E1 & E2). split; auto. intros E. rewrite E in E2. rewrite (oabs_0 HO) in E2.
  assert (X : (@n0 N / (n1 + n1) = n0)%num) by (field; apply (two_nz' HO)). rewrite X in E2.
  pose proof (of_eps N HO). congruence.
Qed.
Lemma proper_ext (p r : nat -> nat -> N) : (forall i k, i < 3 -> p i k = r i k) -> proper p -> proper r.
Proof. intros E. unfold proper, area2, flat. rewrite !E by lia. auto. Qed.
Theorem system_connected drop o f g P T s0 s : low o -> connected P T s0 -> m_prepare s0 = Ok s -> P <> [] ->
  (forall e, e < length T -> proper (corner P T e)) ->
  returns (fem_system drop o f g s) (fun r => exists V D bd, discrete o P T s (fst r) V D bd /\
    let n := length V in let a := fem_a drop o V D in
    holds (fst (snd r)) n n (fixed_a bd (avg_diag n a) a) /\
    reads (snd (snd r)) n (fixed_b n bd (avg_diag n a) (fun i => g (nth i V [])) a (fem_b drop o f V D))).
Proof.
  intros Ho R Hp Hne Hpr. unfold fem_system. apply returns_bind. eapply returns_mono; [apply (discrete_ok o P T s0 s Ho R Hp)|].
  intros s' (V & D & bd & H).
  assert (EL : length D = length T) by apply (no_count _ _ _ _ _ (di_nodes _ _ _ _ _ _ _ _ H)).
  assert (Hn : 0 < length V).
  { pose proof (no_vertices _ _ _ _ _ (di_nodes _ _ _ _ _ _ _ _ H)) as E. destruct V; [|cbn; lia]. rewrite firstn_nil in E. congruence. }
  assert (HD : forall e, e < length D -> proper (corner V D e)).
  { intros e He. rewrite EL in He. eapply proper_ext; [|apply Hpr; exact He]. intros i k Hi. symmetry. now apply (di_corner _ _ _ _ _ _ _ _ H). }
  apply returns_bind. eapply returns_mono; [apply (assemble_ok HO HN o V D bd s' Ho (di_carries _ _ _ _ _ _ _ _ H) (di_len _ _ _ _ _ _ _ _ H) (di_in _ _ _ _ _ _ _ _ H) HD drop f Hn)|].
  intros [A B] (HA & HB). cbn [fst snd] in *. rewrite (mid_ok V D bd s' (di_carries _ _ _ _ _ _ _ _ H) A _ HA Hn). cbn [bind].
  apply returns_bind. eapply returns_mono; [apply (boundary_ok HO V D bd s' (di_carries _ _ _ _ _ _ _ _ H) g (avg_diag (length V) (fem_a drop o V D)) A B _ _ HA HB)|].
  intros [A' B'] (HA' & HB'). apply returns_ok. exists V, D, bd. cbn [fst snd] in *. split; [exact H|]. split; [exact HA'|exact HB'].
Qed.
Theorem system_ok drop o f g (ops : list (mop N)) s0 s : low o -> valid 0 ops -> ready ops s0 -> m_prepare s0 = Ok s -> points ops <> [] ->
  (forall e, e < length (tris ops) -> proper (corner (points ops) (tris ops) e)) ->
  returns (fem_system drop o f g s) (fun r => exists V D bd, discrete o (points ops) (tris ops) s (fst r) V D bd /\
    let n := length V in let a := fem_a drop o V D in
    holds (fst (snd r)) n n (fixed_a bd (avg_diag n a) a) /\
    reads (snd (snd r)) n (fixed_b n bd (avg_diag n a) (fun i => g (nth i V [])) a (fem_b drop o f V D))).
Proof. intros Ho Hv R. apply system_connected; auto. now apply ready_connected. Qed.
End FemR.
