(** Solving the system: the three solvers of the finite element example, and handleMesh as a whole. *)
From Coq Require Import List Arith Bool ZArith Lia Ring Field.
From Verif Require Import Base BaseProofs Num OrdField UtilsModel UtilsSpec Spec SpecProofs VectorModel VectorProofs SparseModel DenseModel MatI MatIProofs MatOps MatOpsProofs
  LUModel DetSpec LUSolve IterModel CholProofs CGMath CGProofs CGResult IterProofs IterResult NormProofs
  SimplexModel SimplexSpec SimplexProofs SimplexResult MeshModel MeshSpec MeshPool MeshProofs MeshResult MeshDofSpec MeshDof MeshDofResult QuadModel
  FemModel FemSpec FemProofs FemAssemble FemMesh FemResult FemMath FemSpd FemFacts FemPost.
Import ListNotations.
Local Open Scope nat_scope.
Open Scope res_scope.

Section FemSolve.
Context {N : Num} (HO : OrdFieldLaws N) (HN : NatLaws N).
Let HF : FieldLaws N := of_field N HO.
Add Field fsofld : (fl_field N HF).
Let HR : RowLaws (SparseR N) := sparse_rows N HF.
Notation eps := (@dec N 1 4).

Lemma cond_returns (A : SparseR N) n a : holds A n n a -> exists c, cond A = Ok c.
Proof.
  intros HA. assert (R : forall sel init, exists v, LUModel.norm2_of (M := SparseR N) sel init A = Ok v).
  { intros sel init. destruct (choose_rows (fun i r => LUModel.row_fold (M := SparseR N) sel init A i = Ok r) n) as (f & Hf).
    - intros i Hi. unfold LUModel.row_fold. destruct (rl_row _ HR A n n a i HA Hi) as (keep & -> & _). cbn [bind]. eauto.
    - eexists. apply (norm2_rows sel init A n n a f HA Hf). }
  unfold cond, max_norm2, min_norm2. destruct (R (fun x s => nltb s x) n0) as (u & ->). destruct (R (fun x s => nltb x s) nmax) as (v & ->). cbn [bind]. eauto.
Qed.
Section One.
Variables (A : SparseR N) (B : list N) (n : nat) (a : nat -> nat -> N).
Hypothesis HA : holds A n n a.
Hypothesis HB : length B = n.
Hypothesis Hn : 0 < n.
Lemma start_ok : exists C, mi_new (mi_rows A) (mi_cols A) = Ok C /\ holds (C : SparseR N) n n (fun _ _ => n0).
Proof.
  replace (mi_rows A) with n by (symmetry; apply HA). replace (mi_cols A) with n by (symmetry; apply HA).
  apply (holds_new (ol_mat _ (rl_ops _ HR))); auto.
Qed.
(** solver 0: SOR; solver 1: CG *)
Lemma solve_01 : (exists x it, fem_solve 0 A B = it_sor A B (v_new n) (dec 12 1) 1024 eps /\ fem_solve 0 A B = Ok (x, it) /\ length x = n /\ it <= 1024) /\
  exists x it, fem_solve 1 A B = Ok (x, it) /\ length x = n /\ 1 <= it <= 1024 /\ (it < 1024 -> nltb (residual2 n a B x) (eps * eps)%num = true).
Proof.
  destruct start_ok as (C & EC & _). destruct (cond_returns A n a HA) as (c & Ec).
  unfold fem_solve. rewrite EC. cbn [bind Nat.eqb]. rewrite Ec. cbn [bind]. rewrite HB. split.
  - destruct (sor_zero_start HO HR A n a B (v_new n) HA HB (repeat_length _ _) (dec 12 1) 1024 eps) as (X & it & E & _ & _ & (E2 & _)).
    + intros i Hi. apply nth_repeat.
    + rewrite E. do 2 eexists. split; [reflexivity|]. split; [reflexivity|]. split; [unfold CGProofs.V; now rewrite map_length, seq_length|exact E2].
  - destruct (cg_cert HO (rl_ops _ HR) A n a B (v_new n) HA HB (repeat_length _ _) 1024 eps) as (x & it & E & L & H1 & H2 & H3).
    exists x, it. repeat split; auto.
Qed.
(** solver 2: CG with the diagonal as preconditioner *)
Lemma solve_2 : post (fem_solve 2 A B) (fun r => (forall i, i < n -> tiny (a i i) = false) /\ length (fst r) = n /\ 1 <= snd r <= 1024 /\
      (snd r < 1024 -> nltb (residual2 n a B (fst r)) (eps * eps)%num = true) /\
      (symmetric2 n a -> pos_def n a -> (exists i, i < n /\ nth i B n0 <> n0) -> n <= 1024 -> snd r <= n /\ nltb (residual2 n a B (fst r)) (eps * eps)%num = true))
    (fun e => e = Singular /\ exists i, i < n /\ tiny (a i i) = true).
Proof.
  destruct start_ok as (C & EC & HC). destruct (cond_returns A n a HA) as (c & Ec).
  unfold fem_solve. rewrite EC. cbn [bind Nat.eqb]. apply post_bind. eapply post_mono; [apply (jac_ok (rl_ops _ HR) A C n a _ HA HC)| |auto].
  intros C' (Ht & HC'). rewrite Ec. cbn [bind]. rewrite HB.
  destruct (pcg_cert HO (rl_ops _ HR) A C' n a _ B (v_new n) HA HB (repeat_length _ _) HC' 1024 eps) as (x & it & E & L & H1 & H2 & H3).
  rewrite E. cbn [post fst snd]. split; auto. split; auto. split; [split; auto|]. split; auto.
  intros Hs Hp (i & Hi & Hb) Hle.
  assert (D := pos_def_diag HO n a). 
  destruct (diag_pos_def HO n (fun i => n1 / a i i)%num (fun i j => if i =? j then (n1 / a i i)%num else n0)) as (S2 & P2); auto.
  { intros j Hj. apply (olt_0_inv HO). now apply D. }
  destruct (pcg_term HO (rl_ops _ HR) A C' n a _ B (v_new n) HA HB (repeat_length _ _) HC' Hs Hp S2 P2) as (T1 & _).
  - intros X. apply Hb. rewrite <- (X i Hi). unfold mulvec. apply (bigsum_0 HF). intros j Hj. unfold v_new. rewrite nth_repeat. ring.
  - destruct (T1 1024 eps) as (x' & it' & E' & L' & H1' & H2'); auto.
    { apply (pos_nz HO), (dec_pos HO). }
    rewrite E in E'. inversion E'; subst. auto.
Qed.
End One.
Theorem handle_connected (HS : SqrtLaws N) (drop : N) o solver f g sol (P : list (list N)) (T : list (list nat)) (s0 s : mst N) : low o -> solver <= 2 -> connected P T s0 -> m_prepare s0 = Ok s -> P <> [] ->
  (forall e, e < length T -> proper (corner P T e)) ->
  post (fem_handle drop o solver f g sol s) (fun r => exists V D bd x, discrete o P T s (fo_mesh r) V D bd /\
      fem_system drop o f g s = Ok (fo_mesh r, (fo_A r, fo_B r)) /\ fem_solve solver (fo_A r) (fo_B r) = Ok (fo_X r, fo_it r) /\
      reads (fo_X r) (length V) x /\ outputs o f sol T V D x r)
    (fun e => (solver = 2 /\ e = Singular) /\ exists s1 A B, fem_system drop o f g s = Ok (s1, (A, B)) /\ fem_solve solver A B = Throw e).
Proof.
  intros Ho Hsol R Hp Hne Hpr. unfold fem_handle. pose proof R as (HT & HP & _).
  destruct (system_connected HO HN drop o f g P T s0 s Ho R Hp Hne Hpr) as ([s1 [A B]] & ES & V & D & bd & HD & HA & HB). rewrite ES. cbn [bind fst snd] in *.
  assert (EL : length D = length T) by apply (no_count _ _ _ _ _ (di_nodes _ _ _ _ _ _ _ _ HD)).
  assert (Hn : 0 < length V).
  { pose proof (no_vertices _ _ _ _ _ (di_nodes _ _ _ _ _ _ _ _ HD)) as E. destruct V; [|cbn; lia]. rewrite firstn_nil in E. congruence. }
  assert (HpD : forall e, e < length D -> proper (corner V D e)).
  { intros e He. rewrite EL in He. eapply proper_ext; [|apply Hpr; exact He]. intros i k Hi. symmetry. now apply (di_corner _ _ _ _ _ _ _ _ HD). }
  assert (HT3 : forall e, e < length T -> length (nth e T []) = 3) by (intros e He; apply HT; now apply nth_In).
  assert (HV2 := positions o _ _ s s1 V D bd Ho HD HP HT).
  assert (Sv : post (fem_solve solver A B) (fun xi => length (fst xi) = length V) (fun e => solver = 2 /\ e = Singular)).
  { destruct solver as [|[|[|]]]; try lia.
    - destruct (solve_01 A B _ _ HA (proj1 HB) Hn) as ((x & it & _ & -> & L & _) & _). exact L.
    - destruct (solve_01 A B _ _ HA (proj1 HB) Hn) as (_ & (x & it & -> & L & _)). exact L.
    - eapply post_mono; [apply (solve_2 A B _ _ HA (proj1 HB) Hn)| |]; cbn; tauto. }
  apply post_bind. destruct (fem_solve solver A B) as [[X it]| | | | |] eqn:EX; try (destruct Sv; fail); [|split; [exact Sv|do 3 eexists; split; [reflexivity|exact EX]]]. cbn [post fst snd] in *.
  assert (HX : reads X (length V) (fun i => nth i X n0)) by (split; auto).
  assert (Ex : exists ee, match sol with Some u => fem_exact u s1 X | None => Ok (v_new (length (mV s1))) end = Ok ee /\
     reads ee (length V) (fun i => match sol with Some u => nabs (u (nth i V []) - nth i X n0)%num | None => n0 end)).
  { destruct sol as [u|]; [exact (exact_ok o _ _ s s1 V D bd HD X _ HX u)|]. eexists. split; [reflexivity|].
    destruct (ca_lists _ _ _ _ (di_carries _ _ _ _ _ _ _ _ HD)) as (-> & _). rewrite seq_length. apply reads_new. }
  destruct Ex as (ee & -> & Hee). cbn [bind].
  destruct (post_ok HO HN o _ _ s s1 V D bd Ho HD HV2 HpD X _ HX HT3 HS f) as (pe & -> & Lpe & Hpe). cbn [bind].
  rewrite (data_ok o _ _ s s1 V D bd HD HV2 X _ HX). cbn [bind]. rewrite (mesh_file o _ _ s s1 V D bd Ho HD HpD HT3). cbn [bind post fo_mesh fo_A fo_B fo_X fo_it].
  exists V, D, bd, (fun i => nth i X n0). split; auto. split; auto. split; auto. split; auto. split; cbn [fo_exact fo_post fo_data fo_elems]; auto.
  rewrite <- EL. auto.
Qed.
Theorem handle_ok (HS : SqrtLaws N) drop o solver f g sol (ops : list (mop N)) s0 s : low o -> solver <= 2 -> valid 0 ops -> ready ops s0 -> m_prepare s0 = Ok s -> points ops <> [] ->
  (forall e, e < length (tris ops) -> proper (corner (points ops) (tris ops) e)) ->
  post (fem_handle drop o solver f g sol s) (fun r => exists V D bd x, discrete o (points ops) (tris ops) s (fo_mesh r) V D bd /\
      fem_system drop o f g s = Ok (fo_mesh r, (fo_A r, fo_B r)) /\ fem_solve solver (fo_A r) (fo_B r) = Ok (fo_X r, fo_it r) /\
      reads (fo_X r) (length V) x /\ outputs o f sol (tris ops) V D x r)
    (fun e => solver = 2 /\ e = Singular).
Proof. intros Ho Hsol Hv R Hp Hne Hpr. eapply post_mono; [apply (handle_connected HS drop o solver f g sol _ _ s0 s Ho Hsol (ready_connected HO ops s0 Hv R) Hp Hne Hpr)|auto|]. intros e (E & _). exact E. Qed.
End FemSolve.
