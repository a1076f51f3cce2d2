(** The system assembled by fdm.cpp. *)
From Coq Require Import List Arith Bool Lia Ring Field.
From Verif Require Import Base BaseProofs Num Spec SpecProofs VectorModel VectorProofs MatI MatIProofs MatOps MatOpsProofs SparseModel LUModel
  DetSpec DetProofs LUSolve GridModel GridSpec UtilsSpec UtilsProofs GridProofs ObjProofs.
Import ListNotations.
Local Open Scope nat_scope.
Open Scope res_scope.

Lemma lin2_x XC x y : x < XC -> lin2 XC x y mod XC = x.
Proof. intros H. unfold lin2. rewrite Nat.add_comm, Nat.mod_add by lia. now apply Nat.mod_small. Qed.
Lemma lin2_y XC x y : x < XC -> lin2 XC x y / XC = y.
Proof. intros H. unfold lin2. rewrite Nat.add_comm, Nat.div_add by lia. rewrite Nat.div_small by auto. lia. Qed.
Lemma lin2_lt XC YC x y : x < XC -> y < YC -> lin2 XC x y < XC * YC.
Proof. unfold lin2. nia. Qed.
Lemma lin2_of XC YC i : i < XC * YC -> exists x y, x < XC /\ y < YC /\ i = lin2 XC x y.
Proof.
  intros H. assert (XC <> 0) by lia. exists (i mod XC), (i / XC). repeat split.
  - now apply Nat.mod_upper_bound.
  - now apply Nat.div_lt_upper_bound.
  - unfold lin2. rewrite (Nat.div_mod i XC) at 1 by auto. lia.
Qed.

Definition rimb (XC YC x y : nat) : bool := (x =? 0) || (x =? XC - 1) || (y =? 0) || (y =? YC - 1).
Lemma rimb_spec XC YC x y : rimb XC YC x y = true <-> on_rim XC YC x y.
Proof. unfold rimb, on_rim. rewrite !orb_true_iff, !Nat.eqb_eq. tauto. Qed.
Lemma rimb_false XC YC x y : rimb XC YC x y = false <-> ~ on_rim XC YC x y.
Proof. rewrite <- rimb_spec. destruct (rimb XC YC x y); split; congruence. Qed.
Lemma rim_dec XC YC x y : on_rim XC YC x y \/ ~ on_rim XC YC x y.
Proof. rewrite <- rimb_spec. destruct (rimb XC YC x y); auto. Qed.

Section PoissonSystem.
Context {N : Num} (HF : FieldLaws N) (HN : NatLaws N).
Add Field gpfld : (fl_field N HF).
Variables (XC YC : nat) (H K : N) (f b : N -> N -> N).
Local Notation lin := (lin2 XC).
Local Notation D := (XC * YC).
Local Notation st := (SparseR N * list N)%type.
Local Notation R2 := (fdm_R2 H K).
Local Notation C := (fdm_C H K).

Definition prow (x y : nat) : list (nat * N) :=
  if rimb XC YC x y then [(lin x y, n1)]
  else [(lin (x - 1) y, R2); (lin x y, C); (lin (x + 1) y, R2); (lin x (y - 1), n1); (lin x (y + 1), n1)].
Definition prhs (x y : nat) : N :=
  if rimb XC YC x y then b (nofnat x * H)%num (nofnat y * K)%num else ((K * K) * f (nofnat x * H) (nofnat y * K))%num.
Definition prows (i : nat) := prow (i mod XC) (i / XC).
Definition prhsi (i : nat) := prhs (i mod XC) (i / XC).
Lemma prows_lin x y : x < XC -> prows (lin x y) = prow x y.
Proof. intros Hx. unfold prows. now rewrite lin2_x, lin2_y. Qed.
Lemma prhsi_lin x y : x < XC -> prhsi (lin x y) = prhs x y.
Proof. intros Hx. unfold prhsi. now rewrite lin2_x, lin2_y. Qed.

Definition ops_rows (x : nat) : list (gop (N := N)) :=
  [SetA (lin x 0) (lin x 0) n1; SetA (lin x (YC - 1)) (lin x (YC - 1)) n1;
   SetB (lin x 0) (b (nofnat x * H)%num n0); SetB (lin x (YC - 1)) (b (nofnat x * H)%num (nofnat (YC - 1) * K)%num)].
Definition ops_cols (y : nat) : list (gop (N := N)) :=
  [SetA (lin 0 y) (lin 0 y) n1; SetA (lin (XC - 1) y) (lin (XC - 1) y) n1;
   SetB (lin 0 y) (b n0 (nofnat y * K)%num); SetB (lin (XC - 1) y) (b (nofnat (XC - 1) * H)%num (nofnat y * K)%num)].
Definition ops_point (y x : nat) : list (gop (N := N)) :=
  [SetA (lin x y) (lin (x - 1) y) R2; SetA (lin x y) (lin x y) C; SetA (lin x y) (lin (x + 1) y) R2;
   SetA (lin x y) (lin x (y - 1)) n1; SetA (lin x y) (lin x (y + 1)) n1;
   SetB (lin x y) ((K * K) * f (nofnat x * H) (nofnat y * K))%num].
Definition ops_all : list (gop (N := N)) :=
  flat_map ops_rows (seq 0 (XC - 0)) ++ flat_map ops_cols (seq 0 (YC - 0)) ++
  flat_map (fun y => flat_map (ops_point y) (seq 1 (XC - 1 - 1))) (seq 1 (YC - 1 - 1)).

Ltac run_body := repeat (cbn [foreach gstep fst snd bind];
  match goal with
  | |- context [mi_set ?a ?i ?j ?v] => destruct (mi_set a i j v); cbn [bind]; try reflexivity
  | |- context [v_set ?w ?i ?v] => destruct (v_set w i v); cbn [bind]; try reflexivity
  end).
Lemma assemble_ops : fdm_assemble XC YC H K f b =
  let* A := @mi_new _ (SparseR N) D D in foreach ops_all gstep (A, v_resize [] D).
Proof.
  unfold fdm_assemble. destruct (mi_new D D) as [A| | | | |]; cbn [bind]; auto. unfold ops_all. rewrite !foreach_app.
  unfold fdm_rows. rewrite (for_ops 0 XC _ ops_rows).
  2:{ intros x [A' B'] _. unfold ops_rows. run_body. }
  destruct (foreach (flat_map ops_rows _) _ _) as [s1| | | | |]; cbn [bind]; auto. rewrite ?foreach_app.
  unfold fdm_cols. rewrite (for_ops 0 YC _ ops_cols).
  2:{ intros y [A' B'] _. unfold ops_cols. run_body. }
  destruct (foreach (flat_map ops_cols _) _ _) as [s2| | | | |]; cbn [bind]; auto.
  unfold fdm_interior. apply for_ops. intros y s _. apply for_ops. intros x [A' B'] _. unfold fdm_point, ops_point. run_body.
Qed.

Lemma op_cases o : In o ops_all ->
  (exists x, x < XC /\ In o (ops_rows x)) \/ (exists y, y < YC /\ In o (ops_cols y)) \/
  (exists x y, 1 <= x < XC - 1 /\ 1 <= y < YC - 1 /\ In o (ops_point y x)).
Proof.
  unfold ops_all. rewrite !in_app_iff, !in_flat_map. intros [(x & Hx & Ho)|[(y & Hy & Ho)|(y & Hy & Ho)]].
  - left. exists x. split; auto. apply in_seq in Hx. lia.
  - right; left. exists y. split; auto. apply in_seq in Hy. lia.
  - right; right. apply in_flat_map in Ho as (x & Hx & Ho). apply in_seq in Hx. apply in_seq in Hy. exists x, y. repeat split; auto; lia.
Qed.
Lemma inner_not_rim x y : 1 <= x < XC - 1 -> 1 <= y < YC - 1 -> rimb XC YC x y = false.
Proof. intros. apply rimb_false. unfold on_rim. lia. Qed.

Hypothesis (HX : 0 < XC) (HY : 0 < YC).
Lemma poisson_covers : (nofnat 0 * H)%num = n0 -> (nofnat 0 * K)%num = n0 -> covers D prows prhsi ops_all.
Proof.
  intros z0h z0k.
  assert (rim_row : forall x y, x < XC -> on_rim XC YC x y -> prows (lin x y) = [(lin x y, n1)]).
  { intros x y Hx Hr. rewrite prows_lin by auto. unfold prow. now rewrite (proj2 (rimb_spec _ _ _ _)) by auto. }
  assert (rim_rhs : forall x y, x < XC -> on_rim XC YC x y -> prhsi (lin x y) = b (nofnat x * H)%num (nofnat y * K)%num).
  { intros x y Hx Hr. rewrite prhsi_lin by auto. unfold prhs. now rewrite (proj2 (rimb_spec _ _ _ _)) by auto. }
  assert (in_row : forall x y, 1 <= x < XC - 1 -> 1 <= y < YC - 1 -> prows (lin x y) =
    [(lin (x - 1) y, R2); (lin x y, C); (lin (x + 1) y, R2); (lin x (y - 1), n1); (lin x (y + 1), n1)]).
  { intros x y Hx Hy. rewrite prows_lin by lia. unfold prow. now rewrite inner_not_rim by auto. }
  assert (in_rhs : forall x y, 1 <= x < XC - 1 -> 1 <= y < YC - 1 -> prhsi (lin x y) = ((K * K) * f (nofnat x * H) (nofnat y * K))%num).
  { intros x y Hx Hy. rewrite prhsi_lin by lia. unfold prhs. now rewrite inner_not_rim by auto. }
  unfold covers. split; [|split; [|split; [|split]]].
  - intros i Hi. destruct (lin2_of XC YC i Hi) as (x & y & Hx & Hy & ->). destruct (rim_dec XC YC x y) as [Hr|Hr].
    + rewrite rim_row by auto. cbn. constructor; [auto|constructor].
    + assert (Hx' : 1 <= x < XC - 1) by (unfold on_rim in Hr; lia). assert (Hy' : 1 <= y < YC - 1) by (unfold on_rim in Hr; lia).
      rewrite in_row by auto. cbn [map fst]. unfold lin2. clear - Hx' Hy'.
      assert (E1 : (y - 1) * XC = y * XC - XC) by nia. assert (E2 : (y + 1) * XC = y * XC + XC) by nia. rewrite E1, E2.
      assert (XC <= y * XC) by nia. repeat constructor; cbn [In]; lia.
  - intros i j v Ho. apply op_cases in Ho as [(x & Hx & Ho)|[(y & Hy & Ho)|(x & y & Hx & Hy & Ho)]].
    + destruct Ho as [E|[E|[E|[E|[]]]]]; try discriminate E; injection E as <- <- <-;
      (split; [apply lin2_lt; lia|split; [apply lin2_lt; lia|]]); rewrite rim_row by (unfold on_rim; auto); now left.
    + destruct Ho as [E|[E|[E|[E|[]]]]]; try discriminate E; injection E as <- <- <-;
      (split; [apply lin2_lt; lia|split; [apply lin2_lt; lia|]]); rewrite rim_row by (unfold on_rim; auto; lia); now left.
    + destruct Ho as [E|[E|[E|[E|[E|[E|[]]]]]]]; try discriminate E; injection E as <- <- <-;
      (split; [apply lin2_lt; lia|split; [apply lin2_lt; lia|]]); rewrite in_row by auto; cbn [In]; tauto.
  - intros i v Ho. apply op_cases in Ho as [(x & Hx & Ho)|[(y & Hy & Ho)|(x & y & Hx & Hy & Ho)]].
    + destruct Ho as [E|[E|[E|[E|[]]]]]; try discriminate E; injection E as <- <-;
      (split; [apply lin2_lt; lia|]); rewrite rim_rhs by (unfold on_rim; auto); now rewrite ?z0h, ?z0k.
    + destruct Ho as [E|[E|[E|[E|[]]]]]; try discriminate E; injection E as <- <-;
      (split; [apply lin2_lt; lia|]); rewrite rim_rhs by (unfold on_rim; auto; lia); now rewrite ?z0h, ?z0k.
    + destruct Ho as [E|[E|[E|[E|[E|[E|[]]]]]]]; try discriminate E; injection E as <- <-;
      (split; [apply lin2_lt; lia|]); now rewrite in_rhs by auto.
  - assert (Cr : forall x y, x < XC -> y < YC -> on_rim XC YC x y -> In (SetA (lin x y) (lin x y) n1) ops_all).
    { intros x y Hx Hy Hr. unfold ops_all. rewrite !in_app_iff, !in_flat_map. destruct Hr as [-> | [-> | [-> | ->]]].
      - right; left. exists y. split; [apply in_seq; lia|]. now left.
      - right; left. exists y. split; [apply in_seq; lia|]. right; now left.
      - left. exists x. split; [apply in_seq; lia|]. now left.
      - left. exists x. split; [apply in_seq; lia|]. right; now left. }
    intros i j v Hi Hv. destruct (lin2_of XC YC i Hi) as (x & y & Hx & Hy & ->). destruct (rim_dec XC YC x y) as [Hr|Hr].
    + rewrite rim_row in Hv by auto. destruct Hv as [E|[]]. injection E as <- <-. auto.
    + assert (Hx' : 1 <= x < XC - 1) by (unfold on_rim in Hr; lia). assert (Hy' : 1 <= y < YC - 1) by (unfold on_rim in Hr; lia).
      rewrite in_row in Hv by auto. unfold ops_all. rewrite !in_app_iff, !in_flat_map. right; right. exists y. split; [apply in_seq; lia|].
      apply in_flat_map. exists x. split; [apply in_seq; lia|].
      destruct Hv as [E|[E|[E|[E|[E|[]]]]]]; injection E as <- <-; unfold ops_point; cbn [In]; tauto.
  - intros i Hi. destruct (lin2_of XC YC i Hi) as (x & y & Hx & Hy & ->). destruct (rim_dec XC YC x y) as [Hr|Hr].
    + rewrite rim_rhs by auto. unfold ops_all. rewrite !in_app_iff, !in_flat_map. destruct Hr as [-> | [-> | [-> | ->]]]; rewrite ?z0h, ?z0k.
      * right; left. exists y. split; [apply in_seq; lia|]. right; right; now left.
      * right; left. exists y. split; [apply in_seq; lia|]. right; right; right; now left.
      * left. exists x. split; [apply in_seq; lia|]. right; right; now left.
      * left. exists x. split; [apply in_seq; lia|]. right; right; right; now left.
    + assert (Hx' : 1 <= x < XC - 1) by (unfold on_rim in Hr; lia). assert (Hy' : 1 <= y < YC - 1) by (unfold on_rim in Hr; lia).
      rewrite in_rhs by auto. unfold ops_all. rewrite !in_app_iff, !in_flat_map. right; right. exists y. split; [apply in_seq; lia|].
      apply in_flat_map. exists x. split; [apply in_seq; lia|]. unfold ops_point; cbn [In]; tauto.
Qed.
Lemma poisson_system : returns (fdm_assemble XC YC H K f b) (fun s => holds (fst s) D D (tab prows) /\ snd s = map prhsi (seq 0 D)).
Proof.
  rewrite assemble_ops. pose proof (sparse_laws N HF) as HL. destruct (ml_new _ HL D D) as (A & EA & HA); try (apply Nat.mul_pos_pos; auto).
  change (@mi_new _ (SparseR N) D D) with (@mi_new _ (SparseI N) D D). rewrite EA. cbn [bind].
  assert (z0 : forall h : N, (nofnat 0 * h)%num = n0) by (intros; rewrite (nl_0 N HN); ring).
  apply (run_ops HF HL D prows prhsi ops_all); auto using poisson_covers.
  unfold v_resize. rewrite firstn_nil. cbn. rewrite Nat.sub_0_r. apply repeat_length.
Qed.

(** Columns stay in range. *)
Lemma prow_range x y e : x < XC -> y < YC -> In e (prow x y) -> fst e < D.
Proof.
  intros Hx Hy. unfold prow. destruct (rimb XC YC x y) eqn:E.
  - intros [<- | []]. now apply lin2_lt.
  - apply rimb_false in E. unfold on_rim in E. intros Hi. cbn [In] in Hi. destruct Hi as [<- | [<- | [<- | [<- | [<- | []]]]]]; apply lin2_lt; lia.
Qed.
Lemma prow_diag x y : x < XC -> y < YC -> tab prows (lin x y) (lin x y) = if rimb XC YC x y then n1 else C.
Proof.
  intros Hx Hy. unfold tab. rewrite prows_lin by auto. unfold prow. destruct (rimb XC YC x y) eqn:E; cbn [fold_right fst snd].
  - rewrite Nat.eqb_refl. ring.
  - apply rimb_false in E. unfold on_rim in E. rewrite Nat.eqb_refl. unfold lin2.
    rewrite !(proj2 (Nat.eqb_neq _ _)) by nia. ring.
Qed.
(** Row (x,y) of the system is the scheme at (x,y), multiplied by K^2 inside. *)
Lemma prow_sum (u : nat -> N) x y : H <> n0 -> K <> n0 ->
  rowsum (prow x y) u = if rimb XC YC x y then u (lin x y) else ((K * K) * laplace H K (fun x y => u (lin x y)) x y)%num.
Proof.
  intros HH HK. unfold prow. destruct (rimb XC YC x y); unfold rowsum; cbn [fold_right fst snd].
  - ring.
  - unfold laplace, diff2, fdm_C, fdm_R2. field. auto.
Qed.
End PoissonSystem.
