(** The heat program: assembled system, solvability, stability, result. *)
From Coq Require Import List Arith Bool Lia Ring Field.
From Verif Require Import Base BaseProofs Num OrdField Spec SpecProofs VectorModel VectorProofs MatI MatIProofs MatOps MatOpsProofs SparseModel LUModel
  DetSpec DetProofs LUSolve LinAlg CGMath CGProofs CGResult IterModel IterProofs IterResult GridModel GridSpec UtilsSpec UtilsProofs GridProofs GridPoisson
  GridMax GridSor ObjProofs.
Import ListNotations.
Local Open Scope nat_scope.
Open Scope res_scope.

Lemma lin3_lin2 XC YC t x y : lin3 XC YC t x y = lin2 XC x (lin2 YC y t).
Proof. unfold lin3, lin2. ring. Qed.
Lemma lin3_x XC YC t x y : x < XC -> lin3 XC YC t x y mod XC = x.
Proof. intros H. rewrite lin3_lin2. now apply lin2_x. Qed.
Lemma lin3_y XC YC t x y : x < XC -> y < YC -> (lin3 XC YC t x y / XC) mod YC = y.
Proof. intros H H'. rewrite lin3_lin2, lin2_y by auto. now apply lin2_x. Qed.
Lemma lin3_t XC YC t x y : x < XC -> y < YC -> lin3 XC YC t x y / XC / YC = t.
Proof. intros H H'. rewrite lin3_lin2, lin2_y by auto. now apply lin2_y. Qed.
Lemma lin3_lt TC XC YC t x y : t < TC -> x < XC -> y < YC -> lin3 XC YC t x y < TC * XC * YC.
Proof.
  intros Ht Hx Hy. rewrite lin3_lin2. replace (TC * XC * YC) with (XC * (YC * TC)) by ring. apply lin2_lt; auto. now apply lin2_lt.
Qed.
Lemma lin3_of TC XC YC i : i < TC * XC * YC -> exists t x y, t < TC /\ x < XC /\ y < YC /\ i = lin3 XC YC t x y.
Proof.
  intros H. replace (TC * XC * YC) with (XC * (YC * TC)) in H by ring. destruct (lin2_of XC (YC * TC) i H) as (x & r & Hx & Hr & ->).
  destruct (lin2_of YC TC r Hr) as (y & t & Hy & Ht & ->). exists t, x, y. rewrite lin3_lin2. auto.
Qed.

Definition fixedb (XC YC t x y : nat) : bool := (t =? 0) || rimb XC YC x y.
Lemma fixedb_true XC YC t x y : fixedb XC YC t x y = true <-> t = 0 \/ on_rim XC YC x y.
Proof. unfold fixedb. rewrite orb_true_iff, Nat.eqb_eq, rimb_spec. tauto. Qed.
Lemma fixedb_false XC YC t x y : fixedb XC YC t x y = false <-> t <> 0 /\ ~ on_rim XC YC x y.
Proof. unfold fixedb. rewrite orb_false_iff, Nat.eqb_neq, rimb_false. tauto. Qed.
Lemma fixedb_cond XC YC t x y : (t =? 0) || (y =? 0) || (x =? 0) || (y =? YC - 1) || (x =? XC - 1) = fixedb XC YC t x y.
Proof. unfold fixedb, rimb. destruct (t =? 0), (y =? 0), (x =? 0), (y =? YC - 1), (x =? XC - 1); reflexivity. Qed.

Section HeatSystem.
Context {N : Num} (HF : FieldLaws N) (HN : NatLaws N).
Add Field ghfld : (fl_field N HF).
Variables (TC XC YC : nat) (HT HX HY : N) (k f b : N -> N -> N -> N) (t0 : N -> N -> N).
Local Notation lin := (lin3 XC YC).
Local Notation D := (TC * XC * YC).
Local Notation ih2 := heat_ih2.
Definition ft (t : nat) : N := (nofnat t * HT)%num.
Definition fx (x : nat) : N := (nofnat x * HX)%num.
Definition fy (y : nat) : N := (nofnat y * HY)%num.
Definition kf (t x y : nat) : N := k (ft t) (fx x) (fy y).

Definition hrow (t x y : nat) : list (nat * N) :=
  if fixedb XC YC t x y then [(lin t x y, n1)]
  else [(lin (t - 1) x y, - (n1 / HT)); (lin t x (y - 1), - ih2 HY * kf t x y); (lin t (x - 1) y, - ih2 HX * kf t x y);
        (lin t x y, heat_C HX HY * kf t x y + n1 / HT); (lin t (x + 1) y, - ih2 HX * kf t x y); (lin t x (y + 1), - ih2 HY * kf t x y)]%num.
Definition hrhs (t x y : nat) : N :=
  if fixedb XC YC t x y then if negb (t =? 0) then b (ft t) (fx x) (fy y) else t0 (fx x) (fy y) else f (ft t) (fx x) (fy y).
Definition hrows (i : nat) := hrow (i / XC / YC) (i mod XC) ((i / XC) mod YC).
Definition hrhsi (i : nat) := hrhs (i / XC / YC) (i mod XC) ((i / XC) mod YC).
Lemma hrows_lin t x y : x < XC -> y < YC -> hrows (lin t x y) = hrow t x y.
Proof. intros Hx Hy. unfold hrows. now rewrite lin3_x, lin3_y, lin3_t. Qed.
Lemma hrhsi_lin t x y : x < XC -> y < YC -> hrhsi (lin t x y) = hrhs t x y.
Proof. intros Hx Hy. unfold hrhsi. now rewrite lin3_x, lin3_y, lin3_t. Qed.

Definition hops (t y x : nat) : list (gop (N := N)) := map (fun e => SetA (lin t x y) (fst e) (snd e)) (hrow t x y) ++ [SetB (lin t x y) (hrhs t x y)].
Definition hops_all : list (gop (N := N)) :=
  flat_map (fun t => flat_map (fun y => flat_map (hops t y) (seq 0 (XC - 0))) (seq 0 (YC - 0))) (seq 0 (TC - 0)).

Ltac run_body := repeat (cbn [foreach gstep fst snd bind map app];
  match goal with
  | |- context [mi_set ?a ?i ?j ?v] => destruct (mi_set a i j v); cbn [bind]; try reflexivity
  | |- context [v_set ?w ?i ?v] => destruct (v_set w i v); cbn [bind]; try reflexivity
  end).
Lemma heat_ops : heat_assemble TC XC YC HT HX HY k f b t0 =
  let* A := @mi_new _ (SparseR N) D D in foreach hops_all gstep (A, v_resize [] D).
Proof.
  unfold heat_assemble. destruct (mi_new D D) as [A| | | | |]; cbn [bind]; auto. unfold hops_all.
  apply for_ops. intros t s _. apply for_ops. intros y s1 _. apply for_ops. intros x [A' B'] _.
  unfold heat_point, hops, hrow, hrhs. rewrite fixedb_cond. fold (ft t) (fx x) (fy y). cbn zeta. unfold kf.
  destruct (fixedb XC YC t x y).
  - destruct (negb (t =? 0)); run_body.
  - run_body.
Qed.
Lemma hop_in o : In o hops_all <-> exists t x y, t < TC /\ x < XC /\ y < YC /\ In o (hops t y x).
Proof.
  unfold hops_all. rewrite in_flat_map. split.
  - intros (t & Ht & H). apply in_flat_map in H as (y & Hy & H). apply in_flat_map in H as (x & Hx & H).
    apply in_seq in Ht, Hx, Hy. exists t, x, y. repeat split; auto; lia.
  - intros (t & x & y & Ht & Hx & Hy & H). exists t. split; [apply in_seq; lia|]. apply in_flat_map. exists y. split; [apply in_seq; lia|].
    apply in_flat_map. exists x. split; [apply in_seq; lia|auto].
Qed.
Lemma hrow_range t x y e : t < TC -> x < XC -> y < YC -> In e (hrow t x y) -> fst e < D.
Proof.
  intros Ht Hx Hy. unfold hrow. destruct (fixedb XC YC t x y) eqn:E.
  - intros [<- | []]. now apply lin3_lt.
  - apply fixedb_false in E. unfold on_rim in E. intros Hi. cbn [In] in Hi.
    destruct Hi as [<- | [<- | [<- | [<- | [<- | [<- | []]]]]]]; cbn [fst]; apply lin3_lt; lia.
Qed.
(** The six columns of an inner row, relative to its own. *)
Lemma lin_shift t x y : 0 < t -> 0 < x -> 0 < y -> exists m, lin t x y = m + YC * XC /\ lin (t - 1) x y = m /\
  lin t x (y - 1) = m + YC * XC - XC /\ lin t (x - 1) y = m + YC * XC - 1 /\ lin t (x + 1) y = m + YC * XC + 1 /\
  lin t x (y + 1) = m + YC * XC + XC /\ XC + 1 <= m + YC * XC.
Proof.
  intros Ht Hx Hy. exists (lin (t - 1) x y). unfold lin3.
  assert (E1 : t * YC * XC = (t - 1) * YC * XC + YC * XC) by (destruct t; [lia|]; cbn; rewrite Nat.sub_0_r; ring).
  assert (E2 : y * XC = (y - 1) * XC + XC) by (destruct y; [lia|]; cbn; rewrite Nat.sub_0_r; ring).
  assert (E3 : (y + 1) * XC = y * XC + XC) by ring. rewrite E1, E3, E2. generalize ((t - 1) * YC * XC) (YC * XC) ((y - 1) * XC). intros. repeat split; lia.
Qed.
Lemma hrow_nodup t x y : x < XC -> y < YC -> NoDup (map fst (hrow t x y)).
Proof.
  intros Hx Hy. unfold hrow. destruct (fixedb XC YC t x y) eqn:E.
  - cbn. constructor; [auto|constructor].
  - apply fixedb_false in E. unfold on_rim in E. destruct (lin_shift t x y) as (m & E1 & E2 & E3 & E4 & E5 & E6 & E7); try lia.
    cbn [map fst]. rewrite E1, E2, E3, E4, E5, E6. assert (3 * XC <= YC * XC) by (apply Nat.mul_le_mono_r; lia).
    assert (3 <= XC) by lia. repeat constructor; cbn [In]; lia.
Qed.

Hypothesis (PT : 0 < TC) (PX : 0 < XC) (PY : 0 < YC).
Lemma heat_covers : covers D hrows hrhsi hops_all.
Proof.
  unfold covers. split; [|split; [|split; [|split]]].
  - intros i Hi. destruct (lin3_of TC XC YC i Hi) as (t & x & y & Ht & Hx & Hy & ->). rewrite hrows_lin by auto. now apply hrow_nodup.
  - intros i j v Ho. apply hop_in in Ho as (t & x & y & Ht & Hx & Hy & Ho). unfold hops in Ho. apply in_app_or in Ho as [Ho|[Ho|[]]]; [|discriminate].
    apply in_map_iff in Ho as ([c w] & Ho & Hr). cbn [fst snd] in Ho. injection Ho as <- <- <-.
    split; [now apply lin3_lt|]. split; [exact (hrow_range t x y (c, w) Ht Hx Hy Hr)|]. now rewrite hrows_lin.
  - intros i v Ho. apply hop_in in Ho as (t & x & y & Ht & Hx & Hy & Ho). unfold hops in Ho. apply in_app_or in Ho as [Ho|[Ho|[]]].
    + apply in_map_iff in Ho as (? & ? & _). discriminate.
    + injection Ho as <- <-. split; [now apply lin3_lt|]. now rewrite hrhsi_lin.
  - intros i j v Hi Hv. destruct (lin3_of TC XC YC i Hi) as (t & x & y & Ht & Hx & Hy & ->). rewrite hrows_lin in Hv by auto.
    apply hop_in. exists t, x, y. repeat split; auto. unfold hops. apply in_or_app. left. apply in_map_iff. exists (j, v). auto.
  - intros i Hi. destruct (lin3_of TC XC YC i Hi) as (t & x & y & Ht & Hx & Hy & ->). rewrite hrhsi_lin by auto.
    apply hop_in. exists t, x, y. repeat split; auto. unfold hops. apply in_or_app. right. now left.
Qed.
Lemma heat_system : returns (heat_assemble TC XC YC HT HX HY k f b t0) (fun s => holds (fst s) D D (tab hrows) /\ snd s = map hrhsi (seq 0 D)).
Proof.
  rewrite heat_ops. pose proof (sparse_laws N HF) as HL. destruct (ml_new _ HL D D) as (A & EA & HA); try (repeat apply Nat.mul_pos_pos; auto).
  change (@mi_new _ (SparseR N) D D) with (@mi_new _ (SparseI N) D D). rewrite EA. cbn [bind].
  apply (run_ops HF HL D hrows hrhsi hops_all); auto using heat_covers.
  unfold v_resize. rewrite firstn_nil. cbn. rewrite Nat.sub_0_r. apply repeat_length.
Qed.
Lemma hrow_diag t x y : t < TC -> x < XC -> y < YC -> tab hrows (lin t x y) (lin t x y) =
  if fixedb XC YC t x y then n1 else (heat_C HX HY * kf t x y + n1 / HT)%num.
Proof.
  intros Ht Hx Hy. apply (tab_in HF); rewrite hrows_lin by auto; [now apply hrow_nodup|]. unfold hrow.
  destruct (fixedb XC YC t x y); cbn [In]; tauto.
Qed.
(** Row (t,x,y) of the system is the scheme there. *)
Lemma hrow_sum (u : nat -> N) t x y : HT <> n0 -> HX <> n0 -> HY <> n0 ->
  rowsum (hrow t x y) u = if fixedb XC YC t x y then u (lin t x y)
    else ((u (lin t x y) - u (lin (t - 1) x y)) / HT - kf t x y * laplace HX HY (fun x y => u (lin t x y)) x y)%num.
Proof.
  intros H1 H2 H3. unfold hrow. destruct (fixedb XC YC t x y); unfold rowsum; cbn [fold_right fst snd].
  - ring.
  - unfold laplace, diff2, heat_C, heat_ih2. field. auto.
Qed.
Hypothesis (NT : HT <> n0) (NX : HX <> n0) (NY : HY <> n0).
Lemma heat_row (u : nat -> N) t x y : t < TC -> x < XC -> y < YC ->
  mulvec D (tab hrows) u (lin t x y) = if fixedb XC YC t x y then u (lin t x y)
    else ((u (lin t x y) - u (lin (t - 1) x y)) / HT - kf t x y * laplace HX HY (fun x y => u (lin t x y)) x y)%num.
Proof.
  intros Ht Hx Hy. rewrite (mulvec_tab HF), hrows_lin by (auto; intros e; rewrite hrows_lin by auto; now apply hrow_range).
  now apply hrow_sum.
Qed.
Lemma heat_iff (u : nat -> N) : (forall i, i < D -> mulvec D (tab hrows) u i = hrhsi i) <->
  heat TC XC YC HT HX HY k f b t0 (fun t x y => u (lin t x y)).
Proof.
  split.
  - intros E t x y Ht Hx Hy. specialize (E (lin t x y) (lin3_lt TC XC YC t x y Ht Hx Hy)). rewrite heat_row in E by auto.
    rewrite hrhsi_lin in E by auto. unfold hrhs in E. split; [|split].
    + intros ->. rewrite (proj2 (fixedb_true _ _ _ _ _)) in E by auto. exact E.
    + intros Hn Hr. rewrite (proj2 (fixedb_true _ _ _ _ _)) in E by auto. rewrite (proj2 (Nat.eqb_neq _ _) Hn) in E. exact E.
    + intros Hn Hr. rewrite (proj2 (fixedb_false _ _ _ _ _)) in E by auto. unfold kf, ft, fx, fy in E.
      match type of E with ?l = ?r => match type of l with _ => idtac end end.
      transitivity (k (nofnat t * HT) (nofnat x * HX) (nofnat y * HY) * laplace HX HY (fun x0 y0 => u (lin t x0 y0)) x y +
        ((u (lin t x y) - u (lin (t - 1) x y)) / HT - k (nofnat t * HT) (nofnat x * HX) (nofnat y * HY) * laplace HX HY (fun x0 y0 => u (lin t x0 y0)) x y))%num;
        [ring|]. rewrite E. reflexivity.
  - intros P i Hi. destruct (lin3_of TC XC YC i Hi) as (t & x & y & Ht & Hx & Hy & ->). rewrite heat_row, hrhsi_lin by auto. unfold hrhs.
    destruct (P t x y Ht Hx Hy) as (P1 & P2 & P3). destruct (fixedb XC YC t x y) eqn:E.
    + destruct (Nat.eqb_spec t 0) as [->|Hn]; cbn [negb]; [now apply P1|]. apply P2; auto. apply fixedb_true in E. tauto.
    + apply fixedb_false in E as [E1 E2]. rewrite (P3 E1 E2). unfold kf, ft, fx, fy. ring.
Qed.
Lemma heat_assembly : returns (heat_assemble TC XC YC HT HX HY k f b t0) (fun s => mi_rows (fst s) = D /\ mi_cols (fst s) = D /\ length (snd s) = D /\
  forall X, length X = D -> (mo_mulv (fst s) X = Ok (snd s) <-> heat TC XC YC HT HX HY k f b t0 (fun t x y => nth (lin t x y) X n0))).
Proof.
  destruct heat_system as (s & E & HA & HB). exists s. split; auto.
  assert (HLen : length (snd s) = D) by (rewrite HB, map_length, seq_length; reflexivity).
  split; [exact (proj1 (proj2 HA))|]. split; [exact (proj1 (proj2 (proj2 HA)))|]. split; auto. intros X HXl.
  rewrite <- (heat_iff (fun i => nth i X n0)). pose proof (sparse_ops_laws N HF) as OL.
  change (SparseR N : MatOps N) with (SparseOps N) in *. rewrite (ol_mulv _ OL (fst s) D D (tab hrows) X HA HXl), HB. split.
  - intros Ev i Hi. injection Ev as Ev. apply (f_equal (fun l => nth i l n0)) in Ev. rewrite !nth_map_seq in Ev by auto. exact Ev.
  - intros Ev. f_equal. apply map_ext_in. intros i Hi. apply in_seq in Hi. apply Ev. lia.
Qed.
Lemma data3_ok (X : list N) : length X = D ->
  heat_data TC XC YC X = Ok (map (fun t => map (fun y => map (fun x => nth (lin t x y) X n0) (seq 0 XC)) (seq 0 YC)) (seq 0 TC)).
Proof.
  intros Hl. unfold heat_data.
  rewrite (for_collect 0 TC (fun t => for_ 0 YC (fun y out => let* line := for_ 0 XC (fun x l => let* v := v_at X (lin t x y) in Ok (l ++ [v])) [] in Ok (out ++ [line])) [])
    (fun t => map (fun y => map (fun x => nth (lin t x y) X n0) (seq 0 XC)) (seq 0 YC))); [now rewrite Nat.sub_0_r|].
  intros t Ht. rewrite (for_collect 0 YC (fun y => for_ 0 XC (fun x l => let* v := v_at X (lin t x y) in Ok (l ++ [v])) [])
    (fun y => map (fun x => nth (lin t x y) X n0) (seq 0 XC))); [now rewrite Nat.sub_0_r|].
  intros y Hy. rewrite (for_collect 0 XC (fun x => v_at X (lin t x y)) (fun x => nth (lin t x y) X n0)); [now rewrite Nat.sub_0_r|].
  intros x Hx. apply v_at_ok. rewrite Hl. apply lin3_lt; lia.
Qed.
End HeatSystem.

Section HeatMax.
Context {N : Num} (HO : OrdFieldLaws N) (HN : NatLaws N).
Let HF : FieldLaws N := of_field N HO.
Add Field gifld : (fl_field N HF).
Notation le x y := (nleb x y = true).
Notation lt x y := (nltb x y = true).
Variables (TC XC YC : nat) (HT HX HY : N).
Hypothesis (PT : 0 < TC) (PX : 0 < XC) (PY : 0 < YC).
Hypothesis (NT : lt n0 HT) (NX : HX <> n0) (NY : HY <> n0).
Local Notation lin := (lin3 XC YC).
Local Notation D := (TC * XC * YC).
Local Notation ft := (ft HT). Local Notation fx := (fx HX). Local Notation fy := (fy HY).
Variable (k : N -> N -> N -> N).
Hypothesis (Pk : forall t x y, t < TC -> x < XC -> y < YC -> le n0 (k (ft t) (fx x) (fy y))).
Local Notation kf := (kf HT HX HY k).
Lemma HT_ne : HT <> n0.
Proof. intros E. rewrite E in NT. now apply (olt_irrefl HO) in NT. Qed.
(** The scheme's operator. *)
Definition hop (u : nat -> nat -> nat -> N) (t x y : nat) : N :=
  ((u t x y - u (t - 1)%nat x y) / HT - kf t x y * laplace HX HY (u t) x y)%num.

Lemma heat_upper (e : nat -> nat -> nat -> N) (B r : N) :
  (forall t x y, t < TC -> x < XC -> y < YC -> t = 0 \/ on_rim XC YC x y -> le (e t x y) B) ->
  (forall t x y, t < TC -> x < XC -> y < YC -> t <> 0 -> ~ on_rim XC YC x y -> le (hop e t x y) r) -> le n0 r ->
  forall t x y, t < TC -> x < XC -> y < YC -> le (e t x y) (B + r * ft t)%num.
Proof.
  intros Hrim Hin Hr t x y Ht Hx Hy. pose proof HT_ne as NT'.
  set (g := fun t x y => (e t x y - r * ft t)%num).
  set (w := fun i => g (i / XC / YC) (i mod XC) ((i / XC) mod YC)).
  assert (Ew : forall t x y, x < XC -> y < YC -> w (lin t x y) = g t x y) by (intros t' x' y' Hx' Hy'; unfold w; now rewrite lin3_x, lin3_y, lin3_t).
  set (off := fun i => let t := i / XC / YC in let x := i mod XC in let y := (i / XC) mod YC in
    [(lin (t - 1) x y, n1 / HT); (lin t (x - 1) y, n1 / (HX * HX) * kf t x y); (lin t (x + 1) y, n1 / (HX * HX) * kf t x y);
     (lin t x (y - 1), n1 / (HY * HY) * kf t x y); (lin t x (y + 1), n1 / (HY * HY) * kf t x y)]%num).
  assert (G : le (w (lin t x y)) B).
  { apply (max_principle HO D (fun i => negb (fixedb XC YC (i / XC / YC) (i mod XC) ((i / XC) mod YC))) off).
    - intros i Hi Hb. destruct (lin3_of TC XC YC i Hi) as (t' & x' & y' & Ht' & Hx' & Hy' & ->). unfold off. cbn zeta.
      rewrite lin3_x, lin3_y, lin3_t in * by auto. apply negb_true_iff, fixedb_false in Hb as [Hn Hb]. pose proof Hb as Hb'. unfold on_rim in Hb. split; [|split].
      + assert (Hk : le n0 (kf t' x' y')) by (apply Pk; auto).
        pose proof (ole_0_mul HO _ _ (olt_le HO _ _ (inv_sq_pos HO HX NX)) Hk). pose proof (ole_0_mul HO _ _ (olt_le HO _ _ (inv_sq_pos HO HY NY)) Hk).
        pose proof (olt_le HO _ _ (olt_0_inv HO _ NT)).
        intros q c Hq. cbn [In] in Hq. destruct Hq as [E|[E|[E|[E|[E|[]]]]]]; injection E as <- <-; (split; [apply lin3_lt; lia|auto]).
      + exists (lin (t' - 1) x' y'), (n1 / HT)%num. split; [now left|]. split; [|now apply (olt_0_inv HO)].
        destruct (lin_shift XC YC t' x' y') as (m & -> & -> & _); [lia..|nia].
      + unfold rowsum. cbn [fold_right fst snd]. rewrite !Ew by lia.
        match goal with |- le n0 ?t => replace t with (r - hop e t' x' y')%num end; [apply -> (ole_sub HO); auto|].
        transitivity (r * ((ft t' - ft (t' - 1)) / HT) - hop e t' x' y')%num.
        { unfold GridHeat.ft. rewrite (nat_sub HF HN) by lia. assert (E1 : @nofnat N 1 = n1) by (rewrite (nl_S N HN), (nl_0 N HN); ring).
          rewrite E1. field. auto. }
        unfold hop, laplace, diff2, g. field. auto.
    - intros i Hi Hb. destruct (lin3_of TC XC YC i Hi) as (t' & x' & y' & Ht' & Hx' & Hy' & ->).
      rewrite lin3_x, lin3_y, lin3_t in Hb by auto. apply negb_false_iff, fixedb_true in Hb. rewrite Ew by auto. unfold g.
      apply (of_le_trans N HO) with (e t' x' y'); [|auto]. apply (ole_sub HO).
      replace (e t' x' y' - (e t' x' y' - r * ft t'))%num with (r * ft t')%num by ring. apply (ole_0_mul HO); auto.
      unfold GridHeat.ft. apply (ole_0_mul HO); [apply (nat_nonneg HO HN)|now apply (olt_le HO)].
    - now apply lin3_lt. }
  rewrite Ew in G by auto. unfold g in G. apply (ole_sub HO).
  replace (B + r * ft t - e t x y)%num with (B - (e t x y - r * ft t))%num by ring. now apply -> (ole_sub HO).
Qed.
Lemma hop_sub u v t x y : hop (fun t x y => u t x y - v t x y)%num t x y = (hop u t x y - hop v t x y)%num.
Proof. pose proof HT_ne. unfold hop, laplace, diff2. field. auto. Qed.
Lemma heat_stable (u v : nat -> nat -> nat -> N) (B r : N) :
  (forall t x y, t < TC -> x < XC -> y < YC -> t = 0 \/ on_rim XC YC x y -> le (nabs (u t x y - v t x y)%num) B) ->
  (forall t x y, t < TC -> x < XC -> y < YC -> t <> 0 -> ~ on_rim XC YC x y -> le (nabs (hop u t x y - hop v t x y)%num) r) -> le n0 r ->
  forall t x y, t < TC -> x < XC -> y < YC -> le (nabs (u t x y - v t x y)%num) (B + r * ft t)%num.
Proof.
  intros H1 H2 Hr t x y Ht Hx Hy. apply (oabs_le_iff HO). split.
  - apply (heat_upper (fun t x y => u t x y - v t x y)%num); auto.
    + intros t' x' y' Ht' Hx' Hy' Hb. now apply (oabs_le_iff HO), H1.
    + intros t' x' y' Ht' Hx' Hy' Hb Hb'. rewrite hop_sub. specialize (H2 t' x' y' Ht' Hx' Hy' Hb Hb'). now apply (oabs_le_iff HO) in H2.
  - replace (- (u t x y - v t x y))%num with (v t x y - u t x y)%num by ring.
    apply (heat_upper (fun t x y => v t x y - u t x y)%num); auto.
    + intros t' x' y' Ht' Hx' Hy' Hb. specialize (H1 t' x' y' Ht' Hx' Hy' Hb). apply (oabs_le_iff HO) in H1 as [_ H1].
      now replace (v t' x' y' - u t' x' y')%num with (- (u t' x' y' - v t' x' y'))%num by ring.
    + intros t' x' y' Ht' Hx' Hy' Hb Hb'. rewrite hop_sub. specialize (H2 t' x' y' Ht' Hx' Hy' Hb Hb'). apply (oabs_le_iff HO) in H2 as [_ H2].
      now replace (hop v t' x' y' - hop u t' x' y')%num with (- (hop u t' x' y' - hop v t' x' y'))%num by ring.
Qed.
Lemma heat_op f b t0 u : heat TC XC YC HT HX HY k f b t0 u -> forall t x y, t < TC -> x < XC -> y < YC -> t <> 0 -> ~ on_rim XC YC x y ->
  hop u t x y = f (ft t) (fx x) (fy y).
Proof.
  intros P t x y Ht Hx Hy Hn Hr. destruct (P t x y Ht Hx Hy) as (_ & _ & P3). specialize (P3 Hn Hr). unfold hop. rewrite P3.
  unfold kf, GridHeat.ft, GridHeat.fx, GridHeat.fy. ring.
Qed.
Lemma heat_fixed f b t0 u v : heat TC XC YC HT HX HY k f b t0 u -> heat TC XC YC HT HX HY k f b t0 v ->
  forall t x y, t < TC -> x < XC -> y < YC -> t = 0 \/ on_rim XC YC x y -> u t x y = v t x y.
Proof.
  intros P Q t x y Ht Hx Hy Hc. destruct (P t x y Ht Hx Hy) as (P1 & P2 & _), (Q t x y Ht Hx Hy) as (Q1 & Q2 & _).
  destruct (Nat.eq_dec t 0) as [E|E]; [now rewrite P1, Q1|]. destruct Hc as [Hc|Hc]; [contradiction|]. now rewrite P2, Q2.
Qed.
Lemma heat_unique f b t0 u v : heat TC XC YC HT HX HY k f b t0 u -> heat TC XC YC HT HX HY k f b t0 v ->
  forall t x y, t < TC -> x < XC -> y < YC -> u t x y = v t x y.
Proof.
  intros Pu Pv t x y Ht Hx Hy.
  assert (Z : le (nabs (u t x y - v t x y)%num) (n0 + n0 * ft t)%num).
  { apply (heat_stable u v n0 n0); auto.
    - intros t' x' y' Ht' Hx' Hy' Hr. rewrite (heat_fixed _ _ _ _ _ Pu Pv t' x' y') by auto.
      match goal with |- le (nabs ?t) _ => replace t with (@n0 N) by ring end. rewrite (of_abs_pos N HO); apply (of_le_refl N HO).
    - intros t' x' y' Ht' Hx' Hy' Hn Hr. rewrite (heat_op _ _ _ _ Pu), (heat_op _ _ _ _ Pv) by auto.
      match goal with |- le (nabs ?t) _ => replace t with (@n0 N) by ring end. rewrite (of_abs_pos N HO); apply (of_le_refl N HO).
    - apply (of_le_refl N HO). }
  replace (n0 + n0 * ft t)%num with (@n0 N) in Z by ring.
  assert (E : (u t x y - v t x y)%num = n0) by (apply (oabs_0_iff HO); apply (of_le_antisym N HO); auto; apply (oabs_nonneg HO)).
  replace (u t x y) with (v t x y + (u t x y - v t x y))%num by ring. rewrite E. ring.
Qed.
Lemma heat_exists f b t0 : exists u, heat TC XC YC HT HX HY k f b t0 u.
Proof.
  pose proof HT_ne as NT'. set (z3 := fun _ _ _ : N => @n0 N). set (z2 := fun _ _ : N => @n0 N).
  destruct (injective_solvable HF D (tab (hrows XC YC HT HX HY k))) with (b := hrhsi XC YC HT HX HY f b t0) as (x & Hx).
  - intros x Hx j Hj. destruct (lin3_of TC XC YC j Hj) as (tt & xx & yy & Htt & Hxx & Hyy & ->).
    assert (Z : forall i, i < D -> hrhsi XC YC HT HX HY z3 z3 z2 i = n0)
      by (intros i _; unfold hrhsi, hrhs; destruct (fixedb XC YC _ _ _); [destruct (negb _)|]; reflexivity).
    assert (Px : heat TC XC YC HT HX HY k z3 z3 z2 (fun t' x' y' => x (lin t' x' y'))).
    { apply (heat_iff HF TC XC YC HT HX HY k z3 z3 z2); auto. intros i Hi. now rewrite Hx, Z. }
    assert (Pz : heat TC XC YC HT HX HY k z3 z3 z2 (fun _ _ _ => n0)).
    { apply (heat_iff HF TC XC YC HT HX HY k z3 z3 z2) with (u := fun _ => n0); auto. intros i Hi. rewrite Z by auto. apply bigsum_0; auto. intros; ring. }
    exact (heat_unique _ _ _ _ _ Px Pz tt xx yy Htt Hxx Hyy).
  - exists (fun t' x' y' => x (lin t' x' y')). now apply (heat_iff HF TC XC YC HT HX HY k f b t0).
Qed.
Lemma heat_bounds b t0 u lo hi : (forall x y, le lo (t0 x y) /\ le (t0 x y) hi) -> (forall t x y, le lo (b t x y) /\ le (b t x y) hi) ->
  heat TC XC YC HT HX HY k (fun _ _ _ => n0) b t0 u -> forall t x y, t < TC -> x < XC -> y < YC -> le lo (u t x y) /\ le (u t x y) hi.
Proof.
  intros B1 B2 Hu t x y Ht Hx Hy. pose proof HT_ne as NT'.
  assert (Fx : forall t x y, t < TC -> x < XC -> y < YC -> t = 0 \/ on_rim XC YC x y -> le lo (u t x y) /\ le (u t x y) hi).
  { intros t' x' y' Ht' Hx' Hy' Hc. destruct (Hu t' x' y' Ht' Hx' Hy') as (P1 & P2 & _).
    destruct (Nat.eq_dec t' 0) as [E|E]; [rewrite P1 by auto; apply B1|]. destruct Hc as [Hc|Hc]; [contradiction|]. rewrite P2 by auto. apply B2. }
  split.
  - assert (Z : le (- u t x y)%num (- lo + n0 * ft t)%num).
    { apply (heat_upper (fun t x y => - u t x y)%num); auto.
      - intros t' x' y' Ht' Hx' Hy' Hc. apply (ole_sub HO). replace (- lo - - u t' x' y')%num with (u t' x' y' - lo)%num by ring.
        apply -> (ole_sub HO). now apply Fx.
      - intros t' x' y' Ht' Hx' Hy' Hn Hr. pose proof (heat_op _ _ _ _ Hu t' x' y' Ht' Hx' Hy' Hn Hr) as E.
        assert (E' : hop (fun t x y => - u t x y)%num t' x' y' = (- hop u t' x' y')%num) by (unfold hop, laplace, diff2; field; auto).
        rewrite E', E. replace (- n0)%num with (@n0 N) by ring. apply (of_le_refl N HO).
      - apply (of_le_refl N HO). }
    apply (ole_sub HO). apply (ole_sub HO) in Z. replace (u t x y - lo)%num with (- lo + n0 * ft t - - u t x y)%num by ring. exact Z.
  - replace hi with (hi + n0 * ft t)%num by ring. apply (heat_upper u); auto.
    + intros t' x' y' Ht' Hx' Hy' Hc. now apply Fx.
    + intros t' x' y' Ht' Hx' Hy' Hn Hr. rewrite (heat_op _ _ _ _ Hu) by auto. apply (of_le_refl N HO).
    + apply (of_le_refl N HO).
Qed.
End HeatMax.
