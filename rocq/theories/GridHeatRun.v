(** What the heat program writes. *)
From Coq Require Import List Arith Bool Lia Ring Field.
From Verif Require Import Base BaseProofs Num OrdField Spec SpecProofs VectorModel VectorProofs MatI MatIProofs MatOps MatOpsProofs SparseModel LUModel
  DetSpec DetProofs LUSolve LinAlg CGMath CGProofs CGResult IterModel IterProofs IterResult GridModel GridSpec UtilsSpec UtilsProofs GridProofs GridPoisson
  GridMax GridSor GridHeat ObjProofs.
Import ListNotations.
Local Open Scope nat_scope.
Open Scope res_scope.

Section Data3.
Context {N : Num}.
Lemma table3_grid TC XC YC (g : nat -> nat -> nat -> N) t x y : t < TC -> x < XC -> y < YC ->
  table3 (map (fun t => map (fun y => map (fun x => g t x y) (seq 0 XC)) (seq 0 YC)) (seq 0 TC)) t x y = g t x y.
Proof. intros Ht Hx Hy. unfold table3. rewrite (nth_map_seq _ TC) by auto. now apply table2_grid with (g := g t). Qed.
Lemma size3_grid TC XC YC (g : nat -> nat -> nat -> N) : has_size3 TC XC YC (map (fun t => map (fun y => map (fun x => g t x y) (seq 0 XC)) (seq 0 YC)) (seq 0 TC)).
Proof. split; [now rewrite map_length, seq_length|]. intros t Ht. rewrite (nth_map_seq _ TC) by auto. apply size2_grid with (g := g t). Qed.
End Data3.

Section HeatRun.
Context {N : Num} (HO : OrdFieldLaws N) (HN : NatLaws N).
Let HF : FieldLaws N := of_field N HO.
Add Field gjfld : (fl_field N HF).
Notation le x y := (nleb x y = true).
Notation lt x y := (nltb x y = true).
Variables (TC XC YC : nat) (HT HX HY : N).
Hypothesis (PT : 0 < TC) (PX : 0 < XC) (PY : 0 < YC).
Hypothesis (NT : lt n0 HT) (NX : HX <> n0) (NY : HY <> n0).
Local Notation lin := (lin3 XC YC).
Local Notation D := (TC * XC * YC).
Local Notation ft := (ft HT). Local Notation fx := (fx HX). Local Notation fy := (fy HY).
Variable (k : N -> N -> N -> N).
Hypothesis (Pk : forall t x y, t < TC -> x < XC -> y < YC -> le n0 (k (ft t) (fx x) (fy y))).
Local Notation kf := (kf HT HX HY k).
Local Notation a := (tab (hrows XC YC HT HX HY k)).
Variables (f b : N -> N -> N -> N) (t0 : N -> N -> N) (w eps : N) (maxIter : nat).
Local Notation rhs := (hrhsi XC YC HT HX HY f b t0).

Lemma heat_run : exists X it,
  heat_main TC XC YC HT HX HY k f b t0 w maxIter eps =
    Ok (map (fun t => map (fun y => map (fun x => X it (lin t x y)) (seq 0 XC)) (seq 0 YC)) (seq 0 TC), it) /\
  (forall i, i < D -> X 0 i = n0) /\ (forall j, sor_eq D a rhs w (X j) (X j) (X (S j))) /\ run_ends D X maxIter (eps * eps)%num it.
Proof.
  destruct (heat_system HF TC XC YC HT HX HY k f b t0 PT PX PY) as ([A B] & E & HA & HB). cbn [fst snd] in HA, HB.
  unfold heat_main. rewrite E. cbn [bind fst snd].
  assert (Hlb : length B = D) by (now rewrite HB, map_length, seq_length).
  assert (Hz : v_resize [] D = repeat (@n0 N) D) by (unfold v_resize; rewrite firstn_nil; cbn [length app]; now rewrite Nat.sub_0_r).
  rewrite Hz. pose proof (sparse_rows N HF) as HR.
  destruct (sor_zero_start HO HR A D a B (repeat n0 D) HA Hlb (repeat_length _ _) w maxIter eps) as (X & it & Es & H0 & H1 & He).
  { intros i Hi. apply nth_repeat. }
  unfold V in Es. rewrite Es. cbn [bind fst snd]. rewrite (data3_ok TC XC YC) by (auto; now rewrite map_length, seq_length). cbn [bind].
  exists X, it. split; [|split; [|split]]; auto.
  - f_equal. f_equal. apply map_ext_in. intros t Ht. apply in_seq in Ht. apply map_ext_in. intros y Hy. apply in_seq in Hy. apply map_ext_in. intros x Hx. apply in_seq in Hx.
    apply nth_map_seq. apply lin3_lt; lia.
  - intros j i Hi. rewrite (H1 j i Hi). rewrite HB, nth_map_seq by auto. reflexivity.
Qed.

Lemma ht_ne : HT <> n0.
Proof. intros E. rewrite E in NT. now apply (olt_irrefl HO) in NT. Qed.
Lemma hdiag_pos t x y : t < TC -> x < XC -> y < YC -> lt n0 (heat_C HX HY * kf t x y + n1 / HT)%num.
Proof.
  intros Ht Hx Hy. replace (heat_C HX HY * kf t x y + n1 / HT)%num with (n1 / HT + heat_C HX HY * kf t x y)%num by ring.
  apply (olt_0_add HO); [now apply (olt_0_inv HO)|]. apply (ole_0_mul HO); [|now apply Pk]. unfold heat_C, heat_ih2.
  apply (ole_0_mul HO); [apply (olt_le HO), (two_pos HO)|]. apply (ole_0_add HO); apply (olt_le HO); now apply inv_sq_pos.
Qed.
Lemma hdiag_ne i : i < D -> a i i <> n0.
Proof.
  intros Hi. destruct (lin3_of TC XC YC i Hi) as (t & x & y & Ht & Hx & Hy & ->). rewrite (hrow_diag HF TC) by auto.
  destruct (fixedb XC YC t x y); [apply (one_neq_zero HO)|]. intros E. pose proof (hdiag_pos t x y Ht Hx Hy) as L. rewrite E in L.
  now apply (olt_irrefl HO) in L.
Qed.
(** At time 0 and on the rim: (1 - (1-w)^it) times the prescribed value. *)
Lemma heat_fixed_values X : (forall i, i < D -> X 0 i = n0) -> (forall j, sor_eq D a rhs w (X j) (X j) (X (S j))) ->
  forall j t x y, t < TC -> x < XC -> y < YC -> t = 0 \/ on_rim XC YC x y ->
  X j (lin t x y) = ((n1 - npow (n1 - w) j) * (if t =? 0 then t0 (fx x) (fy y) else b (ft t) (fx x) (fy y)))%num.
Proof.
  intros H0 H1 j t x y Ht Hx Hy Hr. apply fixedb_true in Hr. induction j as [|j IH].
  - rewrite H0 by (now apply lin3_lt). cbn [npow]. ring.
  - rewrite (H1 j (lin t x y)) by (now apply lin3_lt). rewrite IH, (hrow_diag HF TC) by auto. rewrite hrhsi_lin by auto. unfold hrhs.
    rewrite Hr. unfold offsum. rewrite (bigsum_0 HF).
    + cbn [npow]. destruct (t =? 0); cbn [negb]; field; apply (one_neq_zero HO).
    + intros q Hq. destruct (Nat.eqb_spec q (lin t x y)) as [->|Hne]; auto.
      rewrite (tab_out HF); [ring|]. intros v. rewrite hrows_lin by auto. unfold hrow. rewrite Hr.
      intros [Ev|[]]. injection Ev as Ev _. congruence.
Qed.

Hypothesis (Hw : w <> n0) (Heps : le n0 eps).
Local Notation theta := (nabs (n1 / w - n1)%num).
Variable kmax : N.
Hypothesis (Kk : forall t x y, t < TC -> x < XC -> y < YC -> le (k (ft t) (fx x) (fy y)) kmax).
Definition heat_defect_bound : N :=
  ((((n1 + n1) * theta + n1) * (n1 / (HX * HX) + n1 / (HY * HY)) * kmax + theta * (n1 / HT)) * eps)%num.
Lemma heat_defect xo xn : sor_eq D a rhs w xo xo xn -> (forall i, i < D -> le (nabs (xn i - xo i)%num) eps) ->
  forall t x y, t < TC -> x < XC -> y < YC ->
  (t = 0 \/ on_rim XC YC x y ->
    le (nabs (xn (lin t x y) - (if t =? 0 then t0 (fx x) (fy y) else b (ft t) (fx x) (fy y)))%num) (theta * eps)%num) /\
  (t <> 0 -> ~ on_rim XC YC x y ->
    le (nabs (hop HT HX HY k (fun t x y => xn (lin t x y)) t x y - f (ft t) (fx x) (fy y))%num) heat_defect_bound).
Proof.
  intros Hs Hd t x y Ht Hx Hy. assert (Hi : lin t x y < D) by (now apply lin3_lt). pose proof ht_ne as NT'.
  pose proof (sor_defect HO D a _ w xo xn (lin t x y) Hs Hw Hi (hdiag_ne _ Hi)) as Ed.
  rewrite (heat_row HF TC XC YC HT HX HY k) in Ed by auto. rewrite hrhsi_lin, (hrow_diag HF TC) in Ed by auto.
  rewrite (mulvec_tab HF), hrows_lin in Ed by (auto; intros e; rewrite hrows_lin by auto; now apply hrow_range).
  unfold hrhs, hrow in Ed. split.
  - intros Hr. apply fixedb_true in Hr. rewrite Hr in Ed. unfold rowsum in Ed. cbn [fold_right fst snd] in Ed. rewrite Nat.ltb_irrefl in Ed.
    rewrite <- (oabs_opp HO). set (v := if t =? 0 then t0 (fx x) (fy y) else b (ft t) (fx x) (fy y)).
    assert (Ev : (if negb (t =? 0) then b (ft t) (fx x) (fy y) else t0 (fx x) (fy y)) = v) by (unfold v; destruct (t =? 0); reflexivity).
    rewrite Ev in Ed.
    match goal with |- le (nabs ?zz) _ => replace zz with ((n1 / w - n1) * (xn (lin t x y) - xo (lin t x y)))%num end.
    + rewrite (oabs_mul HO). apply (ole_mul_l HO); auto. apply (oabs_nonneg HO).
    + transitivity (v - xn (lin t x y))%num; [rewrite Ed; ring|ring].
  - intros Hn Hr. assert (Hfx : fixedb XC YC t x y = false) by (now apply fixedb_false). rewrite Hfx in Ed.
    unfold rowsum in Ed. cbn [fold_right fst snd] in Ed. pose proof Hr as Hr'. unfold on_rim in Hr'.
    destruct (lin_shift XC YC t x y) as (m & E1 & E2 & E3 & E4 & E5 & E6 & E7); try lia.
    assert (L1 : (lin t x y <? lin (t - 1) x y) = false) by (apply Nat.ltb_ge; lia).
    assert (L2 : (lin t x y <? lin t x (y - 1)) = false) by (apply Nat.ltb_ge; lia).
    assert (L3 : (lin t x y <? lin t (x - 1) y) = false) by (apply Nat.ltb_ge; lia).
    assert (L4 : (lin t x y <? lin t (x + 1) y) = true) by (apply Nat.ltb_lt; lia).
    assert (L5 : (lin t x y <? lin t x (y + 1)) = true) by (apply Nat.ltb_lt; lia).
    rewrite L1, L2, L3, L4, L5, Nat.ltb_irrefl in Ed. clear E1 E2 E3 E4 E5 E6 E7.
    set (d0 := (xn (lin t x y) - xo (lin t x y))%num) in *. set (d1 := (xn (lin t (x + 1) y) - xo (lin t (x + 1) y))%num) in *.
    set (d2 := (xn (lin t x (y + 1)) - xo (lin t x (y + 1)))%num) in *.
    assert (B0 : le (nabs d0) eps) by (apply Hd; auto).
    assert (B1 : le (nabs d1) eps) by (apply Hd, lin3_lt; lia).
    assert (B2 : le (nabs d2) eps) by (apply Hd, lin3_lt; lia).
    set (P := (n1 / (HX * HX))%num) in *. set (Q := (n1 / (HY * HY))%num) in *. set (R := (n1 / HT)%num) in *.
    assert (HP : le n0 P) by (apply (olt_le HO); now apply inv_sq_pos).
    assert (HQ : le n0 Q) by (apply (olt_le HO); now apply inv_sq_pos).
    assert (HR : le n0 R) by (apply (olt_le HO); now apply (olt_0_inv HO)).
    assert (HPQ : le n0 (P + Q)%num) by (now apply (ole_0_add HO)).
    set (kk := kf t x y) in *. assert (K0 : le n0 kk) by (now apply Pk). assert (K1 : le kk kmax) by (now apply Kk).
    assert (H2 : le n0 (n1 + n1 : N)%num) by (apply (olt_le HO), (two_pos HO)).
    assert (Ht0 : le n0 theta) by apply (oabs_nonneg HO).
    assert (El : (hop HT HX HY k (fun t x y => xn (lin t x y)) t x y - f (ft t) (fx x) (fy y))%num =
      ((- (((n1 + n1) * (P + Q) * kk + R) * ((n1 / w - n1) * d0))) + (- (kk * (P * d1 + Q * d2))))%num).
    { unfold hop. fold kk.
      match type of Ed with ?l = _ => transitivity (- l)%num; [ring|rewrite Ed] end.
      unfold heat_C, heat_ih2. fold P Q R. ring. }
    rewrite El.
    apply (of_le_trans N HO) with (((n1 + n1) * (P + Q) * kk + R) * (theta * eps) + kk * (P * eps + Q * eps))%num.
    + eapply (of_le_trans N HO); [apply (oabs_add HO)|]. rewrite !(oabs_opp HO). apply (ole_add HO).
      * assert (HA : le n0 ((n1 + n1) * (P + Q) * kk + R)%num) by (repeat first [apply (ole_0_add HO)|apply (ole_0_mul HO)]; auto; apply (olt_le HO), (olt_0_1 HO)).
        rewrite (oabs_mul HO), (of_abs_pos N HO _ HA), (oabs_mul HO). apply (ole_mul_l HO); auto. apply (ole_mul_l HO); auto.
      * rewrite (oabs_mul HO), (of_abs_pos N HO _ K0). apply (ole_mul_l HO); auto.
        eapply (of_le_trans N HO); [apply (oabs_add HO)|].
        apply (ole_add HO); rewrite (oabs_mul HO), (of_abs_pos N HO _) by auto; now apply (ole_mul_l HO).
    + unfold heat_defect_bound. fold P Q R. apply (ole_sub HO).
      match goal with |- le n0 ?zz => replace zz with ((((n1 + n1) * theta + n1) * (P + Q) * eps) * (kmax - kk))%num by ring end.
      apply (ole_0_mul HO); [|now apply (ole_sub HO) in K1].
      repeat first [apply (ole_0_add HO)|apply (ole_0_mul HO)]; auto; apply (olt_le HO), (olt_0_1 HO).
Qed.
Lemma heat_defect_bound_nonneg : le n0 kmax -> le n0 heat_defect_bound.
Proof.
  intros Hk. unfold heat_defect_bound. pose proof (oabs_nonneg HO (n1 / w - n1)%num). pose proof (olt_le HO _ _ (inv_sq_pos HO HX NX)).
  pose proof (olt_le HO _ _ (inv_sq_pos HO HY NY)). pose proof (olt_le HO _ _ (olt_0_inv HO _ NT)). pose proof (olt_le HO _ _ (olt_0_1 HO)).
  repeat first [apply (ole_0_add HO)|apply (ole_0_mul HO)]; auto.
Qed.
End HeatRun.
