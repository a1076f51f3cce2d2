(** The heat program in double arithmetic. *)
From Coq Require Import ZArith Reals List Arith Bool SpecFloat Lia Lra.
From Verif Require Import Base BaseProofs Num NumInst Spec SpecProofs VectorModel VectorProofs
  MatI MatIProofs MatOps MatOpsProofs LUModel LUSolve IterModel GridModel GridSpec GridProofs GridHeat GridHeatRun GridSor
  FloatSpec F64Flocq FloatProofs FloatResult FloatSolve FloatLU FloatIterSpec FloatIter GridFloatSpec UtilsInst OrdField GridMax AccuracySpec GridTaylor GridAccuracy GridFloat.
Import ListNotations.
Local Open Scope R_scope.
Open Scope res_scope.

Lemma opp_real (x : NumF64) : real (- x)%num = - real x.
Proof. destruct x as [s|s| |s m e]; cbn; try ring. destruct s; cbn [negb]; rewrite <- Ropp_mult_distr_l_reverse, <- opp_IZR; reflexivity. Qed.
Lemma opp_double (x : NumF64) : double x -> double (- x)%num.
Proof. destruct x as [s|s| |s m e]; cbn; auto. Qed.
Lemma opp_finite (x : NumF64) : finite x -> finite (- x)%num.
Proof. destruct x as [s|s| |s m e]; cbn; auto. Qed.

Lemma relax_mono m w0 d d' x t t' : Rabs d <= Rabs d' -> 0 <= x -> t <= t' -> relax_bound m w0 d x t <= relax_bound m w0 d' x t'.
Proof.
  intros Hd Px Ht. unfold relax_bound, row_bound. pose proof u64_pos as U. pose proof eta64_pos as V. pose proof (grown 3) as G3. pose proof (grown m) as Gm.
  pose proof (Rabs_pos w0). pose proof (Rabs_pos (1 - w0)). pose proof (Rabs_pos d). assert (0 <= (1 + u64) ^ m) by lra.
  apply Rplus_le_compat; [apply Rplus_le_compat|].
  - apply Rmult_le_compat_l; auto. apply Rmult_le_compat_r; auto. now apply Rmult_le_compat_l.
  - apply Rmult_le_compat_l; auto. apply Rplus_le_compat; [now apply Rmult_le_compat_l|]. apply Rmult_le_compat_r; [lra|]. apply Rmult_le_compat_r; lra.
  - apply Rmult_le_compat_r; [lra|]. apply Rmult_le_compat_l; lra.
Qed.

(** The product of a coefficient and the conductivity *)
Lemma prod_err_ok (c g : NumF64) e kv kap km : double c -> evaluates g kv kap km -> finite (c * g)%num ->
  Rabs (real (c * g)%num - e * kv) <= prod_error (real c) e km kap /\ Rabs (real (c * g)%num) <= prod_max (real c) km kap.
Proof.
  intros Dc (Dg & Fg & Hp & Hm) Fin. destruct (mul_err _ _ Dc Dg Fin) as (d & x & Hd & Hx & E). rewrite E.
  set (r := real c). set (q := real g) in *. pose proof u64_pos as U. pose proof eta64_pos as V.
  assert (Hq : Rabs q <= km + kap) by (replace q with (kv + (q - kv)) by ring; eapply Rle_trans; [apply Rabs_triang|]; lra).
  assert (Hrq : Rabs (r * q) <= Rabs r * (km + kap)) by (rewrite Rabs_mult; apply Rmult_le_compat_l; auto; apply Rabs_pos).
  assert (M : forall a b A B, Rabs a <= A -> Rabs b <= B -> Rabs (a * b) <= A * B) by (intros; rewrite Rabs_mult; apply Rmult_le_compat; auto; apply Rabs_pos).
  pose proof (M _ _ _ _ Hd Hrq) as Q1. pose proof (M _ _ _ _ (Rle_refl (Rabs r)) Hp) as Q2. pose proof (M _ _ _ _ (Rle_refl (Rabs (r - e))) Hm) as Q3.
  unfold prod_error, prod_max. split.
  - replace (r * q * (1 + d) + x - e * kv) with (d * (r * q) + (x + (r * (q - kv) + (r - e) * kv))) by ring.
    eapply Rle_trans; [apply Rabs_triang|]. pose proof (Rabs_triang x (r * (q - kv) + (r - e) * kv)). pose proof (Rabs_triang (r * (q - kv)) ((r - e) * kv)). lra.
  - replace (r * q * (1 + d) + x) with (r * q + (d * (r * q) + x)) by ring.
    eapply Rle_trans; [apply Rabs_triang|]. pose proof (Rabs_triang (d * (r * q)) x). lra.
Qed.

Lemma prod_error_opp r e km kap : prod_error (- r) (- e) km kap = prod_error r e km kap.
Proof. unfold prod_error. rewrite Rabs_Ropp. replace (- r - - e) with (- (r - e)) by ring. now rewrite Rabs_Ropp. Qed.
Lemma prod_max_opp r km kap : prod_max (- r) km kap = prod_max r km kap.
Proof. unfold prod_max. now rewrite Rabs_Ropp. Qed.

Section HeatFloat.
Variables (TC XC YC : nat) (HT HX HY w eps : NumF64) (k f b : NumF64 -> NumF64 -> NumF64 -> NumF64) (t0 : NumF64 -> NumF64 -> NumF64).
Variables (kk F G : R -> R -> R -> R) (G0 : R -> R -> R) (u : R -> R -> R -> R) (Mt Mx My km kap phi psi Fm Gm : R).
Local Notation ht := (real HT).
Local Notation hx := (real HX).
Local Notation hy := (real HY).
Local Notation D := (TC * XC * YC)%nat.
Hypotheses (PT : (1 < TC)%nat) (PX3 : (2 < XC)%nat) (PY3 : (2 < YC)%nat) (HD : (Z.of_nat D < 2 ^ 53)%Z).
Hypotheses (DT : double HT) (FT : finite HT) (Pt : 0 < ht) (DX : double HX) (FX : finite HX) (Px : 0 < hx) (DY : double HY) (FY : finite HY) (Py : 0 < hy).
Hypotheses (Dw : double w) (W0 : real w <> 0) (De : double eps) (Fe : finite eps) (He : Rabs (real eps) <= powerRZ 2 500).
Local Notation at3 g t x y := (g (nofnat t * HT)%num (nofnat x * HX)%num (nofnat y * HY)%num).
Local Notation of3 g t x y := (g (INR t * ht) (INR x * hx) (INR y * hy)).
Hypothesis Hpde : heat_pde (INR (TC - 1) * ht) (INR (XC - 1) * hx) (INR (YC - 1) * hy) Mt Mx My kk F G G0 u.
Hypothesis Hk : forall t x y, (t < TC)%nat -> (x < XC)%nat -> (y < YC)%nat -> 0 <= of3 kk t x y <= km.
Hypothesis Hkv : forall t x y, (t < TC)%nat -> (x < XC)%nat -> (y < YC)%nat -> t <> 0%nat -> ~ on_rim XC YC x y ->
  evaluates (at3 k t x y) (of3 kk t x y) kap km /\ evaluates (at3 f t x y) (of3 F t x y) phi Fm /\
  finite (- heat_ih2 HX * at3 k t x y)%num /\ finite (- heat_ih2 HY * at3 k t x y)%num /\ finite (heat_C HX HY * at3 k t x y + n1 / HT)%num.
Hypothesis Hb : forall t x y, (t < TC)%nat -> (x < XC)%nat -> (y < YC)%nat -> t <> 0%nat -> on_rim XC YC x y -> evaluates (at3 b t x y) (of3 G t x y) psi Gm.
Hypothesis H0 : forall x y, (x < XC)%nat -> (y < YC)%nat -> evaluates (t0 (nofnat x * HX)%num (nofnat y * HY)%num) (G0 (INR x * hx) (INR y * hy)) psi Gm.

Lemma heat_float maxIter blocks it : heat_main TC XC YC HT HX HY k f b t0 w maxIter eps = Ok (blocks, it) -> (it < maxIter)%nat -> (1 < it)%nat \/ real w = 1 ->
  exists blocks', heat_main TC XC YC HT HX HY k f b t0 w (it - 1) eps = Ok (blocks', (it - 1)%nat) /\
  forall Y, grid_tame3 TC XC YC (table3 blocks') (table3 blocks) Y -> forall t x y, (t < TC)%nat -> (x < XC)%nat -> (y < YC)%nat ->
    let d := step_bound (real eps) in
    let rt := real (n1 / HT : NumF64)%num in let rx := real (heat_ih2 HX) in let ry := real (heat_ih2 HY) in let rc := real (heat_C HX HY) in
    Rabs (real (table3 blocks t x y) - of3 u t x y) <=
      fdm_rim d (real w) Y Gm psi
      + (heat_inner d (real w) Y ht hx hy rt rx ry rc km kap Fm phi + Mt * ht / 2 + km * ((Mx * hx ^ 2 + My * hy ^ 2) / 12)) * (INR t * ht).
Proof.
  intros E Hit Hw. assert (PX : (0 < XC)%nat) by lia. assert (PY : (0 < YC)%nat) by lia. assert (PT' : (0 < TC)%nat) by lia.
  assert (PD : (0 < D)%nat) by (repeat apply Nat.mul_pos_pos; auto).
  pose proof (heat_covers TC XC YC HT HX HY k f b t0) as HC.
  destruct (assemble_f D _ _ _ PD HC) as ([A B] & EA & HA & EB). cbn [fst snd] in HA, EB. rewrite <- heat_ops in EA.
  unfold heat_main in E |- *. rewrite EA in E |- *. cbn [bind fst snd] in E |- *. subst B.
  set (rows := hrows XC YC HT HX HY k) in *. set (rhs := hrhsi XC YC HT HX HY f b t0) in *.
  destruct (it_sor (M := SparseR NumF64) A (map rhs (seq 0 D)) (v_resize [] D) w maxIter eps) as [[X0 it0]| | | | |] eqn:Es; cbn [bind fst snd] in E; try discriminate.
  destruct HC as (Hnd & Hop & Hopb & Hcov & _).
  assert (Hrg : forall i e, (i < D)%nat -> In e (rows i) -> (fst e < D)%nat).
  { intros i [j v] Hi Hin. apply (Hop i j v). now apply Hcov. }
  assert (D1 : double (n1 : NumF64)) by reflexivity. assert (F1 : finite (n1 : NumF64)) by exact Logic.I.
  assert (Dt : double (n1 / HT : NumF64)%num) by now apply div_double.
  assert (Dih : forall h : NumF64, double h -> double (heat_ih2 h)) by (intros h Dh; unfold heat_ih2; apply div_double; auto; now apply mul_double).
  assert (DC : double (heat_C HX HY)).
  { unfold heat_C. apply mul_double; [reflexivity|]. apply add_double; auto. }
  assert (Hv : forall i e, (i < D)%nat -> In e (rows i) -> double (snd e) /\ finite (snd e)).
  { intros i e Hi. destruct (lin3_of TC XC YC i Hi) as (t & x & y & Ht & Hx & Hy & ->). unfold rows. rewrite hrows_lin by auto. unfold hrow.
    destruct (fixedb XC YC t x y) eqn:Eb; cbn [In].
    - intros [<-|[]]. cbn [snd]. auto.
    - apply fixedb_false in Eb as [Nt Nr]. destruct (Hkv t x y Ht Hx Hy Nt Nr) as ((Dk & Fk & _) & _ & Q2 & Q3 & Q4). destruct (add_finite_args _ _ Q4) as [_ Q1]. apply opp_finite in Q1. unfold kf, ft, fx, fy.
      pose proof (mul_double _ _ (opp_double _ (Dih _ DX)) Dk) as E1. pose proof (mul_double _ _ (opp_double _ (Dih _ DY)) Dk) as E2.
      pose proof (add_double _ _ (mul_double _ _ DC Dk) Dt) as E3. pose proof (opp_double _ Dt) as E4.
      intros [<-|[<-|[<-|[<-|[<-|[<-|[]]]]]]]; cbn [snd]; split; assumption. }
  assert (Hr : forall i, (i < D)%nat -> double (rhs i)).
  { intros i Hi. destruct (lin3_of TC XC YC i Hi) as (t & x & y & Ht & Hx & Hy & ->). unfold rhs. rewrite hrhsi_lin by auto. unfold hrhs, ft, fx, fy.
    destruct (fixedb XC YC t x y) eqn:Er.
    - destruct (t =? 0)%nat eqn:E0; cbn [negb]; [now apply H0|]. apply Nat.eqb_neq in E0. apply fixedb_true in Er as [Er|Er]; [contradiction|]. now apply Hb.
    - apply fixedb_false in Er as [Nt Nr]. destruct (Hkv t x y Ht Hx Hy Nt Nr) as (_ & (Df & _) & _). exact Df. }
  assert (Hit0 : it0 = it).
  { destruct (heat_data TC XC YC X0); cbn [bind] in E; try discriminate. now injection E as _ ->. }
  subst it0.
  destruct (program_f D rows rhs A w eps maxIter PD HD HA Hnd Hrg Hv Hr Dw W0 De Fe He X0 it Es Hit) as (_ & Ly & x0 & Lx & Ex & Hres).
  rewrite data3_ok in E by auto. cbn [bind] in E. injection E as <-.
  rewrite Ex. cbn [bind fst snd]. rewrite data3_ok by auto. cbn [bind]. eexists. split; [reflexivity|].
  intros Y HTm t x y Ht Hx Hy. set (d := step_bound (real eps)).
  set (rt := real (n1 / HT : NumF64)%num). set (rx := real (heat_ih2 HX)). set (ry := real (heat_ih2 HY)). set (rc := real (heat_C HX HY)). cbv zeta.
  assert (HT' : forall i, (i < D)%nat -> finite (nth i x0 n0) /\ finite (nth i X0 n0) /\ Rabs (real (nth i X0 n0) - real (nth i x0 n0)) <= powerRZ 2 400 /\ Rabs (real (nth i X0 n0)) <= Y).
  { intros i Hi. destruct (lin3_of TC XC YC i Hi) as (o & p & q & Ho & Hp & Hq & ->). specialize (HTm o p q Ho Hp Hq).
    rewrite (table3_grid TC XC YC (fun t x y => nth (lin3 XC YC t x y) x0 n0)), (table3_grid TC XC YC (fun t x y => nth (lin3 XC YC t x y) X0 n0)) in HTm by auto. exact HTm. }
  specialize (Hres Y HT' Hw).
  rewrite (table3_grid TC XC YC (fun t x y => nth (lin3 XC YC t x y) X0 n0)) by auto.
  set (v := fun t x y => real (nth (lin3 XC YC t x y) X0 n0)).
  assert (Pd : 0 <= d) by apply step_nonneg.
  assert (Wp : 0 < Rabs (real w)) by now apply Rabs_pos_lt.
  assert (PYb : 0 <= Y) by (destruct (HT' 0%nat PD) as (_ & _ & _ & Q); pose proof (Rabs_pos (real (nth 0 X0 n0))); lra).
  assert (R1 : real (n1 : NumF64) = 1) by exact real_n1.
  assert (L0 := Rlt_true 0 ht Pt).
  assert (Pk' : forall t x y, (t < TC)%nat -> (x < XC)%nat -> (y < YC)%nat -> @nleb NumR n0 (kk (ft (N := NumR) ht t) (fx (N := NumR) hx x) (fy (N := NumR) hy y)) = true).
  { intros t' x' y' Ht' Hx' Hy'. apply Rle_bool_iff. apply (Hk t' x' y'); auto. }
  destruct (heat_exists NumR_ord NumR_nat TC XC YC ht hx hy PT' PX PY L0 ltac:(cbn; lra) ltac:(cbn; lra) kk Pk' F G G0) as (s & Hs).
  pose proof (heat_accuracy TC XC YC ht hx hy Mt Mx My km kk F G G0 u s PT' PX PY Pt Px Py Hk Hpde Hs t x y Ht Hx Hy) as Acc.
  set (inn := heat_inner d (real w) Y ht hx hy rt rx ry rc km kap Fm phi).
  assert (Rim : forall t x y, (t < TC)%nat -> (x < XC)%nat -> (y < YC)%nat -> t = 0%nat \/ on_rim XC YC x y -> Rabs (v t x y - s t x y) <= fdm_rim d (real w) Y Gm psi).
  { clear t x y Ht Hx Hy Acc. intros t x y Ht Hx Hy Hrm. destruct (Hs t x y Ht Hx Hy) as (S1 & S2 & _). cbn [nmul NumR nofnat T] in S1, S2.
    assert (Hi : (lin3 XC YC t x y < D)%nat) by now apply lin3_lt. destruct (Hres _ Hi) as (_ & Q).
    pose proof (proj2 (fixedb_true _ _ _ _ _) Hrm) as Hfb.
    assert (Ev : exists g, s t x y = g /\ evaluates (rhs (lin3 XC YC t x y)) g psi Gm).
    { unfold rhs. rewrite hrhsi_lin by auto. unfold hrhs. rewrite Hfb. unfold ft, fx, fy. destruct (t =? 0)%nat eqn:E0; cbn [negb].
      - apply Nat.eqb_eq in E0. eexists. split; [exact (S1 E0)|]. now apply H0.
      - apply Nat.eqb_neq in E0. destruct Hrm as [Hrm|Hrm]; [contradiction|]. eexists. split; [exact (S2 E0 Hrm)|]. now apply Hb. }
    destruct Ev as (g & -> & _ & _ & E1 & E2).
    assert (Erow : rows (lin3 XC YC t x y) = [(lin3 XC YC t x y, n1)]) by (unfold rows; rewrite hrows_lin by auto; unfold hrow; now rewrite Hfb).
    set (bv := rhs (lin3 XC YC t x y)) in *.
    specialize (Q (Gm + psi)). cbv zeta in Q. fold d in Q.
    unfold entry_of, abs_row, row_app in Q. rewrite Erow in Q. rewrite look_cons, Nat.eqb_refl, norm0_real, R1 in Q.
    cbn [fold_right fst snd length Nat.add] in Q. rewrite Nat.ltb_irrefl, Nat.eqb_refl in Q. cbn [negb] in Q. rewrite R1 in Q. fold (v t x y) in Q.
    assert (HB : Rabs (real bv) <= Gm + psi).
    { replace (real bv) with (g + (real bv - g)) by ring. eapply Rle_trans; [apply Rabs_triang|]. lra. }
    specialize (Q HB). unfold fdm_rim. replace (v t x y - g) with ((real bv - g) + - (real bv - (1 * v t x y + 0))) by ring.
    eapply Rle_trans; [apply Rabs_triang|]. rewrite Rabs_Ropp. rewrite Rabs_R1 in Q.
    replace (Gm + psi + (0 + 0) * (Y + d)) with (Gm + psi) in Q by ring.
    replace (d * (Rabs (1 - real w) * 1 + Rabs (real w) * (0 + 0))) with (d * Rabs (1 - real w)) in Q by ring. lra. }
  assert (Inn : forall t x y, (t < TC)%nat -> (x < XC)%nat -> (y < YC)%nat -> t <> 0%nat -> ~ on_rim XC YC x y ->
    Rabs (hop (N := NumR) ht hx hy kk v t x y - hop (N := NumR) ht hx hy kk s t x y) <= inn).
  { clear t x y Ht Hx Hy Acc. intros t x y Ht Hx Hy Hn Hrm.
    rewrite (heat_op NumR_ord TC XC YC ht hx hy kk F G G0 s Hs t x y Ht Hx Hy Hn Hrm). unfold ft, fx, fy. cbn [nmul NumR nofnat T].
    destruct (Hkv t x y Ht Hx Hy Hn Hrm) as (Ek & Ef & Q2 & Q3 & Q4).
    set (kv := at3 k t x y) in *. set (fv := at3 f t x y) in *. set (g := of3 F t x y) in *. set (kr := of3 kk t x y) in *.
    assert (Dk : double kv) by apply Ek.
    assert (Hi : (lin3 XC YC t x y < D)%nat) by exact (lin3_lt TC XC YC t x y Ht Hx Hy). destruct (Hres _ Hi) as (Fr & Q).
    pose proof (proj2 (fixedb_false _ _ _ _ _) (conj Hn Hrm)) as Hrb.
    assert (Erow : rows (lin3 XC YC t x y) = hrow XC YC HT HX HY k t x y) by (unfold rows; rewrite hrows_lin by assumption; reflexivity).
    assert (Erhs : rhs (lin3 XC YC t x y) = fv) by (unfold rhs; rewrite hrhsi_lin by assumption; unfold hrhs; rewrite Hrb; reflexivity).
    clear Hkv Hb H0 Hpde EA HA Es Ex Hop Hopb Hcov Hv Hr Hres Hs HTm Hrg Rim Hk Pk'.
    rewrite Erhs in Q. destruct Ef as (_ & _ & E1 & E2).
    assert (HB : Rabs (real fv) <= Fm + phi).
    { replace (real fv) with (g + (real fv - g)) by ring. eapply Rle_trans; [apply Rabs_triang|]. lra. }
    specialize (Q _ HB). cbv zeta in Q. fold d in Q.
    destruct (add_finite_args _ _ Q4) as [Q5 Q6].
    set (ax := (- heat_ih2 HX * kv)%num) in *. set (ay := (- heat_ih2 HY * kv)%num) in *. set (ac := (heat_C HX HY * kv + n1 / HT)%num) in *.
    assert (Ed : entry_of rows (lin3 XC YC t x y) (lin3 XC YC t x y) = norm0 ac).
    { unfold entry_of. f_equal. apply look_in; [exact (Hnd _ Hi)|]. rewrite Erow. unfold hrow. rewrite Hrb. unfold kf, ft, fx, fy. fold kv ac. cbn [In]. right; right; right; left; reflexivity. }
    rewrite Ed, norm0_real in Q.
    unfold abs_row, row_app in Q. rewrite Erow in Q. unfold hrow in Q. rewrite Hrb in Q. unfold kf, ft, fx, fy in Q. fold kv in Q. fold ax ay ac in Q.
    cbn [fold_right fst snd length Nat.add] in Q.
    rewrite opp_real in Q. fold rt in Q. rewrite Rabs_Ropp in Q.
    destruct (prod_err_ok (- heat_ih2 HX)%num kv (- (1 / hx ^ 2)) kr kap km (opp_double _ (Dih _ DX)) Ek Q2) as [Ax1 Ax2].
    destruct (prod_err_ok (- heat_ih2 HY)%num kv (- (1 / hy ^ 2)) kr kap km (opp_double _ (Dih _ DY)) Ek Q3) as [Ay1 Ay2].
    destruct (prod_err_ok (heat_C HX HY) kv (2 * (1 / hx ^ 2 + 1 / hy ^ 2)) kr kap km DC Ek Q5) as [Ac1 Ac2].
    fold ax in Ax1, Ax2. fold ay in Ay1, Ay2. rewrite opp_real in Ax1, Ax2, Ay1, Ay2. fold rx in Ax1, Ax2. fold ry in Ay1, Ay2. fold rc in Ac1, Ac2.
    rewrite prod_error_opp in Ax1, Ay1. rewrite prod_max_opp in Ax2, Ay2.
    destruct (add_err _ _ (mul_double _ _ DC Dk) Dt Q4) as (dd & Hdd & Eac). fold ac in Eac. fold rt in Eac.
    clear Q2 Q3 Q4 Q5 Q6 FT FX FY Fe F1 Fr D1 Dt DC Dk Dih De Dw DT DX DY Ek.
    set (cr := real (heat_C HX HY * kv)%num) in *.
    set (mx := prod_max rx km kap) in *. set (my := prod_max ry km kap) in *. set (mc := prod_max rc km kap) in *.
    set (px := prod_error rx (1 / hx ^ 2) km kap) in *. set (py := prod_error ry (1 / hy ^ 2) km kap) in *. set (pc := prod_error rc (2 * (1 / hx ^ 2 + 1 / hy ^ 2)) km kap) in *.
    pose proof u64_pos as U.
    assert (Scr : Rabs (cr + rt) <= mc + Rabs rt) by (eapply Rle_trans; [apply Rabs_triang|]; lra).
    assert (Dcr : Rabs (dd * (cr + rt)) <= u64 * (mc + Rabs rt)) by (rewrite Rabs_mult; apply Rmult_le_compat; auto; apply Rabs_pos).
    assert (Hac : Rabs (real ac) <= heat_diag rt rc km kap).
    { rewrite Eac. unfold heat_diag. fold mc. replace ((cr + rt) * (1 + dd)) with ((cr + rt) + dd * (cr + rt)) by ring. eapply Rle_trans; [apply Rabs_triang|]. lra. }
    assert (Eacc : Rabs (real ac - (2 * (1 / hx ^ 2 + 1 / hy ^ 2) * kr + 1 / ht)) <= pc + Rabs (rt - 1 / ht) + u64 * (mc + Rabs rt)).
    { rewrite Eac. replace ((cr + rt) * (1 + dd) - (2 * (1 / hx ^ 2 + 1 / hy ^ 2) * kr + 1 / ht))
        with ((cr - 2 * (1 / hx ^ 2 + 1 / hy ^ 2) * kr) + ((rt - 1 / ht) + dd * (cr + rt))) by ring.
      eapply Rle_trans; [apply Rabs_triang|]. pose proof (Rabs_triang (rt - 1 / ht) (dd * (cr + rt))). lra. }
    unfold on_rim in Hrm.
    destruct (lin_shift XC YC t x y ltac:(lia) ltac:(lia) ltac:(lia)) as (m & L1 & L2 & L3 & L4 & L5 & L6).
    assert (X1 : (lin3 XC YC t (x - 1) y < lin3 XC YC t x y)%nat) by lia.
    assert (X2 : (lin3 XC YC t x y < lin3 XC YC t (x + 1) y)%nat) by lia.
    assert (X3 : (lin3 XC YC t x (y - 1) < lin3 XC YC t x y)%nat) by lia.
    assert (X4 : (lin3 XC YC t x y < lin3 XC YC t x (y + 1))%nat) by lia.
    assert (X5 : (lin3 XC YC (t - 1) x y < lin3 XC YC t x y)%nat) by nia.
    clear L1 L2 L3 L4 L5 L6.
    rewrite Nat.ltb_irrefl, Nat.eqb_refl in Q.
    rewrite (proj2 (Nat.ltb_ge _ _) (Nat.lt_le_incl _ _ X1)), (proj2 (Nat.ltb_ge _ _) (Nat.lt_le_incl _ _ X3)), (proj2 (Nat.ltb_ge _ _) (Nat.lt_le_incl _ _ X5)),
      (proj2 (Nat.ltb_lt _ _) X2), (proj2 (Nat.ltb_lt _ _) X4) in Q.
    rewrite (proj2 (Nat.eqb_neq _ _) (Nat.lt_neq _ _ X1)), (proj2 (Nat.eqb_neq _ _) (Nat.lt_neq _ _ X3)), (proj2 (Nat.eqb_neq _ _) (Nat.lt_neq _ _ X5)),
      (proj2 (Nat.eqb_neq _ _) (not_eq_sym (Nat.lt_neq _ _ X2))), (proj2 (Nat.eqb_neq _ _) (not_eq_sym (Nat.lt_neq _ _ X4))) in Q. cbn [negb] in Q.
    fold (v (t - 1)%nat x y) (v t (x - 1)%nat y) (v t x y) (v t (x + 1)%nat y) (v t x (y - 1)%nat) (v t x (y + 1)%nat) in Q.
    match type of Q with Rabs (_ - ?q) <= _ => set (S := q) in Q end.
    assert (QQ : Rabs (real fv - S) <= (d * (Rabs (1 - real w) * heat_diag rt rc km kap + Rabs (real w) * (mx + my))
        + relax_bound 10 (real w) (heat_diag rt rc km kap) (Y + d) (Fm + phi + (Rabs rt + 2 * mx + 2 * my) * (Y + d))) / Rabs (real w)).
    { eapply Rle_trans; [exact Q|]. unfold Rdiv. apply Rmult_le_compat_r; [left; now apply Rinv_0_lt_compat|].
      pose proof (Rabs_pos (real ax)). pose proof (Rabs_pos (real ay)). pose proof (Rabs_pos rt).
      apply Rplus_le_compat.
      - apply Rmult_le_compat_l; auto. apply Rplus_le_compat; apply Rmult_le_compat_l; auto using Rabs_pos; lra.
      - apply relax_mono; [|lra|].
        + eapply Rle_trans; [exact Hac|]. apply Rle_abs.
        + apply Rplus_le_compat_l. apply Rmult_le_compat_r; lra. }
    clear Q. assert (Hv' : forall t x y, (t < TC)%nat -> (x < XC)%nat -> (y < YC)%nat -> Rabs (v t x y) <= Y) by (intros t' x' y' Ht' Hx' Hy'; apply HT'; now apply lin3_lt).
    assert (T3 : forall p z B, Rabs p <= B -> Rabs z <= Y -> Rabs (p * z) <= B * Y) by (intros p z B Hp Hz; rewrite Rabs_mult; apply Rmult_le_compat; auto; apply Rabs_pos).
    replace (real ax - - (1 / hx ^ 2) * kr) with (real ax + 1 / hx ^ 2 * kr) in Ax1 by ring. replace (real ay - - (1 / hy ^ 2) * kr) with (real ay + 1 / hy ^ 2 * kr) in Ay1 by ring.
    pose proof (T3 _ _ _ Ax1 (Hv' t (x - 1)%nat y Ht ltac:(lia) Hy)) as U1. pose proof (T3 _ _ _ Ax1 (Hv' t (x + 1)%nat y Ht ltac:(lia) Hy)) as U2.
    pose proof (T3 _ _ _ Ay1 (Hv' t x (y - 1)%nat Ht Hx ltac:(lia))) as U3. pose proof (T3 _ _ _ Ay1 (Hv' t x (y + 1)%nat Ht Hx ltac:(lia))) as U4.
    pose proof (T3 _ _ _ Eacc (Hv' t x y Ht Hx Hy)) as U5. pose proof (T3 _ _ _ (Rle_refl (Rabs (rt - 1 / ht))) (Hv' (t - 1)%nat x y ltac:(lia) Hx Hy)) as U6.
    match type of U1 with Rabs ?a <= _ => set (A1 := a) in * end. match type of U2 with Rabs ?a <= _ => set (A2 := a) in * end.
    match type of U3 with Rabs ?a <= _ => set (A3 := a) in * end. match type of U4 with Rabs ?a <= _ => set (A4 := a) in * end.
    match type of U5 with Rabs ?a <= _ => set (A5 := a) in * end. match type of U6 with Rabs ?a <= _ => set (A6 := a) in * end.
    assert (EL : hop (N := NumR) ht hx hy kk v t x y = S - (A1 + (A2 + (A3 + (A4 + (A5 + - A6)))))).
    { unfold S, A1, A2, A3, A4, A5, A6, hop, laplace, diff2, kf, ft, fx, fy. cbn [NumR nadd nsub nmul ndiv n1 nofnat T]. fold kr. field. repeat split; lra. }
    rewrite EL. replace (S - (A1 + (A2 + (A3 + (A4 + (A5 + - A6))))) - g) with (- (real fv - S) + ((real fv - g) + - (A1 + (A2 + (A3 + (A4 + (A5 + - A6))))))) by ring.
    pose proof (Rabs_triang A5 (- A6)) as Z1. pose proof (Rabs_triang A4 (A5 + - A6)) as Z2. pose proof (Rabs_triang A3 (A4 + (A5 + - A6))) as Z3.
    pose proof (Rabs_triang A2 (A3 + (A4 + (A5 + - A6)))) as Z4. pose proof (Rabs_triang A1 (A2 + (A3 + (A4 + (A5 + - A6))))) as Z5.
    pose proof (Rabs_triang (real fv - g) (- (A1 + (A2 + (A3 + (A4 + (A5 + - A6))))))) as Z6.
    pose proof (Rabs_triang (- (real fv - S)) ((real fv - g) + - (A1 + (A2 + (A3 + (A4 + (A5 + - A6))))))) as Z7.
    rewrite !Rabs_Ropp in *. unfold inn, heat_inner, heat_coef_error. cbv zeta. fold mx my mc px py pc.
    eapply Rle_trans; [exact Z7|]. clear - QQ E1 Z1 Z2 Z3 Z4 Z5 Z6 U1 U2 U3 U4 U5 U6. lra. }
  assert (Pinn : 0 <= inn).
  { eapply Rle_trans; [|apply (Inn 1%nat 1%nat 1%nat); try lia; unfold on_rim; lia]. apply Rabs_pos. }
  pose proof (heat_stable NumR_ord NumR_nat TC XC YC ht hx hy PT' PX PY L0 ltac:(cbn; lra) ltac:(cbn; lra) kk Pk' v s (fdm_rim d (real w) Y Gm psi) inn) as St.
  cbn [nleb NumR nabs nsub n0 T] in St. setoid_rewrite Rle_bool_iff in St. specialize (St Rim Inn Pinn t x y Ht Hx Hy).
  unfold ft in St. cbn [nleb NumR nabs nsub n0 n1 T nadd nmul ndiv nofnat] in St.
  fold (v t x y). replace (v t x y - of3 u t x y) with ((v t x y - s t x y) + (s t x y - of3 u t x y)) by ring.
  eapply Rle_trans; [apply Rabs_triang|]. eapply Rle_trans; [apply Rplus_le_compat; [exact St|exact Acc]|]. right. generalize inn (fdm_rim d (real w) Y Gm psi) ht hx hy (INR t). intros q1 q2 q3 q4 q5 q6. cbn [T NumR]. field.
Qed.
End HeatFloat.
