(** The finite difference programs in double arithmetic: assembly, and sums over the rows of the assembled systems. *)
From Coq Require Import ZArith Reals List Arith Bool SpecFloat Lia Lra.
From Verif Require Import Base BaseProofs Num NumInst Spec SpecProofs VectorModel VectorProofs SparseModel SparseSpec SparseFacts SparsePropProofs
  MatI MatIProofs MatOps MatOpsProofs LUModel LUSolve IterModel GridModel GridSpec GridProofs GridPoisson GridHeat GridSor
  FloatSpec F64Flocq FloatProofs FloatResult FloatSolve FloatLU FloatIterSpec FloatIter GridFloatSpec UtilsInst OrdField GridMax AccuracySpec GridTaylor GridAccuracy.
Import ListNotations.
Local Open Scope nat_scope.
Open Scope res_scope.

(** ** Assembly without field laws *)
Definition look {N : Num} (row : list (nat * N)) (j : nat) : N :=
  match find (fun e => Nat.eqb (fst e) j) row with Some e => snd e | None => n0 end.
Lemma look_in {N : Num} (row : list (nat * N)) j v : NoDup (map fst row) -> In (j, v) row -> look row j = v.
Proof.
  unfold look. induction row as [|[c w] l IH]; cbn [map fst snd find In]; [tauto|]. intros Hd Hi. inversion Hd as [|? ? Hn Hd']; subst.
  destruct (Nat.eqb_spec c j) as [->|Hne].
  - destruct Hi as [E|Hi]; [now injection E as ->|]. exfalso. apply Hn. now apply (in_map fst) in Hi.
  - destruct Hi as [E|Hi]; [congruence|auto].
Qed.
Lemma look_out {N : Num} (row : list (nat * N)) j : (forall v, ~ In (j, v) row) -> look row j = n0.
Proof.
  unfold look. induction row as [|[c w] l IH]; cbn [fst snd find In]; intros H; auto. destruct (Nat.eqb_spec c j) as [->|Hne].
  - exfalso. apply (H w). now left.
  - apply IH. intros v Hv. apply (H v). now right.
Qed.

Section Assembly.
Context {N : Num} {I : MatI N} (nz : N -> N) (HS : @SetLaws N I nz) (HZ : nz n0 = n0).
Lemma run_ops_f D rows (rhs : nat -> N) ops (A0 : I) B0 : covers D rows rhs ops ->
  MatI.holds A0 D D (fun _ _ => n0) -> length B0 = D ->
  returns (foreach ops gstep (A0, B0)) (fun s => MatI.holds (fst s) D D (fun i j => nz (look (rows i) j)) /\ snd s = map rhs (seq 0 D)).
Proof.
  intros (Hd & Ha & Hb & Ca & Cb) HA0 HB0.
  assert (P : forall l done a (A : I) B, ops = done ++ l -> MatI.holds A D D a -> length B = D ->
     (forall i j, i < D -> j < D -> (exists v, In (SetA i j v) done) /\ a i j = nz (look (rows i) j) \/ (forall v, ~ In (SetA i j v) done) /\ a i j = n0) ->
     (forall i, (exists v, In (SetB i v) done) -> nth i B n0 = rhs i) ->
     returns (foreach l gstep (A, B)) (fun s => MatI.holds (fst s) D D (fun i j => nz (look (rows i) j)) /\ snd s = map rhs (seq 0 D))).
  { induction l as [|o l IH]; intros done a A B E HA HB Ia Ib.
    - rewrite app_nil_r in E. subst done. eexists. split; [reflexivity|]. cbn [fst snd]. split.
      + eapply holds_ext; [exact HA|]. intros i j Hi Hj. destruct (Ia i j Hi Hj) as [[_ H]|[H1 H2]]; auto.
        rewrite H2. symmetry. rewrite look_out; auto. intros v Hv. apply (H1 v). now apply Ca.
      + apply list_eq_nth with (d := n0); [now rewrite map_length, seq_length|]. intros i Hi. rewrite HB in Hi.
        rewrite (nth_indep (map rhs _) n0 (rhs 0)) by (rewrite map_length, seq_length; lia). rewrite map_nth, seq_nth by lia. cbn.
        apply Ib. exists (rhs i). auto.
    - assert (Ho : In o ops) by (rewrite E; apply in_or_app; right; now left).
      assert (E' : ops = (done ++ [o]) ++ l) by (now rewrite <- app_assoc).
      destruct o as [i j v|i v]; cbn [foreach gstep fst snd].
      + destruct (Ha i j v Ho) as (Hi & Hj & Hv).
        destruct (HS A D D a i j v HA Hi Hj) as (A' & EA & HA'). rewrite EA. cbn [bind].
        apply (IH (done ++ [SetA i j v]) (put2 a i j (nz v))); auto.
        * intros i' j' Hi' Hj'. unfold put2. destruct (Nat.eqb_spec i' i) as [->|Ni]; [destruct (Nat.eqb_spec j' j) as [->|Nj]|]; cbn [andb].
          { left. split; [exists v; apply in_or_app; right; now left|]. f_equal. symmetry. apply look_in; auto. }
          { destruct (Ia i j' Hi Hj') as [[(w & H1) H2]|[H1 H2]]; [left; split; auto; exists w; apply in_or_app; now left|].
            right. split; auto. intros w Hw. apply in_app_or in Hw as [Hw|[Hw|[]]]; [now apply (H1 w)|congruence]. }
          { destruct (Ia i' j' Hi' Hj') as [[(w & H1) H2]|[H1 H2]]; [left; split; auto; exists w; apply in_or_app; now left|].
            right. split; auto. intros w Hw. apply in_app_or in Hw as [Hw|[Hw|[]]]; [now apply (H1 w)|congruence]. }
        * intros i' (w & Hw). apply Ib. exists w. apply in_app_or in Hw as [Hw|[Hw|[]]]; [auto|congruence].
      + destruct (Hb i v Ho) as (Hi & ->). rewrite v_set_ok by lia. cbn [bind].
        apply (IH (done ++ [SetB i (rhs i)]) a); auto.
        * now rewrite upd_length.
        * intros i' j' Hi' Hj'. destruct (Ia i' j' Hi' Hj') as [[(w & H1) H2]|[H1 H2]]; [left; split; auto; exists w; apply in_or_app; now left|].
          right. split; auto. intros w Hw. apply in_app_or in Hw as [Hw|[Hw|[]]]; [now apply (H1 w)|congruence].
        * intros i' (w & Hw). rewrite nth_upd. destruct (Nat.eq_dec i' i) as [->|Hne].
          { rewrite Nat.eqb_refl, (proj2 (Nat.ltb_lt _ _)) by lia. reflexivity. }
          { rewrite (proj2 (Nat.eqb_neq _ _)) by auto. cbn. apply Ib. exists w. apply in_app_or in Hw as [Hw|[Hw|[]]]; [auto|congruence]. } }
  apply (P ops [] (fun _ _ => n0) A0 B0 eq_refl HA0 HB0).
  - intros i j _ _. right. split; auto.
  - intros i (v & []).
Qed.
End Assembly.

Definition entry_of (rows : nat -> list (nat * NumF64)) (i j : nat) : NumF64 := norm0 (look (rows i) j).
Lemma assemble_f D rows rhs ops : 0 < D -> covers D rows rhs ops ->
  returns (let* A := @mi_new _ (SparseR NumF64) D D in foreach ops gstep (A, v_resize [] D))
    (fun s => MatI.holds (fst s) D D (entry_of rows) /\ snd s = map rhs (seq 0 D)).
Proof.
  intros PD HC. assert (Z : exists A : SparseI NumF64, @mi_new _ (SparseI NumF64) D D = Ok A /\ MatI.holds A D D (fun _ _ => n0)).
  { destruct (SparseProofs.srep_new (N := NumF64) D D PD PD) as (A & E & _). exists A. split; [exact E|]. apply s_holds. split; [eapply b_new; eauto|]. now apply (new_inv NumF64_zero_laws) in E. }
  destruct Z as (A & E & HA). change (@mi_new _ (SparseR NumF64) D D) with (@mi_new _ (SparseI NumF64) D D). rewrite E. cbn [bind].
  apply (run_ops_f norm0 sparse_sets eq_refl); auto. unfold v_resize. rewrite firstn_nil. cbn. rewrite Nat.sub_0_r. apply repeat_length.
Qed.

(** ** Sums over a row *)
Local Open Scope R_scope.
Lemma look_cons {N : Num} c (w : N) l j : look ((c, w) :: l) j = if Nat.eqb j c then w else look l j.
Proof. unfold look. cbn [find fst]. rewrite (Nat.eqb_sym c j). now destruct (Nat.eqb j c). Qed.
Lemma rsum_look (F : nat -> NumF64 -> R) n row : (forall j, F j n0 = 0) -> NoDup (map fst row) -> (forall e, In e row -> (fst e < n)%nat) ->
  rsum n (fun j => F j (look row j)) = fold_right (fun e s => F (fst e) (snd e) + s) 0 row.
Proof.
  intros HF. induction row as [|[c w] l IH]; intros Hd Hr; cbn [fold_right fst snd].
  - rewrite (rsum_ext n _ (fun j => 0 * 0)) by (intros j _; unfold look; cbn [find]; rewrite HF; ring). rewrite rsum_scal. ring.
  - inversion Hd as [|? ? Hn Hd']; subst. rewrite <- IH by (auto; intros; apply Hr; now right).
    assert (Hc : (c < n)%nat) by (apply (Hr (c, w)); now left).
    rewrite (rsum_split n c) by auto. rewrite (rsum_split n c (fun j => F j (look l j))) by auto.
    rewrite look_cons, Nat.eqb_refl. rewrite (look_out l c) by (intros v Hv; apply Hn; now apply (in_map fst) in Hv). rewrite HF.
    rewrite Rplus_0_l. f_equal. unfold roff. apply rsum_ext. intros j Hj. destruct (Nat.eqb_spec j c); [reflexivity|].
    rewrite look_cons. destruct (Nat.eqb_spec j c); [lia|reflexivity].
Qed.
Lemma nonzero_look n (row : list (nat * NumF64)) : (nonzero_count n (fun j => norm0 (look row j)) <= length row)%nat.
Proof.
  rewrite <- nonzero_count_filter. rewrite <- (map_length fst row). apply NoDup_incl_length; [apply NoDup_filter, seq_NoDup|].
  intros j Hj. apply filter_In in Hj as [_ Hj].
  destruct (find (fun e => Nat.eqb (fst e) j) row) as [e|] eqn:E.
  - apply find_some in E as [E1 E2]. apply Nat.eqb_eq in E2 as <-. now apply in_map.
  - unfold look in Hj. rewrite E in Hj. discriminate Hj.
Qed.

(** ** What every program of this kind returns *)
Lemma look_cases {N : Num} (row : list (nat * N)) j : look row j = n0 \/ exists e, In e row /\ snd e = look row j.
Proof.
  unfold look. destruct (find (fun e => Nat.eqb (fst e) j) row) as [e|] eqn:E; [|now left]. right. exists e. split; auto. now apply find_some in E.
Qed.
Lemma zero_mul (H : NumF64) : finite H -> 0 < real H -> (nofnat 0 * H)%num = n0.
Proof.
  destruct H as [s|s| |s m e]; cbn [finite real]; intros F P; try tauto; try lra. destruct s; [|reflexivity]. exfalso.
  assert (0 < powerRZ 2 e) by (apply powerRZ_lt; lra). assert (IZR (Z.neg m) < 0) by (apply IZR_lt; lia). nra.
Qed.
Lemma resize_zero D : v_resize ([] : list NumF64) D = repeat n0 D.
Proof. unfold v_resize. rewrite firstn_nil. cbn [length app]. now rewrite Nat.sub_0_r. Qed.
Lemma rsum_bound n f c : (forall i, (i < n)%nat -> f i <= c) -> rsum n f <= INR n * c.
Proof.
  induction n as [|n IH]; intros H; cbn [rsum]; [simpl; lra|]. rewrite S_INR. assert (f n <= c) by (apply H; lia). assert (rsum n f <= INR n * c) by (apply IH; intros; apply H; lia). lra.
Qed.

Section Program.
Variables (D : nat) (rows : nat -> list (nat * NumF64)) (rhs : nat -> NumF64) (A : SparseR NumF64) (w eps : NumF64) (maxIter : nat).
Hypotheses (PD : (0 < D)%nat) (HD : (Z.of_nat D < 2 ^ 53)%Z) (HA : MatI.holds A D D (entry_of rows)).
Hypotheses (Hnd : forall i, (i < D)%nat -> NoDup (map fst (rows i))) (Hrg : forall i e, (i < D)%nat -> In e (rows i) -> (fst e < D)%nat).
Hypotheses (Hv : forall i e, (i < D)%nat -> In e (rows i) -> double (snd e) /\ finite (snd e)) (Hr : forall i, (i < D)%nat -> double (rhs i)).
Hypotheses (Dw : double w) (W0 : real w <> 0) (De : double eps) (Fe : finite eps) (He : Rabs (real eps) <= powerRZ 2 500).

(** Sum of |entries| of row i in the columns selected by p *)
Definition abs_row (p : nat -> bool) (i : nat) : R := fold_right (fun e s => (if p (fst e) then Rabs (real (snd e)) else 0) + s) 0 (rows i).
Definition row_app (i : nat) (g : nat -> R) : R := fold_right (fun e s => real (snd e) * g (fst e) + s) 0 (rows i).
Lemma entries_sum i g : (i < D)%nat -> rsum D (fun j => real (entry_of rows i j) * g j) = row_app i g.
Proof.
  intros Hi. rewrite (rsum_ext D _ (fun j => (fun j (v : NumF64) => real v * g j) j (look (rows i) j))) by (intros j _; unfold entry_of; now rewrite norm0_real).
  apply (rsum_look (fun j v => real v * g j)); eauto. intros j. change (real n0) with 0. ring.
Qed.
Lemma entries_abs i (p : nat -> bool) : (i < D)%nat -> rsum D (fun j => if p j then Rabs (real (entry_of rows i j)) else 0) = abs_row p i.
Proof.
  intros Hi. rewrite (rsum_ext D _ (fun j => (fun j (v : NumF64) => if p j then Rabs (real v) else 0) j (look (rows i) j))) by (intros j _; unfold entry_of; now rewrite norm0_real).
  apply (rsum_look (fun j (v : NumF64) => if p j then Rabs (real v) else 0)); eauto. intros j. change (real n0) with 0. rewrite Rabs_R0. now destruct (p j).
Qed.

Lemma program_f y it : it_sor A (map rhs (seq 0 D)) (v_resize [] D) w maxIter eps = Ok (y, it) -> (it < maxIter)%nat ->
  (0 < it)%nat /\ length y = D /\ exists x, length x = D /\ it_sor A (map rhs (seq 0 D)) (v_resize [] D) w (it - 1) eps = Ok (x, (it - 1)%nat) /\
    forall Y, (forall i, (i < D)%nat -> finite (nth i x n0) /\ finite (nth i y n0) /\ Rabs (real (nth i y n0) - real (nth i x n0)) <= powerRZ 2 400 /\ Rabs (real (nth i y n0)) <= Y) ->
    (1 < it)%nat \/ real w = 1 -> forall i, (i < D)%nat -> finite (rhs i) /\ forall B, Rabs (real (rhs i)) <= B ->
      let d := step_bound (real eps) in
      Rabs (real (rhs i) - row_app i (fun j => real (nth j y n0)))
      <= (d * (Rabs (1 - real w) * Rabs (real (entry_of rows i i)) + Rabs (real w) * abs_row (fun j => i <? j)%nat i)
          + relax_bound (length (rows i) + 4) (real w) (real (entry_of rows i i)) (Y + d) (B + abs_row (fun j => negb (j =? i)%nat) i * (Y + d))) / Rabs (real w).
Proof.
  intros E Hit.
  assert (Da : doubles2 D D (entry_of rows) /\ all_finite D (entry_of rows)).
  { assert (G : forall i j, (i < D)%nat -> (j < D)%nat -> double (entry_of rows i j) /\ finite (entry_of rows i j)).
    { intros i j Hi Hj. unfold entry_of. destruct (look_cases (rows i) j) as [->|(e & He1 & <-)].
      - split; [exact double_zero|exact finite_zero].
      - destruct (Hv i e Hi He1). split; [now apply norm0_double|now apply norm0_finite]. }
    split; intros i j Hi Hj; now apply G. }
  destruct Da as [Da Fa].
  assert (Lb : length (map rhs (seq 0 D)) = D) by now rewrite map_length, seq_length.
  assert (nb : forall i, (i < D)%nat -> nth i (map rhs (seq 0 D)) n0 = rhs i) by (intros i Hi; now apply nth_map_seq).
  assert (Db : doubles (map rhs (seq 0 D))) by (apply (doubles_nth _ D); auto; intros i Hi; rewrite nb; auto).
  rewrite resize_zero in E |- *.
  assert (D0 : doubles (repeat (n0 : NumF64) D)) by (intros z Hz; apply repeat_spec in Hz as ->; exact double_zero).
  destruct (sor_stop (M := SparseR NumF64) sparse_reads A D (entry_of rows) _ HA Lb Da Fa Db w (repeat n0 D) maxIter eps y it
    (repeat_length _ _) D0 HD Dw De Fe He E Hit) as (H0 & x & Ex & Lx & Ly & _ & _ & H).
  split; auto. split; auto. exists x. split; auto. split; [exact Ex|]. intros Y HY Hw i Hi.
  assert (Wp : 0 < Rabs (real w)) by now apply Rabs_pos_lt.
  assert (S1 : rsum D (fun i => (real (nth i y n0) - real (nth i x n0)) ^ 2) <= powerRZ 2 1000).
  { eapply Rle_trans; [apply (rsum_bound D _ (powerRZ 2 800))|].
    - intros j Hj. destruct (HY j Hj) as (_ & _ & Q & _). rewrite <- Rsqr_pow2. rewrite Rsqr_abs.
      apply Rle_trans with (Rsqr (powerRZ 2 400)).
      + apply Rsqr_incr_1; auto; [apply Rabs_pos|left; apply powerRZ_lt; lra].
      + unfold Rsqr. rewrite <- powerRZ_add by lra. simpl. lra.
    - apply Rle_trans with (powerRZ 2 53 * powerRZ 2 800).
      + apply Rmult_le_compat_r; [left; apply powerRZ_lt; lra|]. rewrite INR_IZR_INZ. replace (powerRZ 2 53) with (IZR (2 ^ 53)) by (simpl; lra). apply IZR_le. lia.
      + rewrite <- powerRZ_add by lra. change (53 + 800)%Z with 853%Z.
        change 1000%Z with (853 + 147)%Z. rewrite powerRZ_add by lra. rewrite <- (Rmult_1_r (powerRZ 2 853)) at 1.
        apply Rmult_le_compat_l; [left; apply powerRZ_lt; lra|]. simpl. lra. }
  destruct (H (fun j Hj => conj (proj1 (HY j Hj)) (proj1 (proj2 (HY j Hj)))) S1 i Hi) as (Fb & _ & Q). specialize (Q Hw).
  rewrite nb in Fb by auto. split; [exact Fb|]. intros B HB d. assert (Pd : 0 <= d) by apply step_nonneg.
  rewrite entries_sum in Q by auto. rewrite nb in Q by auto. fold d in Q.
  apply Rmult_le_reg_l with (Rabs (real w)); auto. eapply Rle_trans; [exact Q|]. clear Q.
  match goal with |- _ <= ?p * (?q / ?p) => replace (p * (q / p)) with q by (field; lra) end.
  set (dg := real (entry_of rows i i)).
  assert (Er : relax_bound (length (rows i) + 4) (real w) dg (Y + d) (B + abs_row (fun j => negb (j =? i)%nat) i * (Y + d)) =
     relax_bound (length (rows i) + 4) (real w) (Rabs dg) (Y + d) (B + abs_row (fun j => negb (j =? i)%nat) i * (Y + d))).
  { unfold relax_bound, row_bound. now rewrite Rabs_Rabsolu. }
  rewrite Er. apply (row_sor D (fun j => real (entry_of rows i j)) i (real w) (fun j => real (nth j y n0))); auto.
  - unfold dg. lra.
  - right. rewrite <- entries_abs by auto. unfold roff. apply rsum_ext. intros j _. now destruct (j =? i)%nat.
  - right. rewrite <- entries_abs by auto. reflexivity.
  - intros j Hj. apply (HY j Hj).
  - apply Nat.add_le_mono_r. apply nonzero_look.
Qed.
End Program.

(** ** The right-hand side *)
Lemma rhs_error (K g : NumF64) F phi Fm : double K -> evaluates g F phi Fm -> finite ((K * K) * g)%num ->
  Rabs (real ((K * K) * g)%num - real K ^ 2 * F) <= rhs_bound (real K) Fm phi.
Proof.
  intros DK (Dg & Fg & Hp & Hm) Fin. assert (DKK : double (K * K)%num) by now apply mul_double.
  destruct (mul_finite_args _ _ Fin) as [FKK _].
  destruct (mul_err _ _ DK DK FKK) as (d1 & e1 & H1 & He1 & E1). destruct (mul_err _ _ DKK Dg Fin) as (d2 & e2 & H2 & He2 & E2).
  rewrite E2, E1. set (k := real K) in *. set (r := real g) in *. pose proof u64_pos as U. pose proof eta64_pos as V.
  replace ((k * k * (1 + d1) + e1) * r * (1 + d2) + e2 - k ^ 2 * F)
    with (k ^ 2 * ((d1 + d2 + d1 * d2) * F) + (k ^ 2 * ((1 + d1) * (1 + d2) * (r - F)) + (e1 * (r * (1 + d2)) + e2))) by ring.
  assert (Pk : 0 <= k ^ 2) by apply pow2_ge_0.
  assert (G : Rabs (d1 + d2 + d1 * d2) <= (1 + u64) ^ 2 - 1).
  { eapply Rle_trans; [apply Rabs_triang|]. pose proof (Rabs_triang d1 d2). rewrite (Rabs_mult d1 d2).
    assert (Rabs d1 * Rabs d2 <= u64 * u64) by (apply Rmult_le_compat; auto; apply Rabs_pos). lra. }
  assert (G1 : Rabs (1 + d1) <= 1 + u64) by (eapply Rle_trans; [apply Rabs_triang|]; rewrite Rabs_R1; lra).
  assert (G2 : Rabs (1 + d2) <= 1 + u64) by (eapply Rle_trans; [apply Rabs_triang|]; rewrite Rabs_R1; lra).
  assert (Hr : Rabs r <= Fm + phi).
  { replace r with (F + (r - F)) by ring. eapply Rle_trans; [apply Rabs_triang|]. lra. }
  assert (A1 : Rabs (k ^ 2 * ((d1 + d2 + d1 * d2) * F)) <= k ^ 2 * (((1 + u64) ^ 2 - 1) * Fm)).
  { rewrite Rabs_mult, (Rabs_pos_eq (k ^ 2)) by auto. apply Rmult_le_compat_l; auto. rewrite Rabs_mult. apply Rmult_le_compat; auto; apply Rabs_pos. }
  assert (A2 : Rabs (k ^ 2 * ((1 + d1) * (1 + d2) * (r - F))) <= k ^ 2 * ((1 + u64) * (1 + u64) * phi)).
  { rewrite Rabs_mult, (Rabs_pos_eq (k ^ 2)) by auto. apply Rmult_le_compat_l; auto. rewrite !Rabs_mult.
    apply Rmult_le_compat; auto; try apply Rabs_pos; [apply Rmult_le_pos; apply Rabs_pos|]. apply Rmult_le_compat; auto; apply Rabs_pos. }
  assert (A3 : Rabs (e1 * (r * (1 + d2))) <= eta64 * ((Fm + phi) * (1 + u64))).
  { rewrite !Rabs_mult. apply Rmult_le_compat; auto; try apply Rabs_pos; [apply Rmult_le_pos; apply Rabs_pos|]. apply Rmult_le_compat; auto; apply Rabs_pos. }
  eapply Rle_trans; [apply Rabs_triang|]. eapply Rle_trans; [apply Rplus_le_compat_l, Rabs_triang|].
  pose proof (Rabs_triang (e1 * (r * (1 + d2))) e2). unfold rhs_bound. lra.
Qed.

(** ** The Poisson program *)
Section PoissonFloat.
Variables (XC YC : nat) (H K w eps : NumF64) (f b : NumF64 -> NumF64 -> NumF64) (F G u : R -> R -> R) (Mx My phi psi Fm Gm : R).
Local Notation h := (real H).
Local Notation k := (real K).
Local Notation D := (XC * YC)%nat.
Hypotheses (PX3 : (2 < XC)%nat) (PY3 : (2 < YC)%nat) (HD : (Z.of_nat D < 2 ^ 53)%Z).
Hypotheses (DH : double H) (FH : finite H) (Ph : 0 < h) (DK : double K) (FK : finite K) (Pk : 0 < k).
Hypotheses (F2 : finite (fdm_R2 H K)) (FC : finite (fdm_C H K)).
Hypotheses (Dw : double w) (W0 : real w <> 0) (De : double eps) (Fe : finite eps) (He : Rabs (real eps) <= powerRZ 2 500).
Hypothesis Hpde : poisson_pde (INR (XC - 1) * h) (INR (YC - 1) * k) Mx My F G u.
Hypothesis Hb : forall x y, (x < XC)%nat -> (y < YC)%nat -> on_rim XC YC x y -> evaluates (b (nofnat x * H)%num (nofnat y * K)%num) (G (INR x * h) (INR y * k)) psi Gm.
Hypothesis Hf : forall x y, (x < XC)%nat -> (y < YC)%nat -> ~ on_rim XC YC x y -> evaluates (f (nofnat x * H)%num (nofnat y * K)%num) (F (INR x * h) (INR y * k)) phi Fm.

Lemma poisson_float maxIter lines it : fdm_main XC YC H K f b w maxIter eps = Ok (lines, it) -> (it < maxIter)%nat -> (1 < it)%nat \/ real w = 1 ->
  exists lines', fdm_main XC YC H K f b w (it - 1) eps = Ok (lines', (it - 1)%nat) /\
  forall Y, grid_tame XC YC (table2 lines') (table2 lines) Y -> forall x y, (x < XC)%nat -> (y < YC)%nat ->
    let d := step_bound (real eps) in let X := INR x * h in let W := INR (XC - 1) * h in
    Rabs (real (table2 lines x y) - u X (INR y * k)) <=
      fdm_rim d (real w) Y Gm psi
      + (fdm_inner d (real w) Y h k (real (fdm_R2 H K)) (real (fdm_C H K)) Fm phi / k ^ 2 + (Mx * h ^ 2 + My * k ^ 2) / 12) * (X * (W - X) / 2).
Proof.
  intros E Hit Hw. assert (PX : (0 < XC)%nat) by lia. assert (PY : (0 < YC)%nat) by lia.
  assert (PD : (0 < D)%nat) by (apply Nat.mul_pos_pos; auto).
  pose proof (poisson_covers XC YC H K f b PX PY (zero_mul H FH Ph) (zero_mul K FK Pk)) as HC.
  destruct (assemble_f D _ _ _ PD HC) as ([A B] & EA & HA & EB). cbn [fst snd] in HA, EB. rewrite <- assemble_ops in EA.
  unfold fdm_main in E |- *. rewrite EA in E |- *. cbn [bind fst snd] in E |- *. subst B.
  set (rows := prows XC YC H K) in *. set (rhs := prhsi XC YC H K f b) in *.
  destruct (it_sor (M := SparseR NumF64) A (map rhs (seq 0 D)) (v_resize [] D) w maxIter eps) as [[X0 it0]| | | | |] eqn:Es; cbn [bind fst snd] in E; try discriminate.
  destruct HC as (Hnd & Hop & Hopb & Hcov & _).
  assert (Hrg : forall i e, (i < D)%nat -> In e (rows i) -> (fst e < D)%nat).
  { intros i [j v] Hi Hin. apply (Hop i j v). now apply Hcov. }
  assert (D1 : double (n1 : NumF64)) by reflexivity. assert (F1 : finite (n1 : NumF64)) by exact Logic.I.
  assert (D2 : double (fdm_R2 H K)) by (unfold fdm_R2; apply div_double; now apply mul_double).
  assert (DC : double (fdm_C H K)).
  { unfold fdm_C. apply mul_double; [reflexivity|]. now apply add_double. }
  assert (Hv : forall i e, (i < D)%nat -> In e (rows i) -> double (snd e) /\ finite (snd e)).
  { intros i e Hi. destruct (lin2_of XC YC i Hi) as (x & y & Hx & Hy & ->). unfold rows. rewrite prows_lin by auto. unfold prow.
    destruct (rimb XC YC x y); cbn [In]; intros Hin; repeat (destruct Hin as [<-|Hin]; [cbn [snd]; auto|]); destruct Hin. }
  assert (Hr : forall i, (i < D)%nat -> double (rhs i)).
  { intros i Hi. destruct (lin2_of XC YC i Hi) as (x & y & Hx & Hy & ->). unfold rhs. rewrite prhsi_lin by auto. unfold prhs.
    destruct (rimb XC YC x y) eqn:Er.
    - apply Hb; auto. now apply rimb_spec.
    - apply mul_double; [now apply mul_double|]. apply Hf; auto. now apply rimb_false. }
  assert (Hit0 : it0 = it).
  { destruct (fdm_data XC YC X0); cbn [bind] in E; try discriminate. now injection E as _ ->. }
  subst it0.
  destruct (program_f D rows rhs A w eps maxIter PD HD HA Hnd Hrg Hv Hr Dw W0 De Fe He X0 it Es Hit) as (H0 & Ly & x0 & Lx & Ex & Hres).
  rewrite data2_ok in E by auto. cbn [bind] in E. injection E as <-.
  rewrite Ex. cbn [bind fst snd]. rewrite data2_ok by auto. cbn [bind]. eexists. split; [reflexivity|].
  intros Y HT x y Hx Hy. set (d := step_bound (real eps)). set (X := INR x * h). set (W := INR (XC - 1) * h).
  assert (HT' : forall i, (i < D)%nat -> finite (nth i x0 n0) /\ finite (nth i X0 n0) /\ Rabs (real (nth i X0 n0) - real (nth i x0 n0)) <= powerRZ 2 400 /\ Rabs (real (nth i X0 n0)) <= Y).
  { intros i Hi. destruct (lin2_of XC YC i Hi) as (p & q & Hp & Hq & ->). specialize (HT p q Hp Hq).
    rewrite (table2_grid XC YC (fun x y => nth (lin2 XC x y) x0 n0)), (table2_grid XC YC (fun x y => nth (lin2 XC x y) X0 n0)) in HT by auto. exact HT. }
  specialize (Hres Y HT' Hw).
  rewrite (table2_grid XC YC (fun x y => nth (lin2 XC x y) X0 n0)) by auto.
  set (v := fun x y => real (nth (lin2 XC x y) X0 n0)).
  assert (Pd : 0 <= d) by apply step_nonneg.
  assert (Wp : 0 < Rabs (real w)) by now apply Rabs_pos_lt.
  assert (PYb : 0 <= Y) by (destruct (HT' 0%nat PD) as (_ & _ & _ & Q); pose proof (Rabs_pos (real (nth 0 X0 n0))); lra).
  assert (R1 : real (n1 : NumF64) = 1) by exact real_n1.
  assert (Rim : forall x y, (x < XC)%nat -> (y < YC)%nat -> on_rim XC YC x y -> Rabs (v x y - u (INR x * h) (INR y * k)) <= fdm_rim d (real w) Y Gm psi).
  { clear x y Hx Hy X. intros x y Hx Hy Hrm. destruct Hpde as (uxx & uyy & _ & _ & _ & Bd).
    rewrite (Bd _ _ (grid_le XC x h Hx Ph) (grid_le YC y k Hy Pk) (rim_coords XC YC x y h k Hrm)).
    pose proof (Hb x y Hx Hy Hrm) as (_ & _ & E1 & E2). set (g := G (INR x * h) (INR y * k)) in *.
    assert (Hi : (lin2 XC x y < D)%nat) by now apply lin2_lt. destruct (Hres _ Hi) as (_ & Q).
    assert (Erow : rows (lin2 XC x y) = [(lin2 XC x y, n1)]).
    { unfold rows. rewrite prows_lin by auto. unfold prow. now rewrite (proj2 (rimb_spec _ _ _ _)) by auto. }
    assert (Erhs : rhs (lin2 XC x y) = b (nofnat x * H)%num (nofnat y * K)%num).
    { unfold rhs. rewrite prhsi_lin by auto. unfold prhs. now rewrite (proj2 (rimb_spec _ _ _ _)) by auto. }
    rewrite Erhs in Q. set (bv := b (nofnat x * H)%num (nofnat y * K)%num) in *.
    specialize (Q (Gm + psi)). cbv zeta in Q. fold d in Q.
    unfold entry_of, abs_row, row_app in Q. rewrite Erow in Q. rewrite look_cons, Nat.eqb_refl, norm0_real, R1 in Q.
    cbn [fold_right fst snd length Nat.add] in Q. rewrite Nat.ltb_irrefl, Nat.eqb_refl in Q. cbn [negb] in Q. rewrite R1 in Q. fold (v x y) in Q.
    assert (HB : Rabs (real bv) <= Gm + psi).
    { replace (real bv) with (g + (real bv - g)) by ring. eapply Rle_trans; [apply Rabs_triang|]. lra. }
    specialize (Q HB). unfold fdm_rim. replace (v x y - g) with ((real bv - g) + - (real bv - (1 * v x y + 0))) by ring.
    eapply Rle_trans; [apply Rabs_triang|]. rewrite Rabs_Ropp. rewrite Rabs_R1 in Q.
    replace (Gm + psi + (0 + 0) * (Y + d)) with (Gm + psi) in Q by ring.
    replace (d * (Rabs (1 - real w) * 1 + Rabs (real w) * (0 + 0))) with (d * Rabs (1 - real w)) in Q by ring. lra. }
  set (r2 := real (fdm_R2 H K)) in *. set (c := real (fdm_C H K)) in *.
  set (inn := fdm_inner d (real w) Y h k r2 c Fm phi).
  assert (Inn : forall x y, (x < XC)%nat -> (y < YC)%nat -> ~ on_rim XC YC x y ->
    Rabs (@laplace NumR h k v x y - F (INR x * h) (INR y * k)) <= inn / k ^ 2).
  { clear x y Hx Hy X. intros x y Hx Hy Hrm.
    pose proof (Hf x y Hx Hy Hrm) as Ev. set (g := F (INR x * h) (INR y * k)) in *.
    assert (Hi : (lin2 XC x y < D)%nat) by now apply lin2_lt. destruct (Hres _ Hi) as (Fr & Q).
    pose proof (proj2 (rimb_false _ _ _ _) Hrm) as Hrb.
    assert (Erow : rows (lin2 XC x y) = prow XC YC H K x y) by (unfold rows; now rewrite prows_lin).
    assert (Erhs : rhs (lin2 XC x y) = ((K * K) * f (nofnat x * H) (nofnat y * K))%num) by (unfold rhs; rewrite prhsi_lin by auto; unfold prhs; now rewrite Hrb).
    rewrite Erhs in Q, Fr. set (fv := f (nofnat x * H)%num (nofnat y * K)%num) in *.
    pose proof (rhs_error K fv g phi Fm DK Ev Fr) as E1. set (rv := real (K * K * fv)%num) in *.
    assert (Pk2 : 0 < k ^ 2) by (apply pow_lt; exact Pk). assert (Ph2 : 0 < h ^ 2) by (apply pow_lt; exact Ph).
    assert (HB : Rabs rv <= k ^ 2 * Fm + rhs_bound k Fm phi).
    { replace rv with (k ^ 2 * g + (rv - k ^ 2 * g)) by ring. eapply Rle_trans; [apply Rabs_triang|]. rewrite Rabs_mult, (Rabs_pos_eq (k ^ 2)) by lra.
      destruct Ev as (_ & _ & _ & Em). assert (k ^ 2 * Rabs g <= k ^ 2 * Fm) by (apply Rmult_le_compat_l; lra). lra. }
    specialize (Q _ HB). cbv zeta in Q. fold d in Q.
    assert (Ed : entry_of rows (lin2 XC x y) (lin2 XC x y) = norm0 (fdm_C H K)).
    { unfold entry_of. f_equal. apply look_in; [now apply Hnd|]. rewrite Erow. unfold prow. rewrite Hrb. cbn [In]. auto. }
    rewrite Ed, norm0_real in Q. fold c in Q.
    unfold abs_row, row_app in Q. rewrite Erow in Q. unfold prow in Q. rewrite Hrb in Q.
    cbn [fold_right fst snd length Nat.add] in Q. fold r2 c in Q. rewrite R1, Rabs_R1 in Q. unfold on_rim in Hrm.
    assert (X1 : (lin2 XC (x - 1) y < lin2 XC x y)%nat) by (unfold lin2; lia).
    assert (X2 : (lin2 XC x y < lin2 XC (x + 1) y)%nat) by (unfold lin2; lia).
    assert (X3 : (lin2 XC x (y - 1) < lin2 XC x y)%nat) by (unfold lin2; nia).
    assert (X4 : (lin2 XC x y < lin2 XC x (y + 1))%nat) by (unfold lin2; nia).
    rewrite Nat.ltb_irrefl, Nat.eqb_refl in Q.
    rewrite (proj2 (Nat.ltb_ge _ _) (Nat.lt_le_incl _ _ X1)), (proj2 (Nat.ltb_ge _ _) (Nat.lt_le_incl _ _ X3)), (proj2 (Nat.ltb_lt _ _) X2), (proj2 (Nat.ltb_lt _ _) X4) in Q.
    rewrite (proj2 (Nat.eqb_neq _ _) (Nat.lt_neq _ _ X1)), (proj2 (Nat.eqb_neq _ _) (Nat.lt_neq _ _ X3)),
      (proj2 (Nat.eqb_neq _ _) (not_eq_sym (Nat.lt_neq _ _ X2))), (proj2 (Nat.eqb_neq _ _) (not_eq_sym (Nat.lt_neq _ _ X4))) in Q. cbn [negb] in Q.
    fold (v (x - 1)%nat y) (v x y) (v (x + 1)%nat y) (v x (y - 1)%nat) (v x (y + 1)%nat) in Q.
    match type of Q with Rabs (rv - ?s) <= _ => set (S := s) in Q end.
    match type of Q with _ <= (?p + relax_bound ?m ?a ?b0 ?c0 ?t) / ?q => replace p with (d * (Rabs (1 - real w) * Rabs c + Rabs (real w) * (Rabs r2 + 1))) in Q by ring;
      replace t with (k ^ 2 * Fm + rhs_bound k Fm phi + (2 * Rabs r2 + 2) * (Y + d)) in Q by ring end.
    assert (Hv' : forall x y, (x < XC)%nat -> (y < YC)%nat -> Rabs (v x y) <= Y) by (intros x' y' Hx' Hy'; apply HT'; now apply lin2_lt).
    assert (V1 := Hv' (x - 1)%nat y ltac:(lia) Hy). assert (V2 := Hv' x y Hx Hy). assert (V3 := Hv' (x + 1)%nat y ltac:(lia) Hy).
    set (q2 := k ^ 2 / h ^ 2) in *.
    assert (EL : k ^ 2 * @laplace NumR h k v x y = S - (r2 - q2) * (v (x - 1)%nat y) - (r2 - q2) * (v (x + 1)%nat y) - (c + 2 * (1 + q2)) * v x y).
    { unfold S, q2, laplace, diff2. cbn [NumR nadd nsub nmul ndiv n1 T]. field. split; lra. }
    assert (T3 : forall p z, Rabs z <= Y -> Rabs (p * z) <= Rabs p * Y) by (intros p z Hz; rewrite Rabs_mult; apply Rmult_le_compat_l; [apply Rabs_pos|auto]).
    apply Rmult_le_reg_l with (k ^ 2); auto. replace (k ^ 2 * (inn / k ^ 2)) with inn by (field; lra).
    rewrite <- (Rabs_pos_eq (k ^ 2)) at 1 by lra. rewrite <- Rabs_mult, Rmult_minus_distr_l, EL.
    pose proof (T3 (r2 - q2) _ V1) as U1. pose proof (T3 (r2 - q2) _ V3) as U3. pose proof (T3 (c + 2 * (1 + q2)) _ V2) as U2.
    set (A1 := (r2 - q2) * v (x - 1)%nat y) in *. set (A3 := (r2 - q2) * v (x + 1)%nat y) in *. set (A2 := (c + 2 * (1 + q2)) * v x y) in *.
    replace (S - A1 - A3 - A2 - k ^ 2 * g) with (- (rv - S) + ((rv - k ^ 2 * g) + (- A1 + (- A3 + - A2)))) by ring.
    pose proof (Rabs_triang (- A3) (- A2)) as Z1. pose proof (Rabs_triang (- A1) (- A3 + - A2)) as Z2.
    pose proof (Rabs_triang (rv - k ^ 2 * g) (- A1 + (- A3 + - A2))) as Z3.
    pose proof (Rabs_triang (- (rv - S)) ((rv - k ^ 2 * g) + (- A1 + (- A3 + - A2)))) as Z4.
    rewrite !Rabs_Ropp in *. unfold inn, fdm_inner. fold q2. lra. }
  pose proof (poisson_stable NumR_ord NumR_nat XC YC h k ltac:(cbn; lra) ltac:(cbn; lra) v (fun x y => u (INR x * h) (INR y * k))
    (fdm_rim d (real w) Y Gm psi) (inn / k ^ 2 + (Mx * h ^ 2 + My * k ^ 2) / 12)) as St.
  cbn [nleb NumR nabs nsub n0 T] in St. setoid_rewrite Rle_bool_iff in St.
  assert (Pos : 0 <= inn / k ^ 2 + (Mx * h ^ 2 + My * k ^ 2) / 12).
  { assert (Hn : ~ on_rim XC YC 1 1) by (unfold on_rim; lia). pose proof (Inn 1%nat 1%nat ltac:(lia) ltac:(lia) Hn) as I1.
    pose proof (Rabs_pos (@laplace NumR h k v 1 1 - F (INR 1 * h) (INR 1 * k))) as I2.
    destruct Hpde as (uxx & uyy & Sx & Sy & _).
    pose proof (grid_le XC x h Hx Ph) as Gx. pose proof (grid_le YC y k Hy Pk) as Gy.
    assert (Mxp : 0 <= Mx) by (apply (smooth4_nonneg _ _ _ _ _ (Rle_trans _ _ _ (proj1 Gx) (proj2 Gx)) (Sx _ Gy))).
    assert (Myp : 0 <= My) by (apply (smooth4_nonneg _ _ _ _ _ (Rle_trans _ _ _ (proj1 Gy) (proj2 Gy)) (Sy _ Gx))).
    pose proof (Rmult_le_pos _ _ Mxp (pow2_ge_0 h)). pose proof (Rmult_le_pos _ _ Myp (pow2_ge_0 k)). lra. }
  assert (A2 : forall x y, (x < XC)%nat -> (y < YC)%nat -> ~ on_rim XC YC x y ->
    Rabs (@laplace NumR h k v x y - @laplace NumR h k (fun x y => u (INR x * h) (INR y * k)) x y) <= inn / k ^ 2 + (Mx * h ^ 2 + My * k ^ 2) / 12).
  { intros x' y' Hx' Hy' Hrm. pose proof (Inn x' y' Hx' Hy' Hrm) as I1. destruct Hpde as (uxx & uyy & Sx & Sy & Eq & _).
    pose proof (laplace_error XC YC h k Mx My u uxx uyy x' y' Ph Pk Hx' Hy' Hrm (Sx _ (grid_le YC y' k Hy' Pk)) (Sy _ (grid_le XC x' h Hx' Ph))) as E1.
    unfold on_rim in Hrm. rewrite Eq in E1 by (apply grid_lt; auto; lia).
    set (l1 := @laplace NumR h k v x' y') in *. set (l2 := @laplace NumR h k (fun x y => u (INR x * h) (INR y * k)) x' y') in *. set (g := F (INR x' * h) (INR y' * k)) in *.
    replace (l1 - l2) with ((l1 - g) + (g - l2)) by ring. eapply Rle_trans; [apply Rabs_triang|]. rewrite (Rabs_minus_sym g l2).
    replace ((Mx * h ^ 2 + My * k ^ 2) / 12) with ((Mx * (h * h) + My * (k * k)) / 12) by field. lra. }
  specialize (St Rim A2 Pos x y Hx Hy).
  unfold bubble in St. cbn [nleb NumR nabs nsub n0 n1 T nadd nmul ndiv nofnat] in St.
  eapply Rle_trans; [exact St|]. right. unfold X, W. field. lra.
Qed.
End PoissonFloat.

(** ** Equal steps *)
Lemma grown m : 0 <= (1 + u64) ^ m - 1.
Proof. assert (1 <= (1 + u64) ^ m) by (apply pow_R1_Rle; pose proof u64_pos; lra). lra. Qed.
Lemma relax_nonneg m w0 d x t : 0 <= x -> 0 <= t -> 0 <= relax_bound m w0 d x t.
Proof.
  intros Px Pt. unfold relax_bound, row_bound. pose proof u64_pos as U. pose proof eta64_pos as V. pose proof (grown 3). pose proof (grown m).
  pose proof (Rabs_pos d). pose proof (Rabs_pos w0). pose proof (Rabs_pos (1 - w0)). pose proof (pos_INR m).
  assert (0 <= (1 + u64) ^ m) by lra.
  apply Rplus_le_le_0_compat; [apply Rplus_le_le_0_compat|].
  - apply Rmult_le_pos; auto. apply Rmult_le_pos; auto. now apply Rmult_le_pos.
  - apply Rmult_le_pos; auto. apply Rplus_le_le_0_compat; [now apply Rmult_le_pos|]. apply Rmult_le_pos; [|lra]. apply Rmult_le_pos; lra.
  - apply Rmult_le_pos; [|lra]. apply Rmult_le_pos; lra.
Qed.
Lemma rhs_nonneg k0 Fm0 phi0 : 0 <= Fm0 -> 0 <= phi0 -> 0 <= rhs_bound k0 Fm0 phi0.
Proof.
  intros P1 P2. unfold rhs_bound. pose proof u64_pos as U. pose proof eta64_pos as V. pose proof (grown 2). pose proof (pow2_ge_0 k0).
  assert (0 <= (1 + u64) ^ 2) by lra.
  repeat apply Rplus_le_le_0_compat; try lra.
  - apply Rmult_le_pos; auto. now apply Rmult_le_pos.
  - apply Rmult_le_pos; auto. now apply Rmult_le_pos.
  - apply Rmult_le_pos; [|lra]. apply Rmult_le_pos; lra.
Qed.
Lemma square_coefficients (K : NumF64) : double K -> finite (fdm_R2 K K) -> real (fdm_R2 K K) = 1 /\ finite (fdm_C K K) /\ real (fdm_C K K) = - 4.
Proof.
  intros DK F2. unfold fdm_C. set (q := fdm_R2 K K) in *.
  assert (DKK : double (K * K)%num) by now apply mul_double.
  assert (Dq : double q) by (unfold q, fdm_R2; now apply div_double).
  destruct (div_finite_args _ _ DKK F2) as [FK N0]. specialize (N0 FK).
  assert (I1 : is_int q 1).
  { split; [exact Dq|]. split; [exact F2|]. unfold q, fdm_R2. rewrite (div_real _ _ DKK DKK FK F2).
    replace (real (K * K)%num / real (K * K)%num) with (IZR 1) by (field; exact N0). apply rnd_id. apply int_format. lia. }
  assert (In1 : is_int (n1 : NumF64) 1) by (split; [reflexivity|]; split; [exact Logic.I|exact real_n1]).
  assert (I2 : is_int (- (n1 + n1) : NumF64)%num (-2)).
  { replace (- (n1 + n1) : NumF64)%num with (n0 - (n1 + n1) : NumF64)%num by reflexivity.
    apply (int_sub n0 (n1 + n1)%num 0 2); [apply int_zero| |lia]. now apply (int_add n1 n1 1 1). }
  assert (I3 : is_int (- (n1 + n1) * (n1 + q))%num (-2 * (1 + 1))).
  { apply int_mul; auto; [|lia]. apply int_add; auto; lia. }
  destruct I3 as (_ & I3 & E3). destruct I1 as (_ & _ & E1). repeat split; auto. 
Qed.

Lemma poisson_float_square XC YC (K w eps : NumF64) (f b : NumF64 -> NumF64 -> NumF64) (F G u : R -> R -> R) (Mx My phi psi Fm Gm : R) :
  (2 < XC)%nat -> (2 < YC)%nat -> (Z.of_nat (XC * YC) < 2 ^ 53)%Z ->
  double K -> finite K -> 0 < real K -> finite (fdm_R2 K K) ->
  double w -> real w <> 0 -> double eps -> finite eps -> Rabs (real eps) <= powerRZ 2 500 ->
  let k := real K in let W := INR (XC - 1) * k in
  poisson_pde W (INR (YC - 1) * k) Mx My F G u ->
  (forall x y, (x < XC)%nat -> (y < YC)%nat -> on_rim XC YC x y ->
     evaluates (b (nofnat x * K)%num (nofnat y * K)%num) (G (INR x * k) (INR y * k)) psi Gm) ->
  (forall x y, (x < XC)%nat -> (y < YC)%nat -> ~ on_rim XC YC x y ->
     evaluates (f (nofnat x * K)%num (nofnat y * K)%num) (F (INR x * k) (INR y * k)) phi Fm) ->
  forall maxIter lines it, fdm_main XC YC K K f b w maxIter eps = Ok (lines, it) -> (it < maxIter)%nat -> (1 < it)%nat \/ real w = 1 ->
  exists lines', fdm_main XC YC K K f b w (it - 1) eps = Ok (lines', (it - 1)%nat) /\
  forall Y, grid_tame XC YC (table2 lines') (table2 lines) Y -> forall x y, (x < XC)%nat -> (y < YC)%nat ->
    let d := step_bound (real eps) in let rho := rhs_bound k Fm phi in
    Rabs (real (table2 lines x y) - u (INR x * k) (INR y * k)) <=
      fdm_rim d (real w) Y Gm psi
      + (((d * (4 * Rabs (1 - real w) + 2 * Rabs (real w)) + relax_bound 9 (real w) 4 (Y + d) (k ^ 2 * Fm + rho + 4 * (Y + d))) / Rabs (real w) + rho) / k ^ 2
         + (Mx + My) * k ^ 2 / 12) * (W ^ 2 / 8).
Proof.
  intros PX PY HD DK FK Pk F2 Dw W0 De Fe He k W Hp Hb Hf maxIter lines it E Hit Hw. fold k in Pk.
  destruct (square_coefficients K DK F2) as (E2 & FC & EC).
  destruct (poisson_float XC YC K K w eps f b F G u Mx My phi psi Fm Gm PX PY HD DK FK Pk DK FK Pk F2 FC Dw W0 De Fe He Hp Hb Hf maxIter lines it E Hit Hw) as (lines' & El & Q).
  exists lines'. split; auto. intros Y HT x y Hx Hy d rho. specialize (Q Y HT x y Hx Hy). cbv zeta in Q. rewrite E2, EC in Q. fold k in Q. fold W in Q.
  eapply Rle_trans; [exact Q|]. apply Rplus_le_compat_l.
  assert (Pk2 : 0 < k ^ 2) by now apply pow_lt.
  assert (R4 : forall m x t, relax_bound m (real w) (- (4)) x t = relax_bound m (real w) 4 x t).
  { intros m x0 t. unfold relax_bound, row_bound. now rewrite Rabs_Ropp. }
  assert (Ei : fdm_inner d (real w) Y k k 1 (- (4)) Fm phi = (d * (4 * Rabs (1 - real w) + 2 * Rabs (real w)) + relax_bound 9 (real w) 4 (Y + d) (k ^ 2 * Fm + rho + 4 * (Y + d))) / Rabs (real w) + rho).
  { unfold fdm_inner. fold rho. rewrite R4. replace (k ^ 2 / k ^ 2) with 1 by (field; lra).
    replace (1 - 1) with 0 by ring. replace (- (4) + 2 * (1 + 1)) with 0 by ring. rewrite Rabs_R0, Rabs_Ropp, Rabs_R1, (Rabs_pos_eq 4) by lra.
    replace ((2 * 1 + 2) * (Y + d)) with (4 * (Y + d)) by ring.
    replace (d * (Rabs (1 - real w) * 4 + Rabs (real w) * (1 + 1))) with (d * (4 * Rabs (1 - real w) + 2 * Rabs (real w))) by ring. lra. }
  fold d. change (-4) with (- (4)). rewrite Ei. replace (Mx * k ^ 2 + My * k ^ 2) with ((Mx + My) * k ^ 2) by ring.
  set (Z := (_ + rho) / k ^ 2 + _).
  assert (PZ : 0 <= Z).
  { assert (Hn : ~ on_rim XC YC 1 1) by (unfold on_rim; lia). pose proof (Hf 1%nat 1%nat ltac:(lia) ltac:(lia) Hn) as (_ & _ & P1 & P2).
    assert (Pphi : 0 <= phi) by (eapply Rle_trans; [apply Rabs_pos|exact P1]). assert (PFm : 0 <= Fm) by (eapply Rle_trans; [apply Rabs_pos|exact P2]).
    assert (PY' : 0 <= Y) by (destruct (HT x y Hx Hy) as (_ & _ & _ & P3); eapply Rle_trans; [apply Rabs_pos|exact P3]).
    assert (Pd : 0 <= d) by apply step_nonneg. assert (Pr : 0 <= rho) by now apply rhs_nonneg.
    destruct (poisson_pde_nonneg _ _ _ _ _ _ _ _ _ (proj1 (grid_le XC x k Hx Pk)) (proj2 (grid_le XC x k Hx Pk)) (proj1 (grid_le YC y k Hy Pk)) (proj2 (grid_le YC y k Hy Pk)) Hp) as [Mxp Myp].
    assert (Wp : 0 < Rabs (real w)) by now apply Rabs_pos_lt. pose proof (Rabs_pos (1 - real w)).
    assert (PkF : 0 <= k ^ 2 * Fm) by (apply Rmult_le_pos; lra).
    assert (D0 : forall a c, 0 <= a -> 0 < c -> 0 <= a / c) by (intros a c Ha Hc; apply Rmult_le_pos; auto; left; now apply Rinv_0_lt_compat).
    unfold Z. apply Rplus_le_le_0_compat.
    - apply D0; auto. apply Rplus_le_le_0_compat; auto. apply D0; auto. apply Rplus_le_le_0_compat; [apply Rmult_le_pos; lra|]. apply relax_nonneg; lra.
    - apply D0; [|lra]. apply Rmult_le_pos; lra. }
  apply Rmult_le_compat_l; auto. set (X := INR x * k). pose proof (pow2_ge_0 (W - 2 * X)) as S. lra.
Qed.
