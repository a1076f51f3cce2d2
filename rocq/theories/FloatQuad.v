(** Proofs about quadrature on doubles. *)
From Coq Require Import List Arith Bool ZArith Reals Lia Lra SpecFloat.
From Coquelicot Require Import Coquelicot.
From Flocq Require Import Core.
From Verif Require Import Base BaseProofs Num NumInst OrdField Spec ShapeSpec QuadModel QuadSpec QuadProofs QuadError FloatSpec F64Flocq FloatProofs FloatResult.
Import ListNotations.
Local Open Scope R_scope.

(** ** decimal literals *)
Lemma one_int : is_int (n1 : NumF64) 1.
Proof. split; [reflexivity|]. split; [exact I|]. unfold real. cbn -[powerRZ]. change 2 with (IZR radix2). rewrite <- bpow_powerRZ. cbn. lra. Qed.
Lemma nofpos_int p : (Zpos p <= 2 ^ 53)%Z -> is_int (@nofpos NumF64 p) (Zpos p).
Proof.
  induction p as [p IH|p IH|]; intros H; cbn [nofpos].
  - assert (I : is_int (@nofpos NumF64 p) (Zpos p)) by (apply IH; lia). rewrite (Pos2Z.inj_xI p). replace (2 * Zpos p + 1)%Z with (Zpos p + Zpos p + 1)%Z by lia.
    apply int_add; [apply int_add; auto; lia|exact one_int|lia].
  - assert (I : is_int (@nofpos NumF64 p) (Zpos p)) by (apply IH; lia). rewrite (Pos2Z.inj_xO p). replace (2 * Zpos p)%Z with (Zpos p + Zpos p)%Z by lia.
    apply int_add; auto; lia.
  - exact one_int.
Qed.
Lemma pow10_pos k : (0 < 10 ^ Z.of_nat k)%Z.
Proof. apply Z.pow_pos_nonneg; lia. Qed.
Lemma pow10_le j k : (j <= k)%nat -> (10 ^ Z.of_nat j <= 10 ^ Z.of_nat k)%Z.
Proof. intros H. apply Z.pow_le_mono_r; lia. Qed.
Lemma ten_int k : (k <= 15)%nat -> is_int (@ten NumF64 k) (10 ^ Z.of_nat k).
Proof.
  induction k as [|k IH]; intros H; cbn [ten]; [exact one_int|]. rewrite Nat2Z.inj_succ, Z.pow_succ_r by lia.
  apply int_mul; [apply nofpos_int; discriminate|apply IH; lia|].
  pose proof (pow10_le (S k) 15 H) as E. rewrite Nat2Z.inj_succ, Z.pow_succ_r in E by lia. pose proof (pow10_pos k). change (10 ^ Z.of_nat 15)%Z with 1000000000000000%Z in E. change (2 ^ 53)%Z with 9007199254740992%Z. rewrite Z.abs_eq by lia. lia.
Qed.
Lemma real_opp (x : NumF64) : double x -> finite x -> double (- x)%num /\ finite (- x)%num /\ real (- x)%num = - real x.
Proof.
  intros D F. destruct x as [s|s| |s m e]; cbn in F; try contradiction.
  - repeat split; cbn; lra.
  - split; [exact D|]. split; [exact I|]. destruct s; unfold real; cbn [nopp NumF64 SFopp negb]; change (IZR (Zneg m)) with (- IZR (Zpos m)); ring.
Qed.
Theorem literal z k : (Z.abs z <= 2 ^ 53)%Z -> (k <= 15)%nat ->
  finite (@dec NumF64 z k) /\ nearest (@dec NumF64 z k) (IZR z / 10 ^ k).
Proof.
  intros Hz Hk. destruct (ten_int k Hk) as (Dt & Ft & Rt).
  assert (E10 : IZR (10 ^ Z.of_nat k) = 10 ^ k) by (rewrite <- pow_IZR; reflexivity).
  assert (P10 : 1 <= 10 ^ k) by (apply pow_R1_Rle; lra).
  assert (Q : forall p, (Zpos p <= 2 ^ 53)%Z -> double (@nofpos NumF64 p / ten k)%num /\ finite (@nofpos NumF64 p / ten k)%num /\ real (@nofpos NumF64 p / ten k)%num = rnd (IZR (Zpos p) / 10 ^ k)).
  { intros p Hp. destruct (nofpos_int p Hp) as (Dp & Fp & Rp).
    assert (G : finite (@nofpos NumF64 p / ten k)%num).
    { apply div_finite; auto; [rewrite Rt, E10; lra|]. rewrite Rt, Rp, E10.
      destruct (rnd_any (IZR (Zpos p) / 10 ^ k)) as (d & e & Hd & He & ->).
      assert (B : 0 <= IZR (Zpos p) / 10 ^ k <= IZR (2 ^ 53)).
      { split; [apply Rmult_le_pos; [apply IZR_le; lia|left; apply Rinv_0_lt_compat; lra]|].
        apply Rle_trans with (IZR (Zpos p)); [|apply IZR_le; lia]. rewrite <- (Rdiv_1 (IZR (Zpos p))) at 2.
        apply Rmult_le_compat_l; [apply IZR_le; lia|]. apply Rinv_le; lra. }
      assert (U : u64 <= 1) by (rewrite u64_bpow; cbn; lra). assert (V : eta64 <= 1). { rewrite eta64_bpow. pose proof (bpow_le radix2 (-1074) 0 ltac:(lia)) as W. cbn in W. cbn. lra. }
      set (q := IZR (Zpos p) / 10 ^ k) in *. apply Rle_lt_trans with (IZR (2 ^ 53) * 2 + 1).
      - eapply Rle_trans; [apply Rabs_triang|]. rewrite Rabs_mult, (Rabs_pos_eq q) by lra. apply Rplus_le_compat; [|lra].
        apply Rmult_le_compat; try lra; [apply Rabs_pos|]. eapply Rle_trans; [apply Rabs_triang|]. rewrite Rabs_R1. lra.
      - apply Rlt_le_trans with (bpow radix2 55); [cbn; lra|apply bpow_le; lia]. }
    split; [now apply div_double|]. split; [exact G|]. rewrite div_real by auto. now rewrite Rt, Rp, E10. }
  destruct z as [|p|p]; unfold dec.
  - split; [exact I|]. apply nearest_rnd; [reflexivity|]. rewrite real_zero. unfold Rdiv. rewrite Rmult_0_l. symmetry. apply rnd_id, generic_format_0.
  - destruct (Q p ltac:(lia)) as (A & B & C). split; auto. apply nearest_rnd; auto.
  - destruct (Q p ltac:(lia)) as (A & B & C). destruct (real_opp _ A B) as (A' & B' & C'). split; auto. apply nearest_rnd; auto.
    rewrite C', C. change (IZR (Zneg p)) with (- IZR (Zpos p)). unfold Rdiv. rewrite Ropp_mult_distr_l_reverse. symmetry. apply round_NE_opp.
Qed.

(** ** the tables *)
(** x is a double within one unit roundoff of r. *)
Definition around (x : NumF64) (r : R) : Prop := double x /\ finite x /\ Rabs (real x - r) <= u64 * Rabs r.
Definition near (x : NumF64) (z : Z) (k : nat) : bool :=
  match (x : spec_float) with
  | S754_zero _ => (z =? 0)%Z
  | S754_finite s m e => (e <? 0)%Z && valid_binary prec64 emax64 x &&
      (Z.abs ((if s then Zneg m else Zpos m) * 10 ^ Z.of_nat k - z * 2 ^ (- e)) * 2 ^ 53 <=? Z.abs z * 2 ^ (- e))%Z
  | _ => false
  end.
Lemma u64_inv : u64 = / IZR (2 ^ 53).
Proof. rewrite u64_bpow. cbn. lra. Qed.
Lemma near_ok x z k r : near x z k = true -> r = IZR z / 10 ^ k -> around x r.
Proof.
  intros H ->. unfold near in H. assert (E10 : IZR (10 ^ Z.of_nat k) = 10 ^ k) by (rewrite <- pow_IZR; reflexivity).
  assert (P10 : 0 < 10 ^ k) by (apply pow_lt; lra).
  destruct x as [s|s| |s m e]; try discriminate.
  - apply Z.eqb_eq in H. subst. repeat split. unfold real, Rdiv. rewrite Rmult_0_l, Rminus_diag_eq, Rabs_R0 by reflexivity. lra.
  - apply andb_prop in H. destruct H as [H H3]. apply andb_prop in H. destruct H as [H1 H2]. apply Z.ltb_lt in H1. apply Z.leb_le in H3.
    split; [exact H2|]. split; [exact I|]. unfold real. set (a := if s then Zneg m else Zpos m) in *.
    assert (E2 : powerRZ 2 e = / IZR (2 ^ (- e))).
    { change 2 with (IZR radix2). rewrite <- bpow_powerRZ. replace e with (- - e)%Z at 1 by lia. rewrite bpow_opp. f_equal. symmetry. apply (IZR_Zpower radix2). lia. }
    rewrite E2, u64_inv. assert (P2 : 0 < IZR (2 ^ (- e))) by (apply IZR_lt, Z.pow_pos_nonneg; lia).
    apply IZR_le in H3. rewrite !mult_IZR, abs_IZR, minus_IZR, !mult_IZR, E10, abs_IZR in H3.
    set (B := IZR (2 ^ (- e))) in *. set (A := 10 ^ k) in *.
    assert (P53 : 0 < IZR (2 ^ 53)) by (apply IZR_lt; reflexivity). set (C := IZR (2 ^ 53)) in *.
    replace (IZR a * / B - IZR z / A) with ((IZR a * A - IZR z * B) * / (A * B)) by (field; lra).
    assert (PI : 0 < / (A * B)) by (apply Rinv_0_lt_compat; nra).
    unfold Rdiv. rewrite !Rabs_mult, (Rabs_pos_eq (/ (A * B))), (Rabs_pos_eq (/ A)) by (left; auto; now apply Rinv_0_lt_compat).
    apply Rmult_le_reg_r with (C * (A * B)); [apply Rmult_lt_0_compat; [exact P53|apply Rmult_lt_0_compat; [exact P10|exact P2]]|].
    replace (Rabs (IZR a * A - IZR z * B) * / (A * B) * (C * (A * B))) with (Rabs (IZR a * A - IZR z * B) * C) by (field; lra).
    replace (/ C * (Rabs (IZR z) * / A) * (C * (A * B))) with (Rabs (IZR z) * B) by (field; lra). exact H3.
Qed.
Ltac onear := match goal with
  | |- around (dec ?z ?k) _ => apply (near_ok _ z k); [vm_compute; reflexivity|apply decR]
  | |- around n0 _ => apply (near_ok _ 0 0); [vm_compute; reflexivity|opsQ; lra]
  | |- around (dec ?z ?k * unit_volume 1)%num _ => apply (near_ok _ z k); [vm_compute; reflexivity|opsQ; lra]
  | |- around (dec ?z ?k * unit_volume 2)%num _ => let z' := eval compute in (5 * z)%Z in apply (near_ok _ z' (S k)); [vm_compute; reflexivity|opsQ; lra]
  | |- around (n1 * unit_volume 1)%num _ => apply (near_ok _ 1 0); [vm_compute; reflexivity|opsQ; lra]
  | |- around (n1 * unit_volume 2)%num _ => apply (near_ok _ 5 1); [vm_compute; reflexivity|opsQ; lra]
  end.
Lemma points_close k o : In (k, o) rules -> Forall2 (Forall2 around) (@gl_points NumF64 k o) (@gl_points NumR k o).
Proof. intros H. caseR H; unfold gl_points; cbn [gl_table fst]; repeat (constructor; [repeat (constructor; [onear|]); constructor|]); constructor. Qed.
Lemma weights_close k o : In (k, o) rules -> Forall2 around (@nweights NumF64 k o) (@nweights NumR k o).
Proof. intros H. caseR H; unfold nweights; cbn [gl_table snd map]; repeat (constructor; [onear|]); constructor. Qed.

(** ** the evaluation loop *)
Section Loop.
Context {N : Num}.
Definition term (k o : nat) (f : list N -> N) (i : nat) : N := (nth i (nweights k o) n0 * f (nth i (gl_points k o) []))%num.
Lemma eval_terms k o (f : list N -> N) : In (k, o) rules ->
  q_eval k o (fun p => Ok (f p)) n0 = Ok (fold_left (fun s i => (s + term k o f i)%num) (seq 0 (length (@gl_points N k o))) n0).
Proof. intros H. caseR H; reflexivity. Qed.
End Loop.
Lemma points_count k o : In (k, o) rules -> length (@gl_points NumF64 k o) = length (@gl_points NumR k o) /\ (length (@gl_points NumR k o) <= 4)%nat /\ length (@nweights NumR k o) = length (@gl_points NumR k o).
Proof. intros H. caseR H; cbn; auto with arith. Qed.
Lemma fold_rlist {A} (l : list A) (f : A -> R) : forall s, fold_left (fun s i => s + f i) l s = s + rlist l f.
Proof. induction l as [|i l IH]; intros s; cbn [fold_left rlist]; [lra|]. rewrite IH. ring. Qed.
Lemma Forall2_nth_ {A B} (P : A -> B -> Prop) l k i a b : Forall2 P l k -> (i < length k)%nat -> P (nth i l a) (nth i k b).
Proof. intros H. revert i. induction H as [|x y l k Hx H IH]; intros i Hi; cbn in *; [lia|]. destruct i as [|i]; auto. apply IH. lia. Qed.
Lemma abs_sum_rlist (ws : list R) : abs_sum ws = rlist (seq 0 (length ws)) (fun i => Rabs (nth i ws 0)).
Proof.
  assert (G : forall j, rlist (seq j (length ws)) (fun i => Rabs (nth (i - j) ws 0)) = abs_sum ws).
  { induction ws as [|w ws IH]; intros j; cbn [length seq rlist abs_sum fold_right]; [reflexivity|]. rewrite Nat.sub_diag. cbn [nth]. f_equal. fold (abs_sum ws).
    rewrite <- (IH (S j)). apply rlist_ext. intros i Hi. apply in_seq in Hi. replace (i - j)%nat with (S (i - S j)) by lia. reflexivity. }
  rewrite <- (G 0%nat). apply rlist_ext. intros i _. now rewrite Nat.sub_0_r.
Qed.
Theorem eval_err k o (f : list NumF64 -> NumF64) (g : list R -> R) (e M : R) : In (k, o) rules ->
  (forall i, (i < length (@gl_points NumR k o))%nat -> double (f (nth i (@gl_points NumF64 k o) [])) /\ finite (f (nth i (@gl_points NumF64 k o) [])) /\
     Rabs (real (f (nth i (@gl_points NumF64 k o) [])) - g (nth i (@gl_points NumR k o) [])) <= e /\ Rabs (g (nth i (@gl_points NumR k o) [])) <= M) ->
  M + e <= powerRZ 2 1000 ->
  exists v (V : R), q_eval (N := NumF64) k o (fun p => Ok (f p)) n0 = Ok v /\ double v /\ finite v /\
    q_eval (N := NumR) k o (fun p => Ok (g p)) 0 = Ok V /\ Rabs (real v - V) <= 12 / 10 * e + 6 * u64 * M + 5 * eta64.
Proof.
  intros Hr Hf HM. destruct (points_count k o Hr) as (L1 & L2 & L3). set (n := length (@gl_points NumR k o)) in *.
  assert (Hn : (0 < n)%nat) by (unfold n; clear -Hr; caseR Hr; cbn; lia).
  set (w := fun i => nth i (@nweights NumF64 k o) n0). set (y := fun i => f (nth i (@gl_points NumF64 k o) [])).
  set (W := fun i => nth i (@nweights NumR k o) 0). set (Y := fun i => g (nth i (@gl_points NumR k o) [])).
  assert (Hw : forall i, (i < n)%nat -> around (w i) (W i)) by (intros i Hi; apply Forall2_nth_; [now apply weights_close|lia]).
  assert (Hy : forall i, (i < n)%nat -> double (y i) /\ finite (y i) /\ Rabs (real (y i) - Y i) <= e /\ Rabs (Y i) <= M) by (intros i Hi; exact (Hf i Hi)).
  assert (Pe : 0 <= e) by (destruct (Hy 0%nat Hn) as (_ & _ & A & _); eapply Rle_trans; [apply Rabs_pos|exact A]).
  assert (PM : 0 <= M) by (destruct (Hy 0%nat Hn) as (_ & _ & _ & A); eapply Rle_trans; [apply Rabs_pos|exact A]).
  assert (U1 : u64 <= / 1000000).
  { rewrite u64_inv. apply Rinv_le; [lra|]. apply IZR_le. apply Z.leb_le. reflexivity. }
  pose proof u64_pos as U0. pose proof eta64_pos as V0.
  assert (V1 : eta64 <= 1). { rewrite eta64_bpow. pose proof (bpow_le radix2 (-1074) 0 ltac:(lia)) as B. cbn in B. cbn. lra. }
  assert (SW : rlist (seq 0 n) (fun i => Rabs (W i)) <= 11 / 10).
  { pose proof (abs_weights k o Hr) as A. rewrite abs_sum_rlist in A. rewrite <- L3. exact A. }
  assert (Bw : forall i, (i < n)%nat -> Rabs (real (w i)) <= (1 + u64) * Rabs (W i)).
  { intros i Hi. destruct (Hw i Hi) as (_ & _ & A). replace (real (w i)) with ((real (w i) - W i) + W i) by ring. eapply Rle_trans; [apply Rabs_triang|]. lra. }
  assert (By : forall i, (i < n)%nat -> Rabs (real (y i)) <= M + e).
  { intros i Hi. destruct (Hy i Hi) as (_ & _ & A & A'). replace (real (y i)) with ((real (y i) - Y i) + Y i) by ring. eapply Rle_trans; [apply Rabs_triang|]. lra. }
  set (B := rlist (seq 0 n) (fun i => Rabs (real (w i) * real (y i)))).
  assert (HB : B <= (1 + u64) * (M + e) * (11 / 10)).
  { apply Rle_trans with ((1 + u64) * (M + e) * rlist (seq 0 n) (fun i => Rabs (W i))).
    - rewrite <- rlist_scal. apply rlist_le. intros i Hi. apply in_seq in Hi. rewrite Rabs_mult.
      replace ((1 + u64) * (M + e) * Rabs (W i)) with (((1 + u64) * Rabs (W i)) * (M + e)) by ring.
      apply Rmult_le_compat; try apply Rabs_pos; [apply Bw|apply By]; lia.
    - apply Rmult_le_compat_l; auto. apply Rmult_le_pos; lra. }
  assert (B0 : 0 <= B) by (apply rlist_pos; intros; apply Rabs_pos).
  assert (In4 : 0 <= INR n <= 4). { split; [apply pos_INR|]. replace 4 with (INR 4) by (cbn; lra). now apply le_INR. }
  assert (U2 : u64 * u64 <= u64 * / 1000000) by (apply Rmult_le_compat_l; lra).
  assert (P4 : (1 + u64) ^ n <= 1 + 401 / 100 * u64).
  { apply Rle_trans with ((1 + u64) ^ 4); [apply Rle_pow; [lra|auto]|]. replace ((1 + u64) ^ 4) with (1 + 4 * u64 + (u64 * u64) * (6 + 4 * u64 + u64 * u64)) by ring.
    assert ((u64 * u64) * (6 + 4 * u64 + u64 * u64) <= u64 * / 1000000 * 10) by (apply Rmult_le_compat; nra). lra. }
  pose proof (pow_ge_1 n) as P1.
  assert (D : forall i, In i (seq 0 n) -> double (w i) /\ finite (w i) /\ double (y i) /\ finite (y i)).
  { intros i Hi. apply in_seq in Hi. destruct (Hw i ltac:(lia)) as (A1 & A2 & _). destruct (Hy i ltac:(lia)) as (A3 & A4 & _). auto. }
  assert (F : finite (acc (seq 0 n) (fun i => (w i * y i)%num))).
  { apply dot_total; auto. rewrite seq_length. fold B.
    assert (P5 : (1 + u64) ^ (n + 1) <= 2) by (rewrite pow_add, pow_1; nra).
    assert (P5' : 0 <= (1 + u64) ^ (n + 1)) by (pose proof (pow_ge_1 (n + 1)); lra).
    assert (E0 : INR n * eta64 <= 4) by (rewrite <- (Rmult_1_r 4); apply Rmult_le_compat; lra).
    assert (E00 : 0 <= INR n * eta64) by (apply Rmult_le_pos; lra).
    assert (Z : powerRZ 2 1000 = bpow radix2 1000) by (change 2 with (IZR radix2); now rewrite <- bpow_powerRZ).
    rewrite Z in HM. assert (Z1 : 1 <= bpow radix2 1000) by (change 1 with (bpow radix2 0); apply bpow_le; lia).
    apply Rle_lt_trans with (2 * (2 * bpow radix2 1000 + 4)).
    - apply Rmult_le_compat; try lra. apply Rplus_le_compat; [|lra]. eapply Rle_trans; [exact HB|].
      apply Rle_trans with (2 * (M + e)); [|lra]. replace ((1 + u64) * (M + e) * (11 / 10)) with ((1 + u64) * (11 / 10) * (M + e)) by ring.
      apply Rmult_le_compat_r; lra.
    - replace 1024%Z with (1000 + 24)%Z by lia. rewrite bpow_plus. change (bpow radix2 24) with 16777216. lra. }
  assert (D2 : forall i, In i (seq 0 n) -> double (w i) /\ double (y i)) by (intros i Hi; destruct (D i Hi) as (A1 & A2 & A3 & A4); auto).
  destruct (dot_error (seq 0 n) w y D2 F) as (_ & E). rewrite seq_length in E. fold B in E.
  exists (acc (seq 0 n) (fun i => (w i * y i)%num)), (rlist (seq 0 n) (fun i => W i * Y i)).
  split. { rewrite (eval_terms k o f Hr), L1. reflexivity. }
  split. { apply acc_double. intros i Hi. destruct (D i Hi) as (A1 & A2 & A3 & A4). now apply mul_double. }
  split; [exact F|].
  split. { etransitivity; [exact (@eval_terms NumR k o g Hr)|]. f_equal. etransitivity; [apply (fold_rlist (seq 0 n) (fun i => W i * Y i))|]. apply Rplus_0_l. }
  assert (T3 : Rabs (rlist (seq 0 n) (fun i => real (w i) * real (y i)) - rlist (seq 0 n) (fun i => W i * Y i)) <= 11 / 10 * ((1 + u64) * e + u64 * M)).
  { rewrite <- rlist_minus. eapply Rle_trans; [apply rlist_abs|].
    apply Rle_trans with (((1 + u64) * e + u64 * M) * rlist (seq 0 n) (fun i => Rabs (W i))).
    - rewrite <- rlist_scal. apply rlist_le. intros i Hi. apply in_seq in Hi.
      replace (real (w i) * real (y i) - W i * Y i) with (real (w i) * (real (y i) - Y i) + (real (w i) - W i) * Y i) by ring.
      eapply Rle_trans; [apply Rabs_triang|]. rewrite !Rabs_mult. destruct (Hy i ltac:(lia)) as (_ & _ & A & A'). destruct (Hw i ltac:(lia)) as (_ & _ & A2).
      pose proof (Bw i ltac:(lia)) as A3.
      replace (((1 + u64) * e + u64 * M) * Rabs (W i)) with (((1 + u64) * Rabs (W i)) * e + (u64 * Rabs (W i)) * M) by ring.
      apply Rplus_le_compat; apply Rmult_le_compat; auto using Rabs_pos.
    - rewrite Rmult_comm. apply Rmult_le_compat_r; auto. assert (0 <= u64 * M) by (apply Rmult_le_pos; lra). assert (0 <= (1 + u64) * e) by (apply Rmult_le_pos; lra). lra. }
  set (v := real (acc _ _)) in *. set (s := rlist _ (fun i => real (w i) * real (y i))) in *. set (V := rlist _ (fun i => W i * Y i)) in *.
  assert (T1 : ((1 + u64) ^ n - 1) * B <= (401 / 100 * u64) * ((1 + / 1000000) * (11 / 10) * (M + e))).
  { apply Rmult_le_compat; try lra. eapply Rle_trans; [exact HB|]. replace ((1 + u64) * (M + e) * (11 / 10)) with ((1 + u64) * (11 / 10) * (M + e)) by ring. apply Rmult_le_compat_r; lra. }
  assert (T2 : INR n * (1 + u64) ^ n * eta64 <= 5 * eta64) by (apply Rmult_le_compat_r; nra).
  replace (v - V) with ((v - s) + (s - V)) by ring. eapply Rle_trans; [apply Rabs_triang|].
  assert (Q1 : u64 * e <= / 1000000 * e) by (apply Rmult_le_compat_r; lra). assert (Q2 : 0 <= u64 * M) by (apply Rmult_le_pos; lra).
  assert (Q3 : 0 <= u64 * e) by (apply Rmult_le_pos; lra).
  replace (401 / 100 * u64 * ((1 + / 1000000) * (11 / 10) * (M + e))) with (401 / 100 * (1 + / 1000000) * (11 / 10) * (u64 * M + u64 * e)) in T1 by ring.
  lra.
Qed.

(** ** polynomials *)
Lemma half : real (@dec NumF64 5 1) = 1 / 2.
Proof.
  replace (@dec NumF64 5 1) with (S754_finite false 4503599627370496 (-53) : NumF64) by (vm_compute; reflexivity).
  unfold real. change (powerRZ 2 (-53)) with u64. rewrite u64_inv. cbn. lra.
Qed.
Lemma around_bounds x r : around x r -> 0 <= r -> 0 <= real x <= r + / 1000 * r.
Proof.
  intros (_ & _ & A) Hr. rewrite (Rabs_pos_eq r) in A by auto. apply Rabs_le_inv in A. pose proof u64_pos.
  assert (U : u64 <= / 1000) by (rewrite u64_inv; apply Rinv_le; [lra|apply IZR_le; apply Z.leb_le; reflexivity]).
  assert (u64 * r <= / 1000 * r) by (apply Rmult_le_compat_r; auto). assert (0 <= / 1000 * r) by (apply Rmult_le_pos; lra). lra.
Qed.
Ltac coord z k := let H := fresh in assert (H : around (@dec NumF64 z k) (IZR z / 10 ^ k)) by (apply (near_ok _ z k); [vm_compute; reflexivity|reflexivity]);
  apply around_bounds in H; [|cbn [pow]; lra]; cbn [pow] in H.
Theorem points_simplex k o p : In (k, o) rules -> In p (@gl_points NumF64 k o) -> length p = k /\ in_simplex (map real p).
Proof.
  intros H Hp. pose proof half as Hh. unfold in_simplex. coord 211324865405187%Z 15%nat. coord 788675134594813%Z 15%nat. coord 112701665379258%Z 15%nat. coord 887298334620742%Z 15%nat.
  coord 333333333333333%Z 15%nat. coord 2%Z 1%nat. coord 6%Z 1%nat. pose proof real_zero as Hz.
  caseR H; unfold gl_points in Hp; cbn [gl_table fst In] in Hp; repeat (destruct Hp as [<-|Hp]; [|]); try destruct Hp;
  (split; [reflexivity|]); (split; [cbn [map]; repeat (apply List.Forall_cons; [lra|]); apply List.Forall_nil|cbn [map fold_right]; lra]).
Qed.
Lemma simplex_abs p : in_simplex p -> List.Forall (fun a => Rabs a <= 1) p.
Proof.
  intros [P S]. assert (G : List.Forall (fun a => Rabs a <= fold_right Rplus 0 p) p /\ 0 <= fold_right Rplus 0 p).
  { clear S. induction P as [|a p Ha P IH]; cbn [fold_right]; [split; [constructor|lra]|]. destruct IH as [I1 I2]. split; [|lra]. constructor.
    - rewrite Rabs_pos_eq by auto. lra.
    - eapply Forall_impl; [|exact I1]. cbn. intros; lra. }
  destruct G as [G _]. eapply Forall_impl; [|exact G]. cbn. intros; lra.
Qed.
Definition closeR (x y : R) : Prop := Rabs (x - y) <= u64 /\ Rabs x <= 1 /\ Rabs y <= 1.
Lemma pow_abs1 x n : Rabs x <= 1 -> Rabs (x ^ n) <= 1.
Proof. intros H. rewrite <- RPow_abs, <- (pow1 n). apply pow_incr. split; auto. apply Rabs_pos. Qed.
Lemma mul_close a b c d s t : Rabs (a - b) <= s -> Rabs (c - d) <= t -> Rabs b <= 1 -> Rabs c <= 1 -> Rabs (a * c - b * d) <= s + t.
Proof.
  intros H1 H2 H3 H4. replace (a * c - b * d) with ((a - b) * c + b * (c - d)) by ring. eapply Rle_trans; [apply Rabs_triang|]. rewrite !Rabs_mult.
  assert (Rabs (a - b) * Rabs c <= s * 1) by (apply Rmult_le_compat; auto using Rabs_pos).
  assert (Rabs b * Rabs (c - d) <= 1 * t) by (apply Rmult_le_compat; auto using Rabs_pos). lra.
Qed.
Lemma pow_close x y n : closeR x y -> Rabs (x ^ n - y ^ n) <= INR n * u64.
Proof.
  intros (A & B & C). induction n as [|n IH]; [cbn; rewrite Rminus_diag_eq, Rabs_R0 by reflexivity; lra|]. rewrite S_INR. cbn [pow].
  eapply Rle_trans; [apply mul_close; [exact A|exact IH|exact C|now apply pow_abs1]|]. lra.
Qed.
Lemma mono_bound es : forall p, List.Forall (fun a => Rabs a <= 1) p -> Rabs (@monomial NumR es p) <= 1.
Proof.
  induction es as [|e es IH]; intros [|a p] H; cbn [monomial]; cbn [n1 nmul NumR]; try (rewrite Rabs_R1; lra). inversion H; subst.
  rewrite Rabs_mult, npowR. specialize (IH p H3). pose proof (pow_abs1 a e H2). replace 1 with (1 * 1) by ring. apply Rmult_le_compat; auto using Rabs_pos.
Qed.
Lemma mono_close es : forall p q, Forall2 closeR p q -> Rabs (@monomial NumR es p - @monomial NumR es q) <= INR (fold_right Nat.add 0%nat es) * u64.
Proof.
  pose proof u64_pos as U. induction es as [|e es IH]; intros p q H.
  - destruct H; cbn; rewrite Rminus_diag_eq, Rabs_R0 by reflexivity; lra.
  - destruct H as [|a b p q Hab H].
    + cbn [monomial]. rewrite Rminus_diag_eq, Rabs_R0 by reflexivity. apply Rmult_le_pos; [apply pos_INR|lra].
    + cbn [monomial fold_right]. rewrite plus_INR. cbn [nmul NumR]. rewrite !npowR. eapply Rle_trans; [apply mul_close; [now apply pow_close|now apply IH|apply pow_abs1; exact (proj2 (proj2 Hab))|]|].
      * apply mono_bound. clear -H. induction H as [|x y p q Hx H IH]; constructor; auto. exact (proj1 (proj2 Hx)).
      * lra.
Qed.
Lemma exponents_small k o : In (k, o) rules -> List.Forall (fun es => (fold_right Nat.add 0%nat es <= 5)%nat) (exponents k (degree k o)).
Proof. intros H. caseR H; cbn [degree Nat.mul Nat.add Nat.sub exponents seq flat_map map app]; repeat constructor. Qed.
Lemma poly_bound (l : list (list nat)) (p : list R) : List.Forall (fun a => Rabs a <= 1) p -> forall c : list R,
  Rabs (fold_right (fun t s => (fst t * @monomial NumR (snd t) p + s)%num) (n0 : NumR) (combine c l)) <= abs_total c.
Proof.
  intros Hp. induction l as [|es l IH]; intros [|a c]; cbn [combine fold_right abs_total]; cbn [n0 NumR]; try (rewrite Rabs_R0; try lra).
  - fold (abs_total c). pose proof (Rabs_pos a). assert (0 <= abs_total c) by (clear; induction c as [|x c IH]; cbn [abs_total fold_right]; [lra|]; fold (abs_total c); pose proof (Rabs_pos x); lra). lra.
  - fold (abs_total c). cbn [fst snd nadd nmul NumR]. eapply Rle_trans; [apply Rabs_triang|]. apply Rplus_le_compat; [|apply IH].
    rewrite Rabs_mult. rewrite <- (Rmult_1_r (Rabs a)) at 2. apply Rmult_le_compat_l; [apply Rabs_pos|now apply mono_bound].
Qed.
Lemma poly_diff (l : list (list nat)) (p q : list R) : List.Forall (fun es => (fold_right Nat.add 0%nat es <= 5)%nat) l -> Forall2 closeR p q -> forall c : list R,
  Rabs (fold_right (fun t s => (fst t * @monomial NumR (snd t) p + s)%num) (n0 : NumR) (combine c l) - fold_right (fun t s => (fst t * @monomial NumR (snd t) q + s)%num) (n0 : NumR) (combine c l)) <= 5 * u64 * abs_total c.
Proof.
  intros Hl Hp. pose proof u64_pos as U.
  assert (P : forall c, 0 <= abs_total c) by (induction c as [|x c IH]; cbn [abs_total fold_right]; [lra|]; fold (abs_total c); pose proof (Rabs_pos x); lra).
  assert (Z : forall c, Rabs (0 - 0) <= 5 * u64 * abs_total c) by (intros c; rewrite Rminus_diag_eq, Rabs_R0 by reflexivity; specialize (P c); apply Rmult_le_pos; lra).
  induction Hl as [|es l He Hl IH]; intros [|a c]; cbn [combine fold_right]; try (cbn [n0 NumR]; apply Z). cbn [abs_total fold_right]. fold (abs_total c).
  specialize (IH c). pose proof (mono_close es p q Hp) as E.
  assert (E5 : INR (fold_right Nat.add 0%nat es) * u64 <= 5 * u64) by (apply Rmult_le_compat_r; [lra|]; replace 5 with (INR 5) by (cbn; lra); now apply le_INR).
  match type of IH with Rabs (?u - ?v) <= _ => set (x := u) in *; set (y := v) in * end. cbn [fst snd nadd nmul NumR].
  replace (a * @monomial NumR es p + x - (a * @monomial NumR es q + y)) with (a * (@monomial NumR es p - @monomial NumR es q) + (x - y)) by ring.
  eapply Rle_trans; [apply Rabs_triang|]. rewrite Rabs_mult.
  assert (Rabs a * Rabs (@monomial NumR es p - @monomial NumR es q) <= Rabs a * (5 * u64)) by (apply Rmult_le_compat_l; [apply Rabs_pos|lra]). lra.
Qed.
Lemma around_close (p : list NumF64) (q : list R) : Forall2 around p q -> List.Forall (fun a => Rabs a <= 1) (map real p) -> List.Forall (fun a => Rabs a <= 1) q -> Forall2 closeR (map real p) q.
Proof.
  induction 1 as [|x y p q Hx P IH]; cbn [map]; intros B2 B4; constructor; inversion B2; inversion B4; subst; [|now apply IH].
  destruct Hx as (_ & _ & Hx). split; [|split; assumption]. eapply Rle_trans; [exact Hx|]. rewrite <- (Rmult_1_r u64) at 2. apply Rmult_le_compat_l; [left; exact u64_pos|assumption].
Qed.
Theorem eval_best_float k o (f : list NumF64 -> NumF64) (g : list R -> R) (c : list R) (I d t : R) : In (k, o) rules ->
  length c = length (exponents k (degree k o)) -> integral k g I ->
  (forall p, length p = k -> in_simplex p -> Rabs (g p - @poly NumR k (degree k o) c p) <= t) ->
  (forall p, In p (@gl_points NumF64 k o) -> double (f p) /\ finite (f p) /\ Rabs (real (f p) - g (map real p)) <= d) ->
  abs_total c + d + t <= powerRZ 2 999 ->
  exists v, q_eval (N := NumF64) k o (fun p => Ok (f p)) n0 = Ok v /\ double v /\ finite v /\
    Rabs (real v - I) <= 12 / 10 * d + 23 / 10 * t + 4 / 10 ^ 15 * abs_total c + 5 * eta64.
Proof.
  intros Hr Hc HI Ht Hf HM. destruct (integrable k o c Hr) as (J & HJ). destruct (eval_exact k o c J Hr Hc HJ) as (q & Eq & Bq).
  destruct (points_count k o Hr) as (L1 & L2 & L3). pose proof u64_pos as U0. pose proof eta64_pos as V0.
  assert (Hn : (0 < length (@gl_points NumR k o))%nat) by (clear -Hr; caseR Hr; cbn; lia).
  assert (Pt : 0 <= t).
  { destruct (points_in k o (nth 0 (@gl_points NumR k o) []) Hr ltac:(now apply nth_In)) as (A & B). eapply Rle_trans; [apply Rabs_pos|]. exact (Ht _ A B). }
  assert (Pd : 0 <= d).
  { destruct (Hf (nth 0 (@gl_points NumF64 k o) []) ltac:(apply nth_In; lia)) as (_ & _ & A). eapply Rle_trans; [apply Rabs_pos|exact A]. }
  assert (PC : 0 <= abs_total c) by (clear; induction c as [|x c IH]; cbn [abs_total fold_right]; [lra|]; fold (abs_total c); pose proof (Rabs_pos x); lra).
  assert (U1 : u64 <= / 9 * / 10 ^ 15). { rewrite u64_inv, <- Rinv_mult. change (2 ^ 53)%Z with 9007199254740992%Z. apply Rinv_le; cbn [pow]; lra. }
  assert (UC : u64 * abs_total c <= / 9 * / 10 ^ 15 * abs_total c) by (apply Rmult_le_compat_r; auto).
  assert (UC0 : 0 <= u64 * abs_total c) by (apply Rmult_le_pos; lra).
  assert (T15 : 0 < / 10 ^ 15 <= / 1000). { split; [apply Rinv_0_lt_compat, pow_lt; lra|]. apply Rinv_le; [lra|]. cbn; lra. }
  destruct (eval_err k o f (@poly NumR k (degree k o) c) (d + t + 5 * u64 * abs_total c) (abs_total c) Hr) as (v & V & Ev & Dv & Fv & EV & Bv).
  - intros i Hi. set (pF := nth i (@gl_points NumF64 k o) []). set (pR := nth i (@gl_points NumR k o) []).
    assert (IF : In pF (@gl_points NumF64 k o)) by (apply nth_In; lia). assert (IR : In pR (@gl_points NumR k o)) by now apply nth_In.
    destruct (Hf pF IF) as (A1 & A2 & A3). destruct (points_simplex k o pF Hr IF) as (S1 & S2). destruct (points_in k o pR Hr IR) as (S3 & S4).
    pose proof (simplex_abs _ S2) as B2. pose proof (simplex_abs _ S4) as B4.
    assert (CL : Forall2 closeR (map real pF) pR).
    { apply around_close; auto. exact (Forall2_nth_ _ _ _ i [] [] (points_close k o Hr) Hi). }
    split; [exact A1|]. split; [exact A2|]. split; [|exact (poly_bound _ pR B4 c)].
    pose proof (poly_diff _ _ _ (exponents_small k o Hr) CL c) as PD. change (Rabs (@poly NumR k (degree k o) c (map real pF) - @poly NumR k (degree k o) c pR) <= 5 * u64 * abs_total c) in PD.
    pose proof (Ht (map real pF) ltac:(rewrite map_length; exact S1) S2) as T1.
    set (P1 := @poly NumR k (degree k o) c (map real pF) : R) in *. set (P2 := @poly NumR k (degree k o) c pR : R) in *.
    replace (real (f pF) - P2) with ((real (f pF) - g (map real pF)) + ((g (map real pF) - P1) + (P1 - P2))) by ring.
    eapply Rle_trans; [apply Rabs_triang|]. rewrite Rplus_assoc. apply Rplus_le_compat; [exact A3|]. eapply Rle_trans; [apply Rabs_triang|]. now apply Rplus_le_compat.
  - assert (E2 : powerRZ 2 1000 = 2 * powerRZ 2 999) by (rewrite <- (powerRZ_1 2) at 2; rewrite <- powerRZ_add by lra; reflexivity).
    rewrite E2. assert (5 * (u64 * abs_total c) <= abs_total c).
    { assert (/ 9 * / 10 ^ 15 * abs_total c <= / 9 * / 1000 * abs_total c) by (apply Rmult_le_compat_r; lra). lra. }
    lra.
  - exists v. split; [exact Ev|]. split; [exact Dv|]. split; [exact Fv|].
    assert (EVq : V = q) by (assert (X : @Ok (T NumR) V = Ok q) by exact (eq_trans (eq_sym EV) Eq); injection X as X; exact X). subst q.
    pose proof (integral_close k g _ I J t ltac:(clear -Hr; caseR Hr; auto) Pt HI HJ Ht) as E2.
    replace (real v - I) with ((real v - V) + ((V - J) + - (I - J))) by ring. eapply Rle_trans; [apply Rabs_triang|].
    assert (Q : Rabs ((V - J) + - (I - J)) <= 2 / 10 ^ 15 * abs_total c + t).
    { eapply Rle_trans; [apply Rabs_triang|]. rewrite Rabs_Ropp. now apply Rplus_le_compat. }
    unfold Rdiv in *. assert (0 <= / 10 ^ 15 * abs_total c) by (apply Rmult_le_pos; lra). lra.
Qed.
(** Nonnegative values have a nonnegative sum. *)
Lemma rnd_nonneg x : 0 <= x -> 0 <= rnd x.
Proof. intros H. apply round_ge_generic; [apply FLT_exp_valid; reflexivity|apply valid_rnd_N|apply generic_format_0|exact H]. Qed.
Lemma acc_nonneg {A} (l : list A) f : (forall i, In i l -> double (f i) /\ (finite (f i) -> 0 <= real (f i))) -> finite (acc l f) -> 0 <= real (acc l f).
Proof.
  induction l as [|i l IH] using rev_ind; intros H F; [rewrite (real_zero : real (acc [] f) = 0); lra|]. rewrite acc_snoc in *.
  destruct (add_finite_args _ _ F) as (F1 & F2). assert (D : double (acc l f)) by (apply acc_double; intros; apply H, in_or_app; auto).
  destruct (H i ltac:(apply in_or_app; cbn; auto)) as (Di & Pi). rewrite add_real by auto. apply rnd_nonneg.
  assert (0 <= real (acc l f)) by (apply IH; auto; intros; apply H, in_or_app; auto). specialize (Pi F2). lra.
Qed.
Theorem eval_nonneg_float k o (f : list NumF64 -> NumF64) : In (k, o) rules -> (k, o) <> (2, 3)%nat ->
  (forall p, In p (@gl_points NumF64 k o) -> double (f p) /\ 0 <= real (f p)) ->
  exists v, q_eval (N := NumF64) k o (fun p => Ok (f p)) n0 = Ok v /\ (finite v -> 0 <= real v).
Proof.
  intros Hr Hx Hf. destruct (points_count k o Hr) as (L1 & L2 & L3). eexists. split; [now apply (@eval_terms NumF64)|]. intros F.
  apply (acc_nonneg (seq 0 (length (@gl_points NumF64 k o)))); auto. intros i Hi. apply in_seq in Hi.
  assert (A : around (nth i (@nweights NumF64 k o) n0) (nth i (@nweights NumR k o) 0)) by (apply Forall2_nth_; [now apply weights_close|lia]).
  assert (W : 0 <= nth i (@nweights NumR k o) 0).
  { assert (G : List.Forall (fun w => 0 <= w) (@nweights NumR k o)).
    { clear -Hr Hx. caseR Hr; try congruence; unfold nweights; cbn [gl_table snd map]; repeat (apply List.Forall_cons; [opsQ; lra|]); apply List.Forall_nil. }
    rewrite List.Forall_forall in G. apply G, nth_In. lia. }
  destruct (Hf (nth i (@gl_points NumF64 k o) []) ltac:(apply nth_In; lia)) as (D1 & P1). pose proof (around_bounds _ _ A W) as B. destruct A as (D2 & _ & _).
  split; [now apply mul_double|]. unfold term. intros Fm. rewrite mul_real by auto. apply rnd_nonneg. apply Rmult_le_pos; lra.
Qed.
