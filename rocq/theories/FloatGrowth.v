(** Growth of the entries in doolittle on doubles: with multipliers at most 1 each elimination step at most doubles the largest
    entry, so nothing overflows; and where the decomposition gives up, the matrix is close to a singular one. *)
From Coq Require Import ZArith Reals List Arith Bool SpecFloat Lia Lra Permutation.
From Flocq Require Import Core Relative.
From Verif Require Import Base BaseProofs Num NumInst Spec SpecProofs VectorModel VectorProofs
  SparseModel SparseSpec SparseFacts SparseFacts2 SparsePropProofs DenseModel DenseSpec DenseProofs DensePropProofs MatI MatIProofs MatOps MatOpsProofs OrderProofs
  ConstructProofs DetSpec DetProofs LUModel LUProofs LUSolve FloatSpec FloatLUSpec F64Flocq FloatProofs FloatResult FloatSolve FloatLU.
Import ListNotations.
Local Open Scope nat_scope.
Open Scope res_scope.
Local Open Scope R_scope.

Lemma rnd_le_bpow x z : (-1074 <= z)%Z -> Rabs x <= bpow radix2 z -> Rabs (rnd x) <= bpow radix2 z.
Proof.
  intros Hz Hx. assert (P : Prec_gt_0 53) by reflexivity. rewrite <- (round_NE_abs radix2 fexp64).
  rewrite <- (rnd_id (bpow radix2 z)); [apply round_le; [typeclasses eauto|typeclasses eauto|exact Hx]|].
  apply generic_format_bpow. unfold fexp64, FLT_exp. lia.
Qed.
Lemma real_neps : real neps = bpow radix2 (-52).
Proof.
  unfold real. cbn [neps NumF64]. change (Z.pos (2 ^ 52)) with (radix2 ^ 52)%Z. rewrite (IZR_Zpower radix2 52) by lia.
  rewrite !bpow_powerRZ. change (IZR radix2) with 2%R. rewrite <- powerRZ_add by lra. reflexivity.
Qed.
Lemma tiny_real (x : NumF64) : double x -> finite x -> (tiny x = true <-> Rabs (real x) <= bpow radix2 (-52)).
Proof.
  intros Dx Fx. unfold tiny. destruct (nabs_real x) as (E & F & D).
  rewrite leb_real; [rewrite E, real_neps; tauto|apply D; exact Dx|reflexivity|apply F; exact Fx|exact I].
Qed.
(** The multiplier of a pivot that is not tiny. *)
Lemma mult_fin (t d : NumF64) : double t -> double d -> finite t -> finite d -> Rabs (real d) <= powerRZ 2 1022 -> bpow radix2 (-52) < Rabs (real d) ->
  Rabs (real t) <= Rabs (real d) -> finite (t * (n1 / d))%num /\ Rabs (real (t * (n1 / d))%num) <= 1.
Proof.
  intros Dt Dd Ft Fd Hd Hp Ht. assert (D1 : double n1) by reflexivity. assert (Di : double (n1 / d)%num) by (apply div_double; auto).
  pose proof (bpow_gt_0 radix2 (-52)) as Hb. assert (Ab : 0 < Rabs (real d)) by lra.
  assert (Hz : real d <> 0) by (intros E; rewrite E, Rabs_R0 in Ab; lra).
  assert (Hi : Rabs (1 / real d) <= bpow radix2 52).
  { unfold Rdiv. rewrite Rmult_1_l, Rabs_inv. change 52%Z with (- (-52))%Z. rewrite bpow_opp. apply Rinv_le; lra. }
  assert (Fi : finite (n1 / d)%num).
  { apply div_finite; auto; [exact I|]. rewrite real_n1. eapply Rle_lt_trans; [apply rnd_le_bpow; [|exact Hi]; lia|]. apply bpow_lt. lia. }
  assert (F : finite (t * (n1 / d))%num).
  { apply mul_finite; auto. rewrite (div_real n1 d D1 Dd Fd Fi), real_n1. assert (P : Prec_gt_0 53) by reflexivity.
    assert (L : bpow radix2 (-1074 + 53 - 1) <= Rabs (1 / real d)).
    { unfold Rdiv. rewrite Rmult_1_l, Rabs_inv. change (-1074 + 53 - 1)%Z with (- (1022))%Z. rewrite bpow_opp.
      apply Rinv_le; [exact Ab|]. rewrite bpow_powerRZ. exact Hd. }
    pose proof (relative_error_N_FLT radix2 (-1074) 53 P (fun x => negb (Z.even x)) (1 / real d) L) as E.
    rewrite <- u64_bpow in E. set (i := rnd (1 / real d)) in *.
    assert (X : Rabs (real t * i) <= bpow radix2 1).
    { apply Rle_trans with (1 + u64).
      - rewrite Rabs_mult. apply Rle_trans with (Rabs (real d) * Rabs i); [apply Rmult_le_compat_r; [apply Rabs_pos|exact Ht]|].
        assert (Y : Rabs i <= (1 + u64) * Rabs (1 / real d)).
        { replace i with ((i - 1 / real d) + 1 / real d) by ring. eapply Rle_trans; [apply Rabs_triang|]. lra. }
        apply (Rmult_le_compat_l (Rabs (real d))) in Y; [|lra]. unfold Rdiv in *. rewrite Rmult_1_l, Rabs_inv in *.
        replace (Rabs (real d) * ((1 + u64) * / Rabs (real d))) with (1 + u64) in Y by (field; lra). exact Y.
      - rewrite u64_b. change (bpow radix2 1) with 2. assert (bpow radix2 (-53) <= bpow radix2 0) by (apply bpow_le; lia). change (bpow radix2 0) with 1 in *. lra. }
    eapply Rle_lt_trans; [apply rnd_le_bpow; [|exact X]; lia|]. apply bpow_lt. lia. }
  split; [exact F|]. now apply mult_le_1.
Qed.

Section Growth.
Context {I : MatI NumF64} (nz : NumF64 -> NumF64) (HS : SetLaws (I := I) nz).
Hypothesis Zr : forall x, real (nz x) = real x.
Hypothesis Zd : forall x, double x -> double (nz x).
Hypothesis Zf : forall x, finite (nz x) <-> finite x.
Hypothesis Z1 : nz n1 = n1.
Variables (n : nat) (a l0 : nat -> nat -> NumF64) (e : Z).
Hypothesis He : (-1074 <= e)%Z.
Hypothesis Hen : (e + Z.of_nat n <= 1022)%Z.

Definition grow (k : nat) (l u : nat -> nat -> NumF64) : Prop :=
  (forall i j, (i < n)%nat -> (j < n)%nat -> finite (u i j) /\ Rabs (real (u i j)) <= bpow radix2 (e + Z.of_nat k)) /\
  (forall i j, (j < i < n)%nat -> (j < k)%nat -> finite (l i j) /\ Rabs (real (l i j)) <= 1).
(** The state in which the decomposition gives up. *)
Definition stuck_float (k : nat) (l u : nat -> nat -> NumF64) (rt : list nat) (cnt : nat) : Prop := (S k < n)%nat /\ finv n a l0 k l u rt cnt /\ grow k l u /\
  forall r, (k <= r < n)%nat -> Rabs (real (u r k)) <= bpow radix2 (-52).

Lemma grow_swap k l u i : grow k l u -> (k < i)%nat -> (i < n)%nat -> grow k (swz nz l i k 0 k) (swz nz u i k k n).
Proof.
  intros (Hu & Hl) Hki Hi.
  assert (Sl : forall r, (r < n)%nat -> (sg i k r < n)%nat) by (intros r Hr; unfold sg; destruct (r =? i)%nat; [lia|]; destruct (r =? k)%nat; lia).
  split.
  - intros r c Hr Hc. destruct (Nat.lt_ge_cases c k) as [L|L]; [rewrite swz_out by lia; auto|].
    assert (Hc' : (k <= c < n)%nat) by lia. destruct (swz_in nz Zr Zf n a l0 u i k k n r c Hc') as (-> & HF). rewrite HF. apply Hu; auto.
  - intros r c Hr Hc. assert (Hc' : (0 <= c < k)%nat) by lia. destruct (swz_in nz Zr Zf n a l0 l i k 0 k r c Hc') as (-> & HF). rewrite HF. apply Hl; auto.
    pose proof (Sl r). unfold sg in *. destruct (Nat.eqb_spec r i); [lia|]. destruct (Nat.eqb_spec r k); lia.
Qed.
Lemma grow_elim k l u : grow k l u -> doubles2 n n u -> (S k < n)%nat ->
  (forall j, (k <= j < n)%nat -> Rabs (real (u j k)) <= Rabs (real (u k k))) -> bpow radix2 (-52) < Rabs (real (u k k)) ->
  grow (S k) (elz nz l u k) (euz nz u k).
Proof.
  intros (Hu & Hl) Du Hk Hmax Hp.
  assert (B : bpow radix2 (e + Z.of_nat k) <= powerRZ 2 1022).
  { change 2%R with (IZR radix2). rewrite <- bpow_powerRZ. apply bpow_le. lia. }
  assert (Hm : forall r, (k < r < n)%nat -> finite (u r k * (n1 / u k k))%num /\ Rabs (real (u r k * (n1 / u k k))%num) <= 1 /\ double (u r k * (n1 / u k k))%num).
  { intros r Hr. destruct (mult_fin (u r k) (u k k)) as (F & L); try apply Hu; try apply Du; try lia; auto.
    - eapply Rle_trans; [apply Hu; lia|exact B].
    - apply Hmax. lia.
    - split; [exact F|]. split; [exact L|]. apply mul_double; [apply Du; lia|apply div_double; [reflexivity|apply Du; lia]]. }
  assert (Up : bpow radix2 (e + Z.of_nat k) + bpow radix2 (e + Z.of_nat k) = bpow radix2 (e + Z.of_nat (S k))).
  { replace (e + Z.of_nat (S k))%Z with (1 + (e + Z.of_nat k))%Z by lia. rewrite (bpow_plus radix2 1). change (bpow radix2 1) with 2. ring. }
  pose proof (bpow_gt_0 radix2 (e + Z.of_nat k)) as Bp.
  split.
  - intros r c Hr Hc. unfold euz. destruct (Nat.ltb_spec k r) as [L|L]; [|cbn [andb]; split; [apply Hu; auto|eapply Rle_trans; [apply Hu; auto|lra]]].
    destruct (Nat.leb_spec k c) as [L'|L']; cbn [andb]; [|split; [apply Hu; auto|eapply Rle_trans; [apply Hu; auto|lra]]].
    rewrite Zr, Zf. destruct (Hm r ltac:(lia)) as (F & Ml & Dm).
    set (m := nz (u r k * (n1 / u k k))%num). assert (Fm : finite m) by (apply Zf; exact F). assert (Dm' : double m) by (apply Zd; exact Dm).
    assert (Rm : Rabs (real m) <= 1) by (unfold m; rewrite Zr; exact Ml).
    destruct (Hu r c Hr Hc) as (F1 & B1). destruct (Hu k c ltac:(lia) Hc) as (F2 & B2). pose proof (Du r c Hr Hc) as D1. pose proof (Du k c ltac:(lia) Hc) as D2.
    assert (P1 : Rabs (real m * real (u k c)) <= bpow radix2 (e + Z.of_nat k)).
    { rewrite Rabs_mult. replace (bpow radix2 (e + Z.of_nat k)) with (1 * bpow radix2 (e + Z.of_nat k)) by ring. apply Rmult_le_compat; auto using Rabs_pos. }
    apply rnd_le_bpow in P1; [|lia].
    assert (Fp : finite (m * u k c)%num) by (apply mul_finite; auto; eapply Rle_lt_trans; [exact P1|apply bpow_lt; lia]).
    assert (Dp : double (m * u k c)%num) by (apply mul_double; auto). rewrite <- (mul_real _ _ Dm' D2 Fp) in P1.
    assert (P2 : Rabs (real (u r c) - real (m * u k c)%num) <= bpow radix2 (e + Z.of_nat (S k))).
    { rewrite <- Up. unfold Rminus. eapply Rle_trans; [apply Rabs_triang|]. rewrite Rabs_Ropp. lra. }
    apply rnd_le_bpow in P2; [|lia].
    assert (Fs : finite (u r c - m * u k c)%num) by (apply sub_finite; auto; eapply Rle_lt_trans; [exact P2|apply bpow_lt; lia]).
    split; [exact Fs|]. rewrite (sub_real _ _ D1 Dp Fs). exact P2.
  - intros r c Hr Hc. unfold elz. destruct (Nat.ltb_spec k r) as [L|L]; cbn [andb].
    + destruct (Nat.eqb_spec c k) as [->|Hne]; [rewrite Zr, Zf; destruct (Hm r ltac:(lia)) as (F & Ml & _); auto|apply Hl; lia].
    + apply Hl; lia.
Qed.
Lemma column_g k (L U : I) l u rt cnt : (S k < n)%nat -> MatI.holds L n n l -> MatI.holds U n n u -> finv n a l0 k l u rt cnt -> grow k l u -> (cnt <= k)%nat ->
  post (lu_column n k (L, U, rt, cnt)) (fun st => let '(L', U', rt', cnt') := st in
      exists l' u', MatI.holds L' n n l' /\ MatI.holds U' n n u' /\ finv n a l0 (S k) l' u' rt' cnt' /\ grow (S k) l' u' /\ (cnt' <= S k)%nat)
    (fun ex => ex = Singular /\ exists l' u' rt' cnt', stuck_float k l' u' rt' cnt').
Proof.
  intros Hk HLl HU Hinv Hg Hcnt. unfold lu_column. pose proof Hinv as (H1 & H2 & H3 & H4 & _). pose proof (perm_length _ _ H2) as Hlen.
  destruct (pivot_max U n k u HU H4) as (i & -> & Hi & Hmax); [lia|]. cbn [bind].
  assert (Hmax' : forall j, (k <= j < n)%nat -> Rabs (real (u j k)) <= Rabs (real (u i k))) by (apply Hmax; intros j Hj; apply Hg; lia).
  match goal with |- context [if negb (i =? k)%nat then ?x else ?y] => set (step := if negb (i =? k)%nat then x else y) end.
  assert (R : returns step
    (fun st => let '(L1, U1, rt1, cnt1) := st in exists l1 u1, MatI.holds L1 n n l1 /\ MatI.holds U1 n n u1 /\
       finv n a l0 k l1 u1 rt1 cnt1 /\ grow k l1 u1 /\ (cnt1 <= S k)%nat /\
       (forall j, (k <= j < n)%nat -> Rabs (real (u1 j k)) <= Rabs (real (u1 k k))))).
  { unfold step. destruct (Nat.eqb_spec i k) as [->|Hne]; cbn [negb].
    - eexists. split; [reflexivity|]. cbn beta iota. exists l, u. do 4 (split; [assumption|]). split; [lia|]. exact Hmax'.
    - destruct (swap_z nz HS U n u i k k n HU) as (U1 & -> & HU1); try lia. cbn [bind].
      destruct (swap_z nz HS L n l i k 0 k HLl) as (L1 & -> & HL1); try lia. cbn [bind].
      rewrite !vget_ok with (d := 0%nat) by lia. cbn [bind]. rewrite vset_ok by lia. cbn [bind]. rewrite vset_ok by (rewrite upd_length; lia). cbn [bind].
      eexists. split; [reflexivity|]. cbn beta iota. do 2 eexists. split; [exact HL1|]. split; [exact HU1|].
      replace (cnt + 1)%nat with (S cnt) by lia. split; [apply (finv_swap nz); auto; lia|]. split; [apply grow_swap; auto; lia|]. split; [lia|].
      intros j Hj. assert (Hc : (k <= k < n)%nat) by lia.
      destruct (swz_in nz Zr Zf n a l0 u i k k n j k Hc) as (-> & _). destruct (swz_in nz Zr Zf n a l0 u i k k n k k Hc) as (-> & _).
      assert (Sk : sg i k k = i) by (unfold sg; rewrite Nat.eqb_refl; destruct (Nat.eqb_spec k i); lia). rewrite Sk.
      apply Hmax'. unfold sg. destruct (j =? i)%nat; [lia|]. destruct (j =? k)%nat; lia. }
  destruct R as ((((L1, U1), rt1), cnt1) & -> & l1 & u1 & HL1 & HU1 & I1 & G1 & I2 & I3). cbn [bind].
  rewrite (holds_at _ _ _ _ _ _ HU1) by lia. cbn [bind].
  assert (Dk : double (u1 k k)) by (apply I1; lia). assert (Fk : finite (u1 k k)) by (apply G1; lia).
  destruct (tiny (u1 k k)) eqn:Et.
  - split; [reflexivity|]. exists l1, u1, rt1, cnt1. split; [exact Hk|]. split; [exact I1|]. split; [exact G1|].
    intros r Hr. eapply Rle_trans; [apply I3; exact Hr|]. apply (proj1 (tiny_real _ Dk Fk)). exact Et.
  - assert (Hp : bpow radix2 (-52) < Rabs (real (u1 k k))).
    { destruct (Rlt_le_dec (bpow radix2 (-52)) (Rabs (real (u1 k k)))) as [|Hle]; auto.
      apply (proj2 (tiny_real _ Dk Fk)) in Hle. rewrite Hle in Et. discriminate Et. }
    destruct (elim_z nz HS L1 U1 n k l1 u1 HL1 HU1) as ((L2, U2) & -> & HL2 & HU2); [lia|]. cbn [bind fst snd post].
    exists (elz nz l1 u1 k), (euz nz u1 k). split; auto. split; auto.
    split; [apply (finv_elim nz); auto|]. split; [apply grow_elim; auto; apply I1|exact I2].
Qed.
End Growth.
