(** determinant() on doubles: the exact determinant of a matrix close to the given one, up to the rounding of the product of the pivots. *)
From Coq Require Import ZArith Reals List Arith Bool SpecFloat Lia Lra Permutation.
From Flocq Require Import Core Relative.
From Verif Require Import Base BaseProofs Num NumInst OrdField Spec SpecProofs VectorModel VectorProofs UtilsSpec UtilsInst
  SparseModel SparseSpec SparseFacts SparseFacts2 SparsePropProofs DenseModel DenseSpec DenseProofs DensePropProofs MatI MatIProofs MatOps MatOpsProofs OrderProofs
  ConstructProofs DetSpec DetProofs LUModel LUProofs DetMult LUNear LUSolve FloatSpec FloatLUSpec F64Flocq FloatProofs FloatResult FloatSolve FloatLU FloatGrowth FloatDetSpec.
Import ListNotations.
Local Open Scope nat_scope.
Open Scope res_scope.
Local Open Scope R_scope.

Section Main.
Context {I : MatI NumF64} (nz : NumF64 -> NumF64) (HS : SetLaws (I := I) nz).
Hypothesis Zr : forall x, real (nz x) = real x.
Hypothesis Zd : forall x, double x -> double (nz x).
Hypothesis Zf : forall x, finite (nz x) <-> finite x.
Hypothesis Z1 : nz n1 = n1.
Definition ldiag (l0 : nat -> nat -> NumF64) (i j : nat) : NumF64 := if (i =? j)%nat then n1 else l0 i j.
Lemma main_g n a l0 p0 e (A L0 : I) newP : (0 < n)%nat -> MatI.holds A n n a -> MatI.holds L0 n n l0 -> doubles2 n n a -> doubles2 n n l0 ->
  returns newP (fun P0 => MatI.holds P0 n n p0) -> (-1074 <= e)%Z -> (e + Z.of_nat n <= 1022)%Z ->
  (forall i j, (i < n)%nat -> (j < n)%nat -> finite (a i j) /\ Rabs (real (a i j)) <= bpow radix2 e) ->
  post (lu_main A L0 newP) (fun r => let '(L, U, P, cnt) := r in exists l u rt,
      MatI.holds L n n l /\ MatI.holds U n n u /\ MatI.holds P n n (fun i j => if (j =? nth i rt 0)%nat then n1 else p0 i j) /\
      finv n a (ldiag l0) (n - 1) l u rt cnt /\ grow n e (n - 1) l u /\ (cnt < n)%nat)
    (fun ex => ex = Singular /\ exists k l u rt cnt, stuck_float n a (ldiag l0) e k l u rt cnt).
Proof.
  intros Hn HA HL0 Da Dl0 (P0 & EP & HP0) He Hen Ha. unfold lu_main. rewrite (holds_rows _ _ _ _ HA).
  destruct (diag_f nz HS Z1 L0 n l0 HL0) as (L1 & -> & HL1). cbn [bind].
  unfold usub. replace (1 <=? n)%nat with true by (symmetry; apply Nat.leb_le; lia). cbn [bind].
  fold (ldiag l0) in HL1.
  assert (Dld : doubles2 n n (ldiag l0)) by (intros i j Hi Hj; unfold ldiag; destruct (i =? j)%nat; [reflexivity|apply Dl0; auto]).
  apply post_bind.
  eapply post_mono; [apply (for_post (fun k st => let '(L', U', rt', cnt') := st in
      exists l' u', MatI.holds L' n n l' /\ MatI.holds U' n n u' /\ finv n a (ldiag l0) k l' u' rt' cnt' /\ grow n e k l' u' /\ (cnt' <= k)%nat)
      (fun ex => ex = Singular /\ exists k l u rt cnt, stuck_float n a (ldiag l0) e k l u rt cnt)); try lia| |auto].
  - exists (ldiag l0), a. split; [exact HL1|]. split; [exact HA|]. split; [|split; [|lia]].
    + split; [apply ex_none|]. split; [apply Permutation_refl|]. split; [exact Dld|]. split; [exact Da|]. split; [auto|]. split; [|split].
      * intros i j Hi Hj _ F. rewrite seq_nth by auto. cbn [Nat.min plus]. unfold psum, psuma. cbn [rsum]. apply res_start.
      * intros i j Hi Hj Hk. lia.
      * intros j Hk. lia.
    + split; [intros i j Hi Hj; rewrite Z.add_0_r; auto|intros; lia].
  - intros k (((L', U'), rt'), cnt') Hk (l' & u' & HL' & HU' & Hi & Hg & Hc).
    eapply post_mono; [exact (column_g nz HS Zr Zd Zf n a (ldiag l0) e He Hen k L' U' l' u' rt' cnt' ltac:(lia) HL' HU' Hi Hg Hc)|auto|].
    intros ex (-> & l1 & u1 & rt1 & c1 & H). split; [reflexivity|]. exists k, l1, u1, rt1, c1. exact H.
  - intros (((L', U'), rt'), cnt') (l' & u' & HL' & HU' & Hi & Hg & Hc). rewrite EP. cbn [bind].
    pose proof Hi as (Hex & HP & Dl & Du & Heq & _). pose proof (perm_length _ _ HP) as Hlen.
    assert (R : returns (for_ 0 n (fun i P => let* r := vget rt' i in mi_set P i r n1) P0)
      (fun P => MatI.holds P n n (fun i j => if ((i <? n) && (j =? nth i rt' 0))%nat then n1 else p0 i j))).
    { apply (for_returns (fun k P => MatI.holds P n n (fun i j => if ((i <? k) && (j =? nth i rt' 0))%nat then n1 else p0 i j))); try lia.
      - exact HP0.
      - intros k s Hk Hs. rewrite vget_ok with (d := 0%nat) by lia. cbn [bind].
        destruct (HS _ _ _ _ k (nth k rt' 0%nat) n1 Hs) as (s' & E & Hs'); try lia; [apply perm_lt; auto; lia|].
        exists s'. split; auto. eapply holds_ext; [exact Hs'|]. intros i j Hi' Hj'. unfold put2. cbn beta. rewrite Z1. bcase; subst; auto; congruence. }
    destruct R as (P & -> & HPm). cbn [bind post]. exists l', u', rt'. split; [exact HL'|]. split; [exact HU'|].
    split; [eapply holds_ext; [exact HPm|]; intros i j Hi' Hj'; cbn beta; bcase; auto|].
    split; [exact Hi|]. split; [exact Hg|]. lia.
Qed.
End Main.

(** ** From the errors to a perturbed matrix *)
Lemma row_bound_le m t t' d d' : t <= t' -> Rabs d <= Rabs d' -> row_bound m t d <= row_bound m t' d'.
Proof.
  intros Ht Hd. unfold row_bound. pose proof u64_pos. pose proof eta64_pos. pose proof (pow_ge_1 m). pose proof (pos_INR m).
  apply Rplus_le_compat; [apply Rmult_le_compat_l; lra|]. apply Rmult_le_compat_r; [lra|]. apply Rmult_le_compat_r; lra.
Qed.
Lemma rsum_const m c (f : nat -> R) : (forall t, (t < m)%nat -> f t <= c) -> rsum m f <= INR m * c.
Proof.
  induction m as [|m IH]; intros H; cbn [rsum]; [rewrite Rmult_0_l; lra|]. rewrite S_INR. specialize (IH (fun t Ht => H t ltac:(lia))).
  specialize (H m ltac:(lia)). lra.
Qed.
Section Perturb.
Variables (n : nat) (e : Z) (a ld : nat -> nat -> NumF64).
Hypothesis Hld : forall i, (i < n)%nat -> ld i i = n1.
Hypothesis Hen : (e + Z.of_nat n <= 1022)%Z.
Notation B := (bpow radix2 (e + Z.of_nat n)).
Lemma B_powerRZ : B = powerRZ 2 (e + Z.of_nat n).
Proof. apply bpow_powerRZ. Qed.
Lemma grow_le k i j l u : grow n e k l u -> (k <= n)%nat -> (i < n)%nat -> (j < n)%nat -> Rabs (real (u i j)) <= B.
Proof. intros (H & _) Hk Hi Hj. eapply Rle_trans; [apply H; auto|]. apply bpow_le. lia. Qed.
(** The product of the factors so far: t < k in L, the rest in U. *)
Definition part (k : nat) (l u : nat -> nat -> NumF64) (i j : nat) : R :=
  rsum (min (S j) (min k i)) (fun t => real (l i t) * real (u t j)) + (if ((i <=? j) || (k <=? j))%nat then real (u i j) else 0).
Lemma part_error k l u rt cnt i j : (k < n)%nat -> finv n a ld k l u rt cnt -> grow n e k l u -> (i < n)%nat -> (j < n)%nat ->
  Rabs (part k l u i j - real (a (nth i rt 0%nat) j)) <= lu_error n e.
Proof.
  intros Hk (_ & _ & Dl & Du & H5 & HA & HB & _) Hg Hi Hj. unfold part, lu_error. rewrite <- B_powerRZ. pose proof (bpow_gt_0 radix2 (e + Z.of_nat n)) as Bp.
  pose proof u64_pos. pose proof eta64_pos.
  assert (T : forall t, (t < k)%nat -> (t < i)%nat -> Rabs (real (l i t) * real (u t j)) <= B).
  { intros t H1 H2. rewrite Rabs_mult. replace B with (1 * B) by ring. apply Rmult_le_compat; auto using Rabs_pos; [apply Hg; lia|]. apply (grow_le k _ _ l u Hg); lia. }
  destruct (Nat.leb_spec i j) as [L|L]; [|destruct (Nat.leb_spec k j) as [K|K]]; cbn [orb].
  1, 2: replace (min (S j) (min k i)) with (min k i) by lia;
    specialize (HA i j Hi Hj ltac:(lia) (proj1 (proj1 Hg i j Hi Hj))); unfold res_ok, psum, psuma in HA; set (m := min k i) in *; rewrite <- Rabs_Ropp.
  1, 2: match goal with |- Rabs ?x <= _ => replace x with (real (a (nth i rt 0%nat) j) - rsum m (fun t => real (l i t) * real (u t j)) - real (u i j)) by ring end;
    eapply Rle_trans; [exact HA|]; unfold row_bound;
    assert (Q : rsum m (fun t => Rabs (real (l i t) * real (u t j))) <= INR m * B) by (apply rsum_const; intros t Ht; apply T; lia);
    pose proof (grow_le k i j l u Hg ltac:(lia) Hi Hj) as Q2;
    pose proof (pow_ge_1 m); pose proof (pow_ge_1 (n + 1)); assert (W : (1 + u64) ^ m <= (1 + u64) ^ (n + 1)) by (apply Rle_pow; [lra|lia]);
    assert (M : INR m + 1 <= INR n) by (rewrite <- S_INR; apply le_INR; lia); pose proof (pos_INR m); assert (M2 : INR n <= INR (n + 1)) by (apply le_INR; lia);
    rewrite <- Rmult_plus_distr_l; apply Rplus_le_compat;
    [apply Rmult_le_compat; [lra|apply Rplus_le_le_0_compat; [apply rsum_pos; intros; apply Rabs_pos|apply Rabs_pos]|lra|];
     apply Rle_trans with ((INR m + 1) * B); [lra|apply Rmult_le_compat_r; lra]
    |rewrite (Rabs_pos_eq B) by lra; apply Rmult_le_compat_r; [lra|]; apply Rmult_le_compat; lra].
  - replace (min (S j) (min k i)) with (S j) by lia. rewrite Rplus_0_r, Rabs_minus_sym.
      eapply Rle_trans; [apply (HB i j Hi L K)|].
    + apply Hg; lia.
    + apply Hg; lia.
    + eapply Rle_trans; [apply Hg; lia|]. change 2 with (IZR radix2). rewrite <- bpow_powerRZ. apply bpow_le. lia.
    + eapply Rle_trans; [apply (row_bound_mono (j + 2) (n + 1)); [lia|apply psuma_pos]|].
        apply row_bound_le.
      * unfold psuma. eapply Rle_trans; [apply rsum_const; intros t Ht; apply T; lia|]. apply Rmult_le_compat_r; [lra|]. apply le_INR. lia.
      * rewrite (Rabs_pos_eq B) by lra. apply (grow_le k _ _ l u Hg); lia.
Qed.
End Perturb.

(** ** Determinants of the perturbed matrix *)
Local Ltac rring := match goal with |- @eq _ ?x ?y => change (@eq R x y) end; ring.
Notation RF := (of_field NumR NumR_ord).
Lemma rsum_bigsum n (f : nat -> R) : rsum n f = bigsum (N := NumR) n f.
Proof. induction n as [|n IH]; cbn [rsum bigsum]; [reflexivity|]. rewrite IH. reflexivity. Qed.
Lemma scatter n rt (F : nat -> nat -> R) : Permutation rt (seq 0 n) -> exists E : nat -> nat -> R, forall i j, (i < n)%nat -> E (nth i rt 0%nat) j = F i j.
Proof.
  intros Hp. exists (fun r j => bigsum (N := NumR) n (fun i => if (nth i rt 0 =? r)%nat then F i j else 0)). intros i j Hi.
  rewrite (bigsum_single RF n i); auto; [now rewrite Nat.eqb_refl|].
  intros t Ht Hne. destruct (Nat.eqb_spec (nth t rt 0%nat) (nth i rt 0%nat)) as [E|]; auto. apply (perm_inj rt n) in E; auto. congruence.
Qed.
Section Dets.
Variables (n : nat) (e : Z) (a ld : nat -> nat -> NumF64).
Hypothesis Hld : forall i, (i < n)%nat -> ld i i = n1.
Hypothesis Hen : (e + Z.of_nat n <= 1022)%Z.
(** Giving up: some matrix near a is singular. *)
Lemma stuck_singular k l u rt cnt : stuck_float n a ld e k l u rt cnt -> exists E c, (c < n)%nat /\
  (forall i j, (i < n)%nat -> (j < n)%nat -> Rabs (E i j) <= lu_error n e + (if (j =? c)%nat then powerRZ 2 (-52) else 0)) /\
  det n (perturbed a E) = 0.
Proof.
  intros (Hk & Hinv & Hg & Ht). pose proof Hinv as (Hex & Hp & _).
  destruct (scatter n rt (fun i j => part k l u i j - real (a (nth i rt 0%nat) j)) Hp) as (E & HE).
  set (u' := fun i j => if ((i <=? j) || (k <=? j))%nat then real (u i j) else 0).
  assert (S : stuck (N := NumR) n (perturbed a E)).
  { exists rt, cnt, k, (fun i j => real (l i j)), u'. split; [exact Hex|]. split; [exact Hp|]. split; [lia|]. split; [|split].
    - intros i j Hi Hj. unfold perturbed. rewrite HE by auto. cbn [nadd nmul NumR]. unfold part.
      match goal with |- ?x + (?p + ?q - ?x) = ?r => replace (x + (p + q - x)) with (p + q) by ring end. change (if ((i <=? j) || (k <=? j))%nat then real (u i j) else 0) with (u' i j).
      f_equal. rewrite rsum_bigsum. symmetry. rewrite (bigsum_trunc RF (min i k) (min (Datatypes.S j) (min k i))); [|lia|].
      + apply (@bigsum_ext NumR). intros t Hti. unfold u'. cbn [nmul NumR]. bcase; auto; lia.
      + intros t Hti. unfold u'. bcase; try lia. apply Rmult_0_r.
    - intros i j Hi Hj. unfold u'. bcase; try lia. reflexivity.
    - intros r Hr. unfold u'. replace ((r <=? k) || (k <=? k))%nat with true by (rewrite Nat.leb_refl, orb_true_r; reflexivity).
      unfold tiny. cbn [nleb nabs neps NumR]. apply Rle_bool_iff. eapply Rle_trans; [apply Ht; exact Hr|]. right. rewrite bpow_powerRZ. change (powerRZ (IZR radix2) (-52)) with (/ 2 ^ Pos.to_nat 52). reflexivity. }
  apply (stuck_near RF) in S; [|unfold tiny; cbn [nleb nabs neps n0 NumR]; apply Rle_bool_iff; rewrite Rabs_R0; apply Rlt_le, Rinv_0_lt_compat, pow_lt; lra|exact NumR_ord].
  destruct S as (c & d & Hc & Hd & D).
  exists (fun i j => E i j + (if (j =? c)%nat then d i else 0)), c. split; [exact Hc|]. split.
  - intros i j Hi Hj. eapply Rle_trans; [apply Rabs_triang|]. apply Rplus_le_compat.
    + destruct (perm_surj rt n i Hp Hi) as (i' & Hi' & <-). rewrite HE by auto. apply (part_error n e a ld Hen k l u rt cnt); auto; lia.
    + destruct (Nat.eqb_spec j c); [|rewrite Rabs_R0; lra]. specialize (Hd i Hi). cbn [nleb nabs neps NumR] in Hd. apply Rle_bool_iff in Hd.
      eapply Rle_trans; [exact Hd|]. right. change (powerRZ 2 (-52)) with (/ 2 ^ Pos.to_nat 52). reflexivity.
  - etransitivity; [|exact D]. apply det_ext. intros i j Hi Hj. unfold perturbed. destruct (Nat.eqb_spec j c); cbn [nadd NumR]; rring.
Qed.
(** Success: the exact determinant of a near matrix is the product of the pivots. *)
Lemma pivots_det l u rt cnt : (0 < n)%nat -> finv n a ld (n - 1) l u rt cnt -> grow n e (n - 1) l u -> exists E,
  (forall i j, (i < n)%nat -> (j < n)%nat -> Rabs (E i j) <= lu_error n e) /\
  det n (perturbed a E) = (sgn cnt * bigprod n (fun i => real (u i i) : NumR))%num.
Proof.
  intros Hn Hinv Hg. pose proof Hinv as (Hex & Hp & _).
  destruct (scatter n rt (fun i j => part (n - 1) l u i j - real (a (nth i rt 0%nat) j)) Hp) as (E & HE). exists E. split.
  - intros i j Hi Hj. destruct (perm_surj rt n i Hp Hi) as (i' & Hi' & <-). rewrite HE by auto. apply (part_error n e a ld Hen (n - 1) l u rt cnt); auto; lia.
  - pose proof (det_perm_rows RF n (perturbed a E) rt cnt Hex) as D.
    set (l' := fun i t => if (t <? i)%nat then real (l i t) else if (t =? i)%nat then 1 else 0).
    set (u' := fun t j => if (t <=? j)%nat then real (u t j) else 0).
    assert (D2 : det (N := NumR) n (fun i j => perturbed a E (nth i rt 0%nat) j) = bigprod (N := NumR) n (fun i => real (u i i))).
    { transitivity (det (N := NumR) n (prod2 (N := NumR) n l' u')).
      - apply det_ext. intros i j Hi Hj. unfold perturbed, prod2. rewrite HE by auto. unfold part. cbn [nadd nmul NumR].
        match goal with |- ?x + (?p + ?q - ?x) = ?r => replace (x + (p + q - x)) with (p + q) by ring end. rewrite rsum_bigsum.
        destruct (Nat.leb_spec i j) as [L|L]; cbn [orb].
        + symmetry. rewrite (bigsum_trunc RF n (Datatypes.S i)); [|lia|].
          * cbn [bigsum nadd NumR]. replace (min (Datatypes.S j) (min (n - 1) i)) with i by lia. f_equal.
            -- apply (@bigsum_ext NumR). intros t Hti. unfold l', u'. cbn [nmul NumR]. bcase; auto; lia.
            -- unfold l', u'. bcase; try lia. cbn [nmul NumR]. rring.
          * intros t Hti. unfold l'. bcase; try lia. apply Rmult_0_l.
        + replace (n - 1 <=? j)%nat with false by (symmetry; apply Nat.leb_gt; lia). rewrite Rplus_0_r. replace (min (Datatypes.S j) (min (n - 1) i)) with (Datatypes.S j) by lia.
          symmetry. rewrite (bigsum_trunc RF n (Datatypes.S j)); [|lia|].
          * apply (@bigsum_ext NumR). intros t Hti. unfold l', u'. cbn [nmul NumR]. bcase; auto; lia.
          * intros t Hti. unfold u'. bcase; try lia. apply Rmult_0_r.
      - rewrite (det_mult RF). rewrite (det_lower (N := NumR) RF n l'), (det_upper (N := NumR) RF n u').
        + assert (B1 : bigprod (N := NumR) n (fun i => l' i i) = 1).
          { clear -l'. induction n as [|m IH]; cbn [bigprod]; [reflexivity|]. rewrite IH. unfold l'. bcase; try lia. cbn [nmul NumR]. rring. }
          rewrite B1. cbn [nmul NumR]. rewrite Rmult_1_l. apply bigprod_ext. intros i Hi. unfold u'. now rewrite Nat.leb_refl.
        + intros i j Hi Hj. unfold u'. bcase; try lia. reflexivity.
        + intros i j Hi Hj. unfold l'. bcase; try lia. reflexivity. }
    rewrite D in D2. rewrite <- D2. pose proof (sgn_sqr RF cnt) as Sq. cbn [nmul n1 NumR] in *. rewrite <- Rmult_assoc, Sq. symmetry. apply Rmult_1_l.
Qed.
End Dets.
(** ** The product of the pivots *)
Section Product.
Variables (n : nat) (e : Z) (u : nat -> nat -> NumF64).
Notation B := (bpow radix2 (e + Z.of_nat n)).
Hypothesis Du : forall i, (i < n)%nat -> double (u i i).
Hypothesis Hu : forall i, (i < n)%nat -> finite (u i i) /\ Rabs (real (u i i)) <= B.
Variable s0 : NumF64.
Hypothesis D0 : double s0.
Hypothesis F0 : finite s0.
Hypothesis A0 : Rabs (real s0) = 1.
Definition exact_prod (k : nat) : R := (real s0 * bigprod (N := NumR) k (fun i => real (u i i) : NumR))%R.
Notation M := (Rmax 1 B).
Definition close (k : nat) (d : NumF64) : Prop := double d /\
  (finite d -> Rabs (real d - exact_prod k) <= ((1 + u64) ^ k - 1) * Rabs (exact_prod k) + INR k * (1 + u64) ^ k * eta64 * M ^ k) /\
  ((Z.of_nat n * Z.max 0 (e + Z.of_nat n) <= 1023)%Z -> finite d /\ Rabs (real d) <= bpow radix2 (Z.of_nat k * Z.max 0 (e + Z.of_nat n))).
Lemma close_0 : close 0 s0.
Proof.
  unfold close, exact_prod. cbn [bigprod n1 NumR]. split; [exact D0|]. split.
  - intros _. rewrite Rmult_1_r. match goal with |- Rabs (?x - ?x) <= _ => replace (x - x) with 0 by ring end. rewrite Rabs_R0. cbn [pow INR]. lra.
  - intros _. split; [exact F0|]. rewrite A0. cbn [Z.of_nat Z.mul bpow]. lra.
Qed.
Lemma close_S k d : (k < n)%nat -> close k d -> close (Datatypes.S k) (d * u k k)%num.
Proof.
  intros Hk (Dd & Hc & Hf). pose proof (Du k Hk) as Duk. destruct (Hu k Hk) as (Fuk & Buk). split; [apply mul_double; assumption|]. split.
  - intros F. destruct (mul_finite_args d (u k k) F) as (Fd & _). specialize (Hc Fd).
    destruct (mul_err d (u k k) Dd Duk F) as (dl & et & Hdl & Het & ->). clear F Hf.
    assert (E1 : exact_prod (Datatypes.S k) = exact_prod k * real (u k k)) by (unfold exact_prod; cbn [bigprod nmul NumR]; apply eq_sym, Rmult_assoc).
    rewrite E1. set (D := exact_prod k) in *. set (x := real d) in *. set (y := real (u k k)) in *. rewrite S_INR. cbn [pow].
    set (p := (1 + u64) ^ k) in *. pose proof u64_pos as Up. pose proof eta64_pos as Ep. pose proof (pow_ge_1 k) as Pk. fold p in Pk.
    pose proof (Rmax_l 1 B) as M1. pose proof (Rmax_r 1 B) as M2. set (m := Rmax 1 B) in *.
    assert (Mk : 1 <= m ^ k) by (apply pow_R1_Rle; exact M1). set (q := m ^ k) in *.
    assert (Hy : Rabs y <= m) by lra.
    replace (x * y * (1 + dl) + et - D * y) with ((x - D) * y * (1 + dl) + (D * y * dl + et)) by ring.
    eapply Rle_trans; [apply Rabs_triang|].
    assert (X : Rabs ((x - D) * y * (1 + dl)) <= (((p - 1) * Rabs D + INR k * p * eta64 * q) * Rabs y) * (1 + u64)).
    { rewrite !Rabs_mult. apply Rmult_le_compat; [apply Rmult_le_pos; apply Rabs_pos|apply Rabs_pos|apply Rmult_le_compat_r; [apply Rabs_pos|exact Hc]|].
      eapply Rle_trans; [apply Rabs_triang|]. rewrite Rabs_R1. lra. }
    assert (Y : Rabs (D * y * dl + et) <= Rabs D * Rabs y * u64 + eta64).
    { eapply Rle_trans; [apply Rabs_triang|]. rewrite !Rabs_mult. apply Rplus_le_compat; [|exact Het]. apply Rmult_le_compat_l; [|exact Hdl].
      apply Rmult_le_pos; apply Rabs_pos. }
    rewrite (Rabs_mult D y). pose proof (Rabs_pos D). pose proof (Rabs_pos y) as Yp. pose proof (pos_INR k) as Ip.
    assert (Z1 : INR k * p * eta64 * q * Rabs y * (1 + u64) <= INR k * p * eta64 * q * m * (1 + u64)).
    { apply Rmult_le_compat_r; [lra|]. apply Rmult_le_compat_l; [|exact Hy]. repeat apply Rmult_le_pos; lra. }
    assert (Z2 : eta64 <= (1 + u64) * p * eta64 * (m * q)).
    { assert (1 <= (1 + u64) * p) by (rewrite <- (Rmult_1_l 1); apply Rmult_le_compat; lra).
      assert (1 <= m * q) by (rewrite <- (Rmult_1_l 1); apply Rmult_le_compat; lra).
      rewrite <- (Rmult_1_r eta64) at 1. apply Rle_trans with (eta64 * (((1 + u64) * p) * (m * q))); [|right; ring].
      apply Rmult_le_compat_l; [lra|]. rewrite <- (Rmult_1_l 1). apply Rmult_le_compat; lra. }
    apply Rle_trans with ((((p - 1) * Rabs D + INR k * p * eta64 * q) * Rabs y) * (1 + u64) + (Rabs D * Rabs y * u64 + eta64)); [lra|].
    apply Rle_trans with (((1 + u64) * p - 1) * (Rabs D * Rabs y) + (INR k * p * eta64 * q * Rabs y * (1 + u64) + eta64)); [right; ring|].
    apply Rplus_le_compat_l. apply Rle_trans with (INR k * p * eta64 * q * m * (1 + u64) + (1 + u64) * p * eta64 * (m * q)); [lra|]. right. ring.
  - intros Hz. destruct (Hf Hz) as (Fd & Bd). clear Hf Hc. set (z := Z.max 0 (e + Z.of_nat n)) in *.
    assert (Hz0 : (0 <= z)%Z) by (unfold z; lia). assert (Hkn : (Z.of_nat (Datatypes.S k) * z <= 1023)%Z).
    { eapply Z.le_trans; [|exact Hz]. apply Z.mul_le_mono_nonneg_r; lia. }
    assert (X : Rabs (real d * real (u k k)) <= bpow radix2 (Z.of_nat (Datatypes.S k) * z)).
    { replace (Z.of_nat (Datatypes.S k) * z)%Z with (Z.of_nat k * z + z)%Z by lia. rewrite bpow_plus, Rabs_mult.
      apply Rmult_le_compat; [apply Rabs_pos|apply Rabs_pos|exact Bd|]. eapply Rle_trans; [exact Buk|]. apply bpow_le. unfold z. lia. }
    assert (Y : Rabs (rnd (real d * real (u k k))) <= bpow radix2 (Z.of_nat (Datatypes.S k) * z)) by (apply rnd_le_bpow; [lia|exact X]).
    assert (F : finite (d * u k k)%num) by (apply mul_finite; auto; eapply Rle_lt_trans; [exact Y|]; apply bpow_lt; lia).
    split; [exact F|]. rewrite (mul_real d (u k k) Dd Duk F). exact Y.
Qed.
End Product.

(** ** determinant() *)
Lemma sgn_real k : let s : NumF64 := if Nat.even k then n1 else (- n1)%num in double s /\ finite s /\ Rabs (real s) = 1 /\ real s = sgn (N := NumR) k.
Proof.
  cbv zeta. assert (S : sgn (N := NumR) k = if Nat.even k then 1 else - (1)).
  { induction k as [|k IH]; [reflexivity|]. cbn [sgn nopp NumR]. rewrite IH, Nat.even_succ, <- Nat.negb_even. destruct (Nat.even k); cbn [negb]; [reflexivity|apply Ropp_involutive]. }
  rewrite S. destruct (Nat.even k).
  - split; [reflexivity|]. split; [exact Logic.I|]. rewrite real_n1. split; [apply Rabs_R1|reflexivity].
  - assert (E : real (- (@n1 NumF64))%num = - (1)) by (rewrite <- real_n1; unfold real; cbn [nopp n1 NumF64 SFopp]; cbn; lra).
    split; [reflexivity|]. split; [exact Logic.I|]. rewrite E. split; [rewrite Rabs_Ropp; apply Rabs_R1|reflexivity].
Qed.
Section Catch.
Context {I : MatI NumF64} (HL : MatLaws I).
Lemma det_catch n e a ld (r : res (I * I * I * nat)) : (0 < n)%nat -> (e + Z.of_nat n <= 1022)%Z -> (forall i, (i < n)%nat -> ld i i = n1) ->
  post r (fun r => let '(L, U, P, cnt) := r in exists l u rt, MatI.holds U n n u /\ finv n a ld (n - 1) l u rt cnt /\ grow n e (n - 1) l u /\ (cnt < n)%nat)
    (fun ex => ex = Singular /\ exists k l u rt cnt, stuck_float n a ld e k l u rt cnt) ->
  returns (catch_math (let* x := r in det_product (snd (fst (fst x))) (snd x))) (fun d => double d /\ float_det n e a d /\
    ((Z.of_nat n * Z.max 0 (e + Z.of_nat n) <= 1023)%Z -> finite d)).
Proof.
  intros Hn Hen Hld. destruct r as [(((L, U), P), cnt)|ex| | | |]; cbn [post]; try contradiction.
  - intros (l & u & rt & HU & Hinv & Hg & Hc). cbn [bind fst snd].
    destruct (sgn_real cnt) as (D0 & F0 & A0 & S0). set (s0 := if Nat.even cnt then n1 else (- n1)%num : NumF64) in *.
    assert (Du : forall i, (i < n)%nat -> double (u i i)) by (intros i Hi; destruct Hinv as (_ & _ & _ & Du & _); apply Du; auto).
    assert (Hu : forall i, (i < n)%nat -> finite (u i i) /\ Rabs (real (u i i)) <= bpow radix2 (e + Z.of_nat n)).
    { intros i Hi. split; [apply Hg; auto|]. apply (grow_le n e (n - 1) i i l u); auto; lia. }
    destruct (for_returns (fun k d => close n e u s0 k d) 0 n (fun i (d : NumF64) => let* x := mi_at U i i in Ok (d * x)%num) s0) as (d & E & (Dd & Hcl & Hf)); [lia|apply close_0; assumption| |].
    { intros k s Hk Hs. rewrite (MatIProofs.holds_at _ _ _ _ _ _ HU) by lia. cbn [bind]. eexists. split; [reflexivity|]. apply close_S; auto; lia. }
    assert (E' : det_product U cnt = Ok d) by (unfold det_product; rewrite (MatIProofs.holds_rows _ _ _ _ HU); exact E).
    rewrite E'. cbn [catch_math]. exists d. split; [reflexivity|]. split; [exact Dd|]. split; [|intros Hz; apply (proj1 (Hf Hz))].
    left. destruct (pivots_det n e a ld Hen l u rt cnt Hn Hinv Hg) as (E0 & HE & DE). exists E0. split; [exact HE|]. intros Fd.
    rewrite DE, <- S0. specialize (Hcl Fd). unfold det_rounding. rewrite <- (B_powerRZ n e). exact Hcl.
  - intros [-> (k & l & u & rt & cnt & Hst)]. cbn [bind catch_math is_math_exn]. exists n0. split; [reflexivity|].
    split; [reflexivity|]. split; [|intros _; exact Logic.I]. right. split; [reflexivity|].
    destruct (stuck_singular n e a ld Hen k l u rt cnt Hst) as (E & c & Hc & HE & DE). eauto.
Qed.
End Catch.
Lemma bounded_bpow n e a : entries_bounded n e a -> forall i j, (i < n)%nat -> (j < n)%nat -> finite (a i j) /\ Rabs (real (a i j)) <= bpow radix2 e.
Proof. intros H i j Hi Hj. rewrite bpow_powerRZ. apply (H i j Hi Hj). Qed.
Lemma det_dense_f (A : DenseI NumF64) n e a : (0 < n)%nat -> MatI.holds A n n a -> doubles2 n n a -> (-1074 <= e)%Z -> (e + Z.of_nat n <= 1022)%Z -> entries_bounded n e a ->
  returns (det_dense A) (fun d => double d /\ float_det n e a d /\ ((Z.of_nat n * Z.max 0 (e + Z.of_nat n) <= 1023)%Z -> finite d)).
Proof.
  intros Hn HA Da He Hen Ha. unfold det_dense. rewrite (holds_rows _ _ _ _ HA), (holds_cols _ _ _ _ HA).
  destruct (holds_new (I := DenseI NumF64) dense_laws n n Hn Hn) as (L0 & -> & HL0). cbn [bind].
  apply (det_catch n e a (ldiag (fun _ _ => n0))); [exact Hn|exact Hen|intros i _; unfold ldiag; now rewrite Nat.eqb_refl|].
  unfold doolittle_dense. rewrite (holds_rows _ _ _ _ HA), (holds_cols _ _ _ _ HA), (holds_rows _ _ _ _ HL0), (holds_cols _ _ _ _ HL0).
  rewrite Nat.eqb_refl. cbn [negb orb].
  eapply post_mono; [apply (main_g (fun x => x) dense_sets (fun _ => eq_refl) (fun _ H => H) (fun _ => conj (fun H => H) (fun H => H)) eq_refl n a (fun _ _ => n0) (fun _ _ => n0) e A L0); try exact (bounded_bpow n e a Ha); auto|..].
  - intros i j _ _. reflexivity.
  - exists L0. auto.
  - intros (((L, U), P), cnt) (l & u & rt & _ & HU & _ & H1 & H2 & H3). exists l, u, rt. auto.
  - auto.
Qed.
Lemma det_fixed_f (A : DenseI NumF64) n e a : (0 < n)%nat -> MatI.holds A n n a -> doubles2 n n a -> (-1074 <= e)%Z -> (e + Z.of_nat n <= 1022)%Z -> entries_bounded n e a ->
  returns (det_fixed A) (fun d => double d /\ float_det n e a d /\ ((Z.of_nat n * Z.max 0 (e + Z.of_nat n) <= 1023)%Z -> finite d)).
Proof.
  intros Hn HA Da He Hen Ha. unfold det_fixed. rewrite (holds_rows _ _ _ _ HA), (holds_cols _ _ _ _ HA).
  assert (HL0 : MatI.holds (d_fixed_new n n : DenseI NumF64) n n (fun _ _ => n0)) by apply holds_fixed.
  apply (det_catch n e a (ldiag (fun _ _ => n0))); [exact Hn|exact Hen|intros i _; unfold ldiag; now rewrite Nat.eqb_refl|].
  unfold doolittle_dense. rewrite (holds_rows _ _ _ _ HA), (holds_cols _ _ _ _ HA), (holds_rows _ _ _ _ HL0), (holds_cols _ _ _ _ HL0).
  rewrite Nat.eqb_refl. cbn [negb orb].
  eapply post_mono; [apply (main_g (fun x => x) dense_sets (fun _ => eq_refl) (fun _ H => H) (fun _ => conj (fun H => H) (fun H => H)) eq_refl n a (fun _ _ => n0) (fun _ _ => n0) e A (d_fixed_new n n)); try exact (bounded_bpow n e a Ha); auto|..].
  - intros i j _ _. reflexivity.
  - eexists. split; [reflexivity|exact HL0].
  - intros (((L, U), P), cnt) (l & u & rt & _ & HU & _ & H1 & H2 & H3). exists l, u, rt. auto.
  - auto.
Qed.
Lemma det_sparse_f (A : SparseI NumF64) n e a : (0 < n)%nat -> MatI.holds A n n a -> doubles2 n n a -> (-1074 <= e)%Z -> (e + Z.of_nat n <= 1022)%Z -> entries_bounded n e a ->
  returns (det_sparse A) (fun d => double d /\ float_det n e a d /\ ((Z.of_nat n * Z.max 0 (e + Z.of_nat n) <= 1023)%Z -> finite d)).
Proof.
  intros Hn HA Da He Hen Ha. unfold det_sparse. rewrite (holds_rows _ _ _ _ HA), (holds_cols _ _ _ _ HA).
  assert (Z : exists m, @mi_new NumF64 (SparseI NumF64) n n = Ok m /\ MatI.holds m n n (fun _ _ => n0)).
  { destruct (SparseProofs.srep_new (N := NumF64) n n Hn Hn) as (m & E & _). exists m. split; [exact E|].
    apply s_holds. split; [eapply b_new; eauto|]. now apply (new_inv NumF64_zero_laws) in E. }
  destruct Z as (Zm & E & HZm). rewrite E. cbn [bind].
  apply (det_catch n e a (ldiag (fun _ _ => n0))); [exact Hn|exact Hen|intros i _; unfold ldiag; now rewrite Nat.eqb_refl|].
  unfold doolittle_sparse. rewrite (holds_rows _ _ _ _ HA), (holds_cols _ _ _ _ HA). rewrite Nat.eqb_refl. cbn [negb]. rewrite E. cbn [bind].
  eapply post_mono; [apply (main_g norm0 sparse_sets norm0_real norm0_double norm0_finite eq_refl n a (fun _ _ => n0) (fun _ _ => n0) e A Zm); try exact (bounded_bpow n e a Ha); auto|..].
  - intros i j _ _. reflexivity.
  - exists Zm. auto.
  - intros (((L, U), P), cnt) (l & u & rt & _ & HU & _ & H1 & H2 & H3). exists l, u, rt. auto.
  - auto.
Qed.
(** ** The decomposition of a bounded matrix cannot overflow: the premises of C75 hold. *)
Lemma grow_usable n e l u l0 a rt cnt : (e + Z.of_nat n <= 1022)%Z -> finv n a l0 (n - 1) l u rt cnt -> grow n e (n - 1) l u -> lu_usable n l u /\ all_finite n u.
Proof.
  intros Hen _ (Hu & Hl). split; [split; [|split]|].
  - intros i j Hij. apply Hl; lia.
  - intros i j Hij. apply Hu; lia.
  - intros j Hj. destruct (Hu j j Hj Hj) as (_ & H). eapply Rle_trans; [exact H|]. change (powerRZ 2 1022) with (powerRZ (IZR radix2) 1022). rewrite <- bpow_powerRZ. apply bpow_le. lia.
  - intros i j Hi Hj. apply Hu; auto.
Qed.
