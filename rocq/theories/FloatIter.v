(** Jacobi and SOR on doubles: what stopping by tolerance guarantees. *)
From Coq Require Import ZArith Reals List Arith SpecFloat Lia Lra.
From Flocq Require Import Core.
From Verif Require Import Base BaseProofs Num NumInst Spec SpecProofs VectorModel VectorSpec VectorProofs
  SparseModel SparseSpec SparsePropProofs DenseModel DenseSpec DenseProofs DensePropProofs MatI MatIProofs MatOps MatOpsProofs OrderProofs
  ConstructProofs DetSpec DetProofs LUModel LUProofs LUSolve IterModel FloatSpec F64Flocq FloatProofs FloatResult FloatSolve FloatLU FloatIterSpec.
Import ListNotations.
Local Open Scope nat_scope.
Open Scope res_scope.

(** ** The loops *)
Definition off (keep : nat -> bool) (i n : nat) : list nat := filter (fun j => negb (j =? i)) (filter keep (seq 0 n)).
Definition mid (keep : nat -> bool) (f : nat -> NumF64) (i n : nat) : NumF64 := if existsb (Nat.eqb i) (filter keep (seq 0 n)) then f i else n0.

Lemma row_loop i (f v : nat -> NumF64) (body : nat * NumF64 -> NumF64 * NumF64 -> res (NumF64 * NumF64)) l :
  (forall j st, In j l -> body (j, f j) st = if j =? i then Ok (f j, snd st) else Ok (fst st, snd st + f j * v j)%num) ->
  forall m t, foreach (map (fun j => (j, f j)) l) body (m, t) =
    Ok (if existsb (Nat.eqb i) l then f i else m, fold_left (fun s j => (s + f j * v j)%num) (filter (fun j => negb (j =? i)) l) t).
Proof.
  induction l as [|j l IH]; intros H m t; [reflexivity|].
  cbn [map foreach]. rewrite H by now left. cbn [existsb filter]. rewrite (Nat.eqb_sym i j).
  destruct (Nat.eqb_spec j i) as [->|Hn]; cbn [bind fst snd negb orb fold_left]; rewrite IH by (intros; apply H; now right).
  - now destruct (existsb _ l).
  - reflexivity.
Qed.
Lemma jac_row_ok i x keep (f : nat -> NumF64) n : length x = n ->
  jac_row i x (map (fun j => (j, f j)) (filter keep (seq 0 n)))
  = Ok (mid keep f i n, acc (off keep i n) (fun j => (f j * nth j x n0)%num)).
Proof.
  intros Hx. unfold jac_row. apply (row_loop i f (fun j => nth j x n0)). intros j st Hj. apply filter_In in Hj as [Hj _]. apply in_seq in Hj.
  cbn [fst snd]. destruct (Nat.eqb_spec j i) as [->|Hn]; cbn [negb]; [reflexivity|]. rewrite v_at_ok by lia. reflexivity.
Qed.
Definition mixed (i : nat) (y x : list NumF64) (j : nat) : NumF64 := if j <? i then nth j y n0 else nth j x n0.
Lemma sor_row_ok i x xm keep (f : nat -> NumF64) n : length x = n -> length xm = n ->
  sor_row i x xm (map (fun j => (j, f j)) (filter keep (seq 0 n)))
  = Ok (mid keep f i n, acc (off keep i n) (fun j => (f j * mixed i xm x j)%num)).
Proof.
  intros Hx Hm. unfold sor_row. apply (row_loop i f (mixed i xm x)). intros j st Hj. apply filter_In in Hj as [Hj _]. apply in_seq in Hj.
  cbn [fst snd]. unfold mixed. destruct (Nat.ltb_spec j i) as [L|L].
  - rewrite v_at_ok by lia. destruct (Nat.eqb_spec j i); [lia|]. reflexivity.
  - destruct (Nat.ltb_spec i j) as [L2|L2].
    + rewrite v_at_ok by lia. destruct (Nat.eqb_spec j i); [lia|]. reflexivity.
    + destruct (Nat.eqb_spec j i); [reflexivity|lia].
Qed.
Lemma acc_ext {A} (l : list A) f g : (forall i, In i l -> f i = g i) -> acc l f = acc l g.
Proof.
  unfold acc. generalize (n0 : NumF64) as s. induction l as [|i l IH]; intros s H; [reflexivity|]. cbn [fold_left]. rewrite H by now left. apply IH.
  intros; apply H; now right.
Qed.

(** ** Reading one value of a sweep *)
Definition quot keep (f v : nat -> NumF64) i n (b : NumF64) : NumF64 := ((b - acc (off keep i n) (fun j => (f j * v j)%num)) / mid keep f i n)%num.
Definition blend (w old t : NumF64) : NumF64 := ((n1 - w) * old + w * t)%num.

Section Sweeps.
Context {M : RowMat NumF64}.
Hypothesis HR : RowReads M.
Variables (A : M) (n : nat) (a : nat -> nat -> NumF64) (b : list NumF64).
Hypotheses (HA : MatI.holds A n n a) (Hb : length b = n).

Lemma jac_sweep_ok x xm : length x = n -> length xm = n -> exists y, jac_sweep A b x xm = Ok y /\ length y = n /\
  forall i, i < n -> exists keep, skips keep (a i) n /\ nth i y n0 = quot keep (a i) (fun j => nth j x n0) i n (nth i b n0).
Proof.
  intros Hx Hm. unfold jac_sweep. rewrite (holds_rows _ _ _ _ HA).
  assert (R : returns (for_ 0 n (fun i xm => let* row := rm_row A i in let* mt := jac_row i x row in let* bi := v_at b i in
      v_set xm i ((bi - snd mt) / fst mt)%num) xm) (fun y => length y = n /\ forall i, i < n ->
      exists keep, skips keep (a i) n /\ nth i y n0 = quot keep (a i) (fun j => nth j x n0) i n (nth i b n0))).
  { eapply returns_mono; [apply (for_returns (fun k y => length y = n /\ forall i, i < k ->
      exists keep, skips keep (a i) n /\ nth i y n0 = quot keep (a i) (fun j => nth j x n0) i n (nth i b n0)))|]; try lia.
    - split; auto. lia.
    - intros i y Hi (Hl & H1). destruct (HR A n n a i HA) as (keep & -> & Hk); [lia|]. cbn [bind].
      rewrite jac_row_ok by auto. cbn [bind]. rewrite v_at_ok by lia. cbn [bind fst snd]. rewrite v_set_ok by lia.
      eexists. split; [reflexivity|]. split; [now rewrite upd_length|]. intros r Hr. destruct (Nat.eq_dec r i) as [->|Hne].
      + exists keep. split; auto. now rewrite nth_upd_eq by lia.
      + rewrite nth_upd_ne by lia. apply H1. lia.
    - intros y H. exact H. }
  destruct R as (y & E & H). exists y. tauto.
Qed.
Lemma sor_sweep_ok w x xm : length x = n -> length xm = n -> exists y, sor_sweep A b w x xm = Ok y /\ length y = n /\
  forall i, i < n -> exists keep, skips keep (a i) n /\ nth i y n0 = blend w (nth i xm n0) (quot keep (a i) (mixed i y x) i n (nth i b n0)).
Proof.
  intros Hx Hm. unfold sor_sweep. rewrite (holds_rows _ _ _ _ HA).
  assert (R : returns (for_ 0 n (fun i xm => let* row := rm_row A i in let* mt := sor_row i x xm row in let* bi := v_at b i in
      let t := ((bi - snd mt) / fst mt)%num in let* xi := v_at xm i in
      v_set xm i ((n1 - w) * xi + w * t)%num) xm) (fun y => length y = n /\ forall i, i < n ->
      exists keep, skips keep (a i) n /\ nth i y n0 = blend w (nth i xm n0) (quot keep (a i) (mixed i y x) i n (nth i b n0)))).
  { eapply returns_mono; [apply (for_returns (fun k y => length y = n /\ (forall i, i < k ->
      exists keep, skips keep (a i) n /\ nth i y n0 = blend w (nth i xm n0) (quot keep (a i) (mixed i y x) i n (nth i b n0))) /\
      forall i, k <= i -> nth i y n0 = nth i xm n0))|]; try lia.
    - split; auto. split; auto. lia.
    - intros i y Hi (Hl & H1 & H2). destruct (HR A n n a i HA) as (keep & -> & Hk); [lia|]. cbn [bind].
      rewrite sor_row_ok by auto. cbn [bind]. rewrite v_at_ok by lia. cbn [bind fst snd]. rewrite v_at_ok by lia. cbn [bind]. rewrite v_set_ok by lia.
      eexists. split; [reflexivity|]. split; [now rewrite upd_length|]. split.
      + assert (X : forall r z, r <= i -> forall kp, quot kp (a r) (mixed r (upd y i z) x) r n (nth r b n0) = quot kp (a r) (mixed r y x) r n (nth r b n0)).
        { intros r z Hr kp. unfold quot. f_equal. f_equal. apply acc_ext. intros j _. f_equal. unfold mixed.
          destruct (Nat.ltb_spec j r); [|reflexivity]. now rewrite nth_upd_ne by lia. }
        intros r Hr. destruct (Nat.eq_dec r i) as [->|Hne].
        * exists keep. split; auto. rewrite nth_upd_eq, X by lia. rewrite (H2 i) by lia. reflexivity.
        * rewrite nth_upd_ne by lia. destruct (H1 r ltac:(lia)) as (kp & K1 & K2). exists kp. split; auto. rewrite X by lia. exact K2.
      + intros r Hr. rewrite nth_upd_ne by lia. apply H2. lia.
    - intros y (H1 & H2 & _). split; auto. }
  destruct R as (y & E & H). exists y. tauto.
Qed.
End Sweeps.

(** ** The iteration: the last sweep of a run that stopped by the tolerance *)
Lemma sweeps_end sweep (P : list NumF64 -> Prop) eps2 : (forall x xm, P x -> P xm -> exists y, sweep x xm = Ok y /\ P y) ->
  forall fuel it maxIter x xm y k, P x -> P xm -> it + fuel = maxIter ->
  sweeps sweep fuel it maxIter eps2 x xm = Ok (y, k) -> k < maxIter ->
  it < k /\ exists x' xm', P x' /\ P xm' /\ sweep x' xm' = Ok y /\ conv_test eps2 x' y = Ok true /\
    ((k = it + 1 /\ xm' = xm) \/ (it + 1 < k /\ xm' = x')) /\
    sweeps sweep (k - 1 - it) it (k - 1) eps2 x xm = Ok (x', k - 1).
Proof.
  intros HS. induction fuel as [|fuel IH]; intros it maxIter x xm y k Px Pm Hm E Hk; cbn [sweeps] in E.
  - injection E as _ <-. lia.
  - destruct (HS x xm Px Pm) as (z & Ez & Pz). rewrite Ez in E. cbn [bind] in E.
    destruct (conv_test eps2 x z) as [[]| | | | |] eqn:Ec; cbn [bind] in E; try discriminate.
    + injection E as <- <-. split; [lia|]. exists x, xm. replace (it + 1 - 1 - it) with 0 by lia. replace (it + 1 - 1) with it by lia.
      repeat split; auto.
    + destruct (IH (S it) maxIter z z y k Pz Pz ltac:(lia) E Hk) as (Hlt & x' & xm' & P1 & P2 & E1 & E2 & E3 & E4).
      split; [lia|]. exists x', xm'. split; auto. split; auto. split; auto. split; auto. split.
      * right. split; [lia|]. destruct E3 as [(K1 & K2)|(K1 & K2)]; auto. subst xm'.
        replace (k - 1 - S it) with 0 in E4 by lia. cbn [sweeps] in E4. now injection E4 as ->.
      * replace (k - 1 - it) with (S (k - 1 - S it)) by lia. cbn [sweeps]. rewrite Ez. cbn [bind]. rewrite Ec. cbn [bind]. exact E4.
Qed.

(** ** Rounding *)
Local Open Scope R_scope.
Lemma rnd_0 : rnd 0 = 0.
Proof. apply rnd_id. apply generic_format_0. Qed.
Lemma rnd_le x y : x <= y -> rnd x <= rnd y.
Proof. intros H. assert (P : Prec_gt_0 53) by reflexivity. apply round_le; auto with typeclass_instances. Qed.

(** Terms that are zero leave the accumulated value as it is. *)
Lemma acc_filter {A} (p : A -> bool) (l : list A) f : (forall i, In i l -> double (f i)) ->
  (forall i, In i l -> p i = false -> finite (f i) -> real (f i) = 0) -> finite (acc l f) ->
  finite (acc (filter p l) f) /\ real (acc (filter p l) f) = real (acc l f).
Proof.
  induction l as [|i l IH] using rev_ind; intros D Z F; [auto|].
  assert (Di : double (f i)) by (apply D, in_or_app; simpl; auto).
  assert (Dl : double (acc l f)) by (apply acc_double; intros; apply D, in_or_app; auto).
  assert (Df : double (acc (filter p l) f)) by (apply acc_double; intros k Hk; apply filter_In in Hk as [Hk _]; apply D, in_or_app; auto).
  rewrite acc_snoc in F. destruct (add_finite_args _ _ F) as [Fl Fi].
  destruct IH as [F1 E1]; auto; try (intros; first [apply D|apply Z]; auto; apply in_or_app; auto).
  pose proof (add_real _ _ Dl Di F) as Er.
  rewrite filter_app, acc_snoc. cbn [filter]. destruct (p i) eqn:Ep.
  - rewrite acc_snoc. assert (F2 : finite (acc (filter p l) f + f i)%num).
    { apply add_finite; auto. rewrite E1, <- Er. apply real_lt_max. now apply add_double. }
    split; auto. rewrite (add_real _ _ Df Di F2), E1. now rewrite Er.
  - rewrite app_nil_r. split; auto. rewrite E1, Er, (Z i); auto; [|apply in_or_app; simpl; auto].
    rewrite Rplus_0_r. symmetry. apply rnd_id. now apply real_format.
Qed.
(** A sum of terms that are not negative is at least each of them. *)
Lemma acc_ge {A} (l : list A) f : (forall i, In i l -> double (f i)) -> (forall i, In i l -> 0 <= real (f i)) -> finite (acc l f) ->
  0 <= real (acc l f) /\ forall i, In i l -> real (f i) <= real (acc l f).
Proof.
  induction l as [|i l IH] using rev_ind; intros D Z F.
  - split; [cbn; lra|intros ? []].
  - assert (Di : double (f i)) by (apply D, in_or_app; simpl; auto).
    assert (Dl : double (acc l f)) by (apply acc_double; intros; apply D, in_or_app; auto).
    rewrite acc_snoc in *. destruct (add_finite_args _ _ F) as [Fl Fi].
    destruct IH as [F1 E1]; auto; try (intros; first [apply D|apply Z]; auto; apply in_or_app; auto).
    rewrite (add_real _ _ Dl Di F). pose proof (Z i ltac:(apply in_or_app; simpl; auto)) as Zi.
    assert (G1 : real (acc l f) <= rnd (real (acc l f) + real (f i))).
    { rewrite <- (rnd_id (real (acc l f))) at 1 by now apply real_format. apply rnd_le. lra. }
    assert (G2 : real (f i) <= rnd (real (acc l f) + real (f i))).
    { rewrite <- (rnd_id (real (f i))) at 1 by now apply real_format. apply rnd_le. lra. }
    split; [lra|]. intros k Hk. apply in_app_or in Hk as [Hk|[<-|[]]]; auto. specialize (E1 k Hk). lra.
Qed.

(** Error of a sum of products, counting only the factors that are not zero. *)
Lemma dot_error_nz {A} (l : list A) (x y : A -> NumF64) : (forall i, In i l -> double (x i) /\ double (y i)) ->
  finite (acc l (fun i => (x i * y i)%num)) ->
  (forall i, In i l -> finite (x i) /\ finite (y i)) /\
  Rabs (real (acc l (fun i => (x i * y i)%num)) - rlist l (fun i => real (x i) * real (y i)))
    <= dot_bound (length (filter (fun i => negb (is0 (x i))) l)) (rlist l (fun i => Rabs (real (x i) * real (y i)))).
Proof.
  intros H F. pose proof (proj1 (dot_error l x y H F)) as Ff. split; auto.
  set (p := fun i => negb (is0 (x i))).
  assert (D : forall i, In i l -> double (x i * y i)%num) by (intros i Hi; destruct (H i Hi); now apply mul_double).
  assert (Z0 : forall i, In i l -> p i = false -> real (x i) = 0).
  { intros i Hi E. unfold p in E. apply (is0_real (x i)). now destruct (is0 (x i)). }
  destruct (acc_filter p l (fun i => (x i * y i)%num) D) as [F1 E1]; auto.
  { intros i Hi Ep Fi. destruct (H i Hi). rewrite mul_real by auto. rewrite (Z0 i Hi Ep), Rmult_0_l. apply rnd_0. }
  rewrite <- E1. destruct (dot_error (filter p l) x y) as [_ B]; auto.
  { intros i Hi. apply filter_In in Hi as [Hi _]. auto. }
  rewrite !rlist_filter in B; try exact B.
  - intros i Hi Ep. rewrite (Z0 i Hi Ep), Rmult_0_l. apply Rabs_R0.
  - intros i Hi Ep. rewrite (Z0 i Hi Ep), Rmult_0_l. reflexivity.
Qed.

Lemma filter_filter_len {A} (p q : A -> bool) l : (length (filter p (filter q l)) <= length (filter p l))%nat.
Proof. induction l as [|x l IH]; simpl; auto. destruct (q x); simpl; destruct (p x); simpl; lia. Qed.
Lemma rlist_off n keep i (g : nat -> R) : (forall j, (j < n)%nat -> keep j = false -> g j = 0) -> rlist (off keep i n) g = roff n i g.
Proof.
  intros H. unfold off, roff. rewrite <- rlist_seq.
  rewrite <- (rlist_filter (seq 0 n) keep).
  - generalize (filter keep (seq 0 n)) as l. induction l as [|j l IH]; [reflexivity|]. cbn [filter rlist].
    destruct (j =? i)%nat; cbn [negb rlist]; rewrite IH; lra.
  - intros j Hj E. apply in_seq in Hj. destruct (j =? i)%nat; [reflexivity|]. apply H; auto; lia.
Qed.
Lemma mid_facts keep (f : nat -> NumF64) i n : (i < n)%nat -> skips keep f n -> double (f i) -> finite (f i) ->
  double (mid keep f i n) /\ finite (mid keep f i n) /\ real (mid keep f i n) = real (f i).
Proof.
  intros Hi K D F. unfold mid. destruct (existsb (Nat.eqb i) (filter keep (seq 0 n))) eqn:E; auto.
  split; [exact double_zero|]. split; [exact finite_zero|]. symmetry.
  apply is0_real. apply K; auto. destruct (keep i) eqn:Ek; auto. exfalso.
  assert (X : existsb (Nat.eqb i) (filter keep (seq 0 n)) = true); [|congruence].
  apply existsb_exists. exists i. split; [|apply Nat.eqb_refl]. apply filter_In. split; auto. apply in_seq. lia.
Qed.
Lemma quot_double keep (f v : nat -> NumF64) i n b : (i < n)%nat -> skips keep f n -> (forall j, (j < n)%nat -> double (f j)) ->
  (forall j, (j < n)%nat -> double (v j)) -> double b -> double (quot keep f v i n b).
Proof.
  intros Hi K Df Dv Db. unfold quot. apply div_double.
  - apply sub_double; auto. apply acc_double. intros j Hj. unfold off in Hj. apply filter_In in Hj as [Hj _].
    apply filter_In in Hj as [Hj _]. apply in_seq in Hj. apply mul_double; [apply Df|apply Dv]; lia.
  - unfold mid. destruct (existsb _ _); auto. exact double_zero.
Qed.

Lemma quot_error keep (f v : nat -> NumF64) i n b : (i < n)%nat -> skips keep f n ->
  (forall j, (j < n)%nat -> double (f j)) -> finite (f i) -> (forall j, (j < n)%nat -> double (v j)) -> double b ->
  finite (quot keep f v i n b) ->
  finite b /\ real (f i) <> 0 /\
  Rabs (real (f i) * real (quot keep f v i n b) - (real b - roff n i (fun j => real (f j) * real (v j))))
    <= row_bound (nonzero_count n f + 2) (Rabs (real b) + roff n i (fun j => Rabs (real (f j) * real (v j)))) (real (f i)).
Proof.
  intros Hi K Df Fi Dv Db F. unfold quot in *.
  destruct (mid_facts keep f i n Hi K (Df i Hi) Fi) as (Dm & Fm & Em).
  set (m := mid keep f i n) in *. set (l := off keep i n) in *.
  assert (Hl : forall j, In j l -> double (f j) /\ double (v j)).
  { intros j Hj. unfold l, off in Hj. apply filter_In in Hj as [Hj _]. apply filter_In in Hj as [Hj _]. apply in_seq in Hj.
    split; [apply Df|apply Dv]; lia. }
  set (t := acc l (fun j => (f j * v j)%num)) in *.
  assert (Dt : double t) by (apply acc_double; intros j Hj; destruct (Hl j Hj); now apply mul_double).
  assert (Dn : double (b - t)%num) by now apply sub_double.
  destruct (div_finite_args _ _ Dm F) as [Fn N0]. specialize (N0 Fm). rewrite Em in N0.
  destruct (sub_finite_args _ _ Fn) as [Fb Ft].
  destruct (dot_error_nz l f v Hl Ft) as [_ B]. fold t in B.
  set (c := length (filter (fun j => negb (is0 (f j))) l)) in *.
  assert (Hc : (c <= nonzero_count n f)%nat).
  { unfold c, l, off. rewrite <- nonzero_count_filter. eapply Nat.le_trans; apply filter_filter_len.
  }
  assert (Z0 : forall j, (j < n)%nat -> keep j = false -> real (f j) = 0) by (intros j Hj E; apply is0_real; now apply K).
  unfold l in B. rewrite !rlist_off in B by (intros j Hj E; rewrite (Z0 j Hj E), Rmult_0_l; try apply Rabs_R0; reflexivity).
  set (S := roff n i (fun j => real (f j) * real (v j))) in *.
  set (T := roff n i (fun j => Rabs (real (f j) * real (v j)))) in *.
  split; auto. split; auto.
  assert (ST : Rabs S <= T).
  { unfold S, T, roff. rewrite <- !rlist_seq. eapply Rle_trans; [apply rlist_abs|]. apply rlist_le. intros j _.
    destruct (j =? i)%nat; [rewrite Rabs_R0|]; lra. }
  eapply Rle_trans; [|apply (row_bound_mono (c + 2)); [lia|pose proof (Rabs_pos (real b)); pose proof (Rabs_pos S); lra]].
  destruct (sub_err b t Db Dt Fn) as (d & Hd & En). destruct (div_err _ m Dn Dm Fm F) as (d' & e & Hd' & He & Eq).
  rewrite Eq, En, Em. set (rb := real b) in *. set (rt := real t) in *. set (rm := real (f i)) in *.
  replace (rm * ((rb - rt) * (1 + d) / rm * (1 + d') + e) - (rb - S))
    with ((rb - rt) * (d + d' + d * d') + (S - rt) + rm * e) by (field; auto).
  unfold row_bound, dot_bound in *. rewrite pow_add. pose proof (pow_ge_1 c) as P. set (w := (1 + u64) ^ c) in *.
  pose proof u64_pos as U. pose proof eta64_pos as V. set (u := u64) in *. set (eta := eta64) in *.
  pose proof (pos_INR c) as I. rewrite plus_INR. set (ic := INR c) in *. change (INR 2) with (1 + 1).
  assert (G : Rabs (d + d' + d * d') <= u + u + u * u).
  { eapply Rle_trans; [apply Rabs_triang|]. pose proof (Rabs_triang d d'). rewrite (Rabs_mult d d').
    assert (Rabs d * Rabs d' <= u * u) by (apply Rmult_le_compat; auto; apply Rabs_pos). lra. }
  assert (Hbt : Rabs (rb - rt) <= Rabs rb + T + ((w - 1) * T + ic * w * eta)).
  { replace (rb - rt) with (rb + (- S + (S - rt))) by ring. eapply Rle_trans; [apply Rabs_triang|].
    pose proof (Rabs_triang (- S) (S - rt)). rewrite Rabs_Ropp in H. rewrite (Rabs_minus_sym S rt) in H. lra. }
  assert (X1 : Rabs ((rb - rt) * (d + d' + d * d')) <= (Rabs rb + T + ((w - 1) * T + ic * w * eta)) * (u + u + u * u)).
  { rewrite Rabs_mult. apply Rmult_le_compat; auto; apply Rabs_pos. }
  assert (X2 : Rabs (rm * e) <= Rabs rm * eta) by (rewrite Rabs_mult; apply Rmult_le_compat_l; [apply Rabs_pos|auto]).
  pose proof (Rabs_pos rb) as Pb. pose proof (Rabs_pos rm) as Pm. pose proof (Rabs_pos S) as PS.
  eapply Rle_trans; [apply Rabs_triang|]. eapply Rle_trans; [apply Rplus_le_compat_r, Rabs_triang|].
  rewrite (Rabs_minus_sym S rt).
  set (g := u + u + u * u) in *. assert (Eg : (1 + u) ^ 2 = 1 + g) by (unfold g; ring). rewrite Eg.
  assert (Pg : 0 <= g) by (unfold g; nra).
  assert (Y1 : 0 <= (w - 1) * ((1 + g) * Rabs rb)) by (apply Rmult_le_pos; [lra|apply Rmult_le_pos; lra]).
  assert (Y2 : 0 <= (w * (1 + g) - 1) * (Rabs rm * eta)).
  { apply Rmult_le_pos; [|apply Rmult_le_pos; lra]. assert (1 * 1 <= w * (1 + g)) by (apply Rmult_le_compat; lra). lra. }
  assert (Y3 : 0 <= 2 * (w * (1 + g)) * eta) by (repeat apply Rmult_le_pos; lra).
  lra.
Qed.

(** ** The stopping test *)
Lemma pow_u_le_3 k : (Z.of_nat k <= 2 ^ 53)%Z -> (1 + u64) ^ k <= 3.
Proof.
  intros H. pose proof u64_pos as U.
  assert (E : (1 + u64) ^ k <= exp (INR k * u64)).
  { induction k as [|k IH]; [simpl; rewrite Rmult_0_l, exp_0; lra|]. rewrite S_INR. cbn [pow].
    replace ((INR k + 1) * u64) with (u64 + INR k * u64) by ring. rewrite exp_plus.
    apply Rmult_le_compat; [lra|pose proof (pow_ge_1 k); lra| |apply IH; lia]. left. apply exp_ineq1. lra. }
  eapply Rle_trans; [exact E|]. apply Rle_trans with (exp 1); [|apply exp_le_3].
  assert (Hu : INR k * u64 <= 1).
  { rewrite INR_IZR_INZ. apply IZR_le in H. apply Rle_trans with (IZR (2 ^ 53) * u64); [apply Rmult_le_compat_r; lra|].
    unfold u64. change (2 ^ 53)%Z with 9007199254740992%Z. simpl. lra. }
  destruct Hu as [Hu| ->]; [left; now apply exp_increasing|lra].
Qed.
Lemma finite_not_inf x : finite x -> nisinf (x : NumF64) = false.
Proof. destruct x as [[]|[]| |[] m e]; cbn; tauto. Qed.
Lemma big_split : powerRZ 2 1000 = bpow radix2 1000.
Proof. symmetry. exact (bpow_powerRZ radix2 1000). Qed.
Lemma rsum_term n f : (forall i, (i < n)%nat -> 0 <= f i) -> forall i, (i < n)%nat -> f i <= rsum n f.
Proof.
  induction n as [|n IH]; intros H i Hi; [lia|]. cbn [rsum].
  assert (P : 0 <= rsum n f).
  { clear IH Hi. induction n as [|n IHn]; cbn [rsum]; [lra|]. assert (0 <= f n) by (apply H; lia). assert (0 <= rsum n f) by (apply IHn; intros; apply H; lia). lra. }
  assert (0 <= f n) by (apply H; lia).
  destruct (Nat.eq_dec i n) as [->|Hne]; [lra|]. specialize (IH (fun k Hk => H k ltac:(lia)) i ltac:(lia)). lra.
Qed.
Lemma rsum_le n f g : (forall i, (i < n)%nat -> f i <= g i) -> rsum n f <= rsum n g.
Proof. induction n as [|n IH]; intros H; cbn [rsum]; [lra|]. assert (f n <= g n) by (apply H; lia). assert (rsum n f <= rsum n g) by (apply IH; intros; apply H; lia). lra. Qed.
Lemma rsum_scal n c f : rsum n (fun i => c * f i) = c * rsum n f.
Proof. induction n as [|n IH]; cbn [rsum]; [lra|]. rewrite IH. lra. Qed.

Lemma conv_bound (x y : list NumF64) n eps : length x = n -> length y = n -> doubles x -> doubles y ->
  (forall i, (i < n)%nat -> finite (nth i x n0)) -> (forall i, (i < n)%nat -> finite (nth i y n0)) ->
  (Z.of_nat n < 2 ^ 53)%Z -> rsum n (fun i => (real (nth i y n0) - real (nth i x n0)) ^ 2) <= powerRZ 2 1000 ->
  double eps -> finite eps -> Rabs (real eps) <= powerRZ 2 500 ->
  conv_test (eps * eps)%num x y = Ok true ->
  forall i, (i < n)%nat -> Rabs (real (nth i y n0) - real (nth i x n0)) <= step_bound (real eps).
Proof.
  intros Lx Ly Dx Dy Fx Fy Hn HS De Fe He C.
  assert (P53 : Prec_gt_0 53) by reflexivity.
  pose proof u64_pos as U. pose proof eta64_pos as V.
  assert (U1 : u64 <= / 1024).
  { unfold u64. simpl. lra. }
  assert (Eh : powerRZ 2 500 = bpow radix2 500) by (symmetry; exact (bpow_powerRZ radix2 500)).
  assert (Fmt : generic_format radix2 fexp64 (bpow radix2 500)) by (apply generic_format_bpow; unfold FLT_exp; simpl; lia).
  assert (Lt : bpow radix2 500 < bpow radix2 1024) by (apply bpow_lt; lia).
  (* the differences *)
  set (D := fun i => (nth i y n0 - nth i x n0)%num : NumF64).
  set (r := fun i => real (nth i y n0) - real (nth i x n0)).
  assert (Hnth : forall (v : list NumF64) i, doubles v -> (i < length v)%nat -> double (nth i v n0)) by (intros v i Dv Hi; apply Dv; now apply nth_In).
  assert (Hr : forall i, (i < n)%nat -> Rabs (r i) <= powerRZ 2 500).
  { intros i Hi. pose proof (rsum_term n (fun i => r i ^ 2) (fun i _ => pow2_ge_0 _) i Hi) as Q. cbv beta in Q. unfold r in *.
    set (z := real (nth i y n0) - real (nth i x n0)) in *. assert (Q2 : z ^ 2 <= powerRZ 2 500 ^ 2).
    { eapply Rle_trans; [exact Q|]. eapply Rle_trans; [exact HS|]. rewrite <- Rsqr_pow2. unfold Rsqr. rewrite <- powerRZ_add by lra. simpl. lra. }
    rewrite <- (Rabs_pos_eq (powerRZ 2 500)) by (left; apply powerRZ_lt; lra). apply Rsqr_le_abs_0. rewrite !Rsqr_pow2. exact Q2. }
  assert (FD : forall i, (i < n)%nat -> finite (D i) /\ double (D i)).
  { intros i Hi. assert (double (nth i y n0)) by (apply Hnth; auto; lia). assert (double (nth i x n0)) by (apply Hnth; auto; lia).
    split; [|now apply sub_double]. apply sub_finite; auto. eapply Rle_lt_trans; [|exact Lt]. rewrite <- Eh. 
    apply abs_round_le_generic; auto with typeclass_instances; [rewrite Eh; exact Fmt|]. apply (Hr i Hi). }
  assert (ED : forall i, (i < n)%nat -> exists d, Rabs d <= u64 /\ real (D i) = r i * (1 + d)).
  { intros i Hi. apply sub_err; try (apply Hnth; auto; lia). apply FD; auto. }
  (* the sum *)
  unfold conv_test, v_sub, v_sub_eq in C. rewrite (inplace_ok nsub y x) in C by lia. cbn [bind] in C.
  unfold v_magSqr in C. rewrite dot_ok in C by reflexivity. cbn [bind] in C.
  rewrite zip_length in C by lia. rewrite Ly in C.
  set (s := bigsum n (fun i => nth i (zip nsub y x) n0 * nth i (zip nsub y x) n0)%num) in C.
  assert (Es : s = acc (seq 0 n) (fun i => D i * D i)%num).
  { unfold s. rewrite bigsum_acc. apply acc_ext. intros i Hi. apply in_seq in Hi. rewrite zip_nth by lia. reflexivity. }
  assert (Dd : forall i, In i (seq 0 n) -> double (D i * D i)%num).
  { intros i Hi. apply in_seq in Hi. destruct (FD i ltac:(lia)). now apply mul_double. }
  assert (Ds : double s) by (rewrite Es; now apply acc_double).
  assert (Fs : finite s).
  { rewrite Es. apply dot_total.
    - intros i Hi. apply in_seq in Hi. destruct (FD i ltac:(lia)). auto.
    - rewrite seq_length. assert (E3 : (1 + u64) ^ (n + 1) <= 3) by (apply pow_u_le_3; lia).
      assert (B1 : rlist (seq 0 n) (fun i => Rabs (real (D i) * real (D i))) <= 2 * bpow radix2 1000).
      { rewrite rlist_seq. eapply Rle_trans; [|apply Rmult_le_compat_l; [lra|rewrite <- big_split; exact HS]].
        rewrite <- rsum_scal. apply rsum_le. intros i Hi. destruct (ED i Hi) as (d & Hd & ->). fold (r i).
        rewrite Rabs_pos_eq by (replace (r i * (1 + d) * (r i * (1 + d))) with ((r i * (1 + d)) ^ 2) by ring; apply pow2_ge_0).
        replace (r i * (1 + d) * (r i * (1 + d))) with ((1 + d) ^ 2 * r i ^ 2) by ring.
        apply Rmult_le_compat_r; [apply pow2_ge_0|]. apply Rabs_le_inv in Hd. assert (0 <= 1 + d <= 1 + / 1024) by lra. nra. }
      assert (B2 : INR n * eta64 <= bpow radix2 1000).
      { apply Rle_trans with (bpow radix2 53 * eta64).
        - apply Rmult_le_compat_r; [lra|]. rewrite INR_IZR_INZ. change (bpow radix2 53) with (IZR (2 ^ 53)). apply IZR_le. lia.
        - rewrite eta64_bpow. apply Rle_trans with (bpow radix2 53 * bpow radix2 (-1074)).
          + apply Rmult_le_compat_l; [apply bpow_ge_0|]. pose proof (bpow_ge_0 radix2 (-1074)). lra.
          + rewrite <- bpow_plus. apply bpow_le. lia. }
      assert (B0 : 0 <= rlist (seq 0 n) (fun i => Rabs (real (D i) * real (D i)))) by (apply rlist_pos; intros; apply Rabs_pos).
      assert (B3 : 0 <= INR n * eta64) by (apply Rmult_le_pos; [apply pos_INR|lra]).
      apply Rle_lt_trans with (3 * (3 * bpow radix2 1000)).
      + apply Rmult_le_compat; try lra. pose proof (pow_ge_1 (n + 1)). lra.
      + apply Rle_lt_trans with (bpow radix2 4 * bpow radix2 1000).
        * change (bpow radix2 4) with 16. pose proof (bpow_ge_0 radix2 1000). lra.
        * rewrite <- bpow_plus. apply bpow_lt. lia. }
  (* the comparison *)
  destruct (nabs_real s) as (Ra & Fa & Da).
  assert (Fa' : finite (nabs s)) by now apply Fa. specialize (Da Ds).
  assert (Dee : double (eps * eps)%num) by now apply mul_double.
  assert (Fee : finite (eps * eps)%num).
  { apply mul_finite; auto. apply Rle_lt_trans with (bpow radix2 1000); [|apply bpow_lt; lia].
    apply abs_round_le_generic; auto with typeclass_instances.
    - apply generic_format_bpow. unfold FLT_exp. simpl. lia.
    - rewrite Rabs_mult. change 1000%Z with (500 + 500)%Z. rewrite bpow_plus, <- Eh. apply Rmult_le_compat; auto; apply Rabs_pos. }
  destruct (nisnan (nabs s)) eqn:En; [discriminate|]. rewrite (finite_not_inf _ Fa') in C. cbn [orb] in C.
  injection C as C. apply (leb_real _ _ Da Dee Fa' Fee) in C. rewrite Ra in C.
  intros i Hi. fold (r i).
  assert (Hge : real (D i * D i)%num <= real s).
  { rewrite Es. rewrite Es in Fs. refine (proj2 (acc_ge (seq 0 n) (fun i => D i * D i)%num Dd _ Fs) i _); [|apply in_seq; lia].
    intros k Hk. assert (Hk' := Hk). apply in_seq in Hk'. destruct (FD k ltac:(lia)) as [Fk Dk].
    assert (Fk2 : finite (D k * D k)%num) by apply (acc_finite _ _ Fs k Hk).
    rewrite mul_real by auto. rewrite <- rnd_0. apply rnd_le. apply Rle_0_sqr. }
  assert (Fk2 : finite (D i * D i)%num).
  { rewrite Es in Fs. apply (acc_finite _ _ Fs i). apply in_seq. lia. }
  destruct (FD i Hi) as [Fi Di]. destruct (ED i Hi) as (d1 & Hd1 & E1).
  destruct (mul_err _ _ Di Di Fk2) as (d2 & e2 & Hd2 & He2 & E2).
  destruct (mul_err _ _ De De Fee) as (d3 & e3 & Hd3 & He3 & E3).
  rewrite E1 in E2. rewrite E2 in Hge. rewrite E3 in C.
  apply Rabs_le_inv in Hd1, Hd2, Hd3, He2, He3. pose proof (Rle_abs (real s)) as Hs.
  set (z := r i) in *. set (ee := real eps) in *.
  assert (K : (1 - u64) ^ 3 * z ^ 2 <= (1 + u64) * ee ^ 2 + 2 * eta64).
  { assert (K1 : (1 - u64) ^ 3 * z ^ 2 <= z * (1 + d1) * (z * (1 + d1)) * (1 + d2)).
    { replace (z * (1 + d1) * (z * (1 + d1)) * (1 + d2)) with ((1 + d1) ^ 2 * (1 + d2) * z ^ 2) by ring.
      apply Rmult_le_compat_r; [apply pow2_ge_0|]. replace ((1 - u64) ^ 3) with ((1 - u64) ^ 2 * (1 - u64)) by ring.
      apply Rmult_le_compat; try lra; [apply pow2_ge_0|]. apply pow_incr. lra. }
    assert (K2 : ee * ee * (1 + d3) <= (1 + u64) * ee ^ 2).
    { replace (ee * ee * (1 + d3)) with ((1 + d3) * ee ^ 2) by ring. apply Rmult_le_compat_r; [apply pow2_ge_0|lra]. }
    lra. }
  assert (Q : 0 < (1 - u64) ^ 3) by (apply pow_lt; lra).
  unfold step_bound. rewrite <- sqrt_Rsqr_abs. apply sqrt_le_1_alt. rewrite Rsqr_pow2.
  apply Rmult_le_reg_l with ((1 - u64) ^ 3); auto. 
  replace ((1 - u64) ^ 3 * (((1 + u64) * ee ^ 2 + 2 * eta64) / (1 - u64) ^ 3)) with ((1 + u64) * ee ^ 2 + 2 * eta64) by (field; lra).
  exact K.
Qed.

(** ** The equations after the last sweep *)
Lemma rsum_split n i f : (i < n)%nat -> rsum n f = f i + roff n i f.
Proof.
  unfold roff. induction n as [|n IH]; intros H; [lia|]. cbn [rsum]. destruct (Nat.eq_dec i n) as [->|Hne].
  - rewrite Nat.eqb_refl. rewrite (rsum_ext n (fun j => if (j =? n)%nat then 0 else f j) f); [lra|].
    intros j Hj. destruct (Nat.eqb_spec j n); [lia|reflexivity].
  - rewrite IH by lia. destruct (Nat.eqb_spec n i); [lia|]. lra.
Qed.
Lemma roff_le n i f g : (forall j, (j < n)%nat -> j <> i -> f j <= g j) -> roff n i f <= roff n i g.
Proof. intros H. apply rsum_le. intros j Hj. destruct (Nat.eqb_spec j i); [lra|auto]. Qed.
Lemma roff_nonneg n i f : (forall j, (j < n)%nat -> 0 <= f j) -> 0 <= roff n i f.
Proof.
  intros H. unfold roff. rewrite <- rlist_seq. apply rlist_pos. intros j Hj. apply in_seq in Hj. destruct (j =? i)%nat; [lra|apply H; lia].
Qed.
Lemma rsum_abs n f : Rabs (rsum n f) <= rsum n (fun j => Rabs (f j)).
Proof. rewrite <- !rlist_seq. apply rlist_abs. Qed.
Lemma rsum_minus n f g : rsum n f - rsum n g = rsum n (fun j => f j - g j).
Proof. rewrite <- !rlist_seq. now rewrite rlist_minus. Qed.
Lemma row_bound_le m t t' d : t <= t' -> row_bound m t d <= row_bound m t' d.
Proof. intros H. unfold row_bound. pose proof (pow_ge_1 m). apply Rplus_le_compat_r. apply Rmult_le_compat_l; lra. Qed.

Section Final.
Variables (n : nat) (f x y : nat -> R) (i : nat) (b del : R).
Hypotheses (Hi : (i < n)%nat) (Hdel : forall j, (j < n)%nat -> Rabs (y j - x j) <= del).
Let T := Rabs b + roff n i (fun j => Rabs (f j) * (Rabs (y j) + del)).
Lemma x_le j : (j < n)%nat -> Rabs (x j) <= Rabs (y j) + del.
Proof. intros Hj. replace (x j) with (y j - (y j - x j)) by ring. eapply Rle_trans; [apply Rabs_triang|]. rewrite Rabs_Ropp. specialize (Hdel j Hj). lra. Qed.
Lemma del_nonneg : 0 <= del.
Proof. specialize (Hdel i Hi). pose proof (Rabs_pos (y i - x i)). lra. Qed.
Lemma terms_le v : (forall j, (j < n)%nat -> v j = x j \/ v j = y j) -> roff n i (fun j => Rabs (f j * v j)) <= roff n i (fun j => Rabs (f j) * (Rabs (y j) + del)).
Proof.
  intros Hv. apply roff_le. intros j Hj _. rewrite Rabs_mult. apply Rmult_le_compat_l; [apply Rabs_pos|].
  pose proof del_nonneg. destruct (Hv j Hj) as [-> | ->]; [now apply x_le|lra].
Qed.
Lemma jacobi_residual m : Rabs (f i * y i - (b - roff n i (fun j => f j * x j))) <= row_bound m (Rabs b + roff n i (fun j => Rabs (f j * x j))) (f i) ->
  Rabs (b - rsum n (fun j => f j * y j)) <= del * roff n i (fun j => Rabs (f j)) + row_bound m T (f i).
Proof.
  intros H. rewrite (rsum_split n i) by auto.
  replace (b - (f i * y i + roff n i (fun j => f j * y j))) with
    ((roff n i (fun j => f j * x j) - roff n i (fun j => f j * y j)) + - (f i * y i - (b - roff n i (fun j => f j * x j)))) by ring.
  eapply Rle_trans; [apply Rabs_triang|]. rewrite Rabs_Ropp. apply Rplus_le_compat.
  - unfold roff. rewrite rsum_minus. eapply Rle_trans; [apply rsum_abs|]. rewrite <- rsum_scal. apply rsum_le. intros j Hj.
    destruct (j =? i)%nat; [rewrite Rminus_0_r, Rabs_R0; lra|]. replace (f j * x j - f j * y j) with (- (f j * (y j - x j))) by ring.
    rewrite Rabs_Ropp, Rabs_mult, Rmult_comm. apply Rmult_le_compat_r; [apply Rabs_pos|auto].
  - eapply Rle_trans; [exact H|]. apply row_bound_le. unfold T. apply Rplus_le_compat_l. apply terms_le. auto.
Qed.
(** A sweep of SOR: v mixes y (below i) and x (above), t the quotient. *)
Lemma sor_residual m w t old e0 e1 e2 e3 h1 h2 (v := fun j => if (j <? i)%nat then y j else x j) :
  Rabs e0 <= u64 -> Rabs e1 <= u64 -> Rabs e2 <= u64 -> Rabs e3 <= u64 -> Rabs h1 <= eta64 -> Rabs h2 <= eta64 ->
  Rabs (f i * t - (b - roff n i (fun j => f j * v j))) <= row_bound m (Rabs b + roff n i (fun j => Rabs (f j * v j))) (f i) ->
  y i = (((1 - w) * (1 + e0) * old * (1 + e1) + h1) + (w * t * (1 + e2) + h2)) * (1 + e3) ->
  (old = x i \/ w = 1) ->
  Rabs w * Rabs (b - rsum n (fun j => f j * y j)) <=
    del * (Rabs (1 - w) * Rabs (f i) + Rabs w * rabove n i (fun j => Rabs (f j))) + relax_bound (m + 2) w (f i) (Rabs (y i) + del) T.
Proof.
  intros E0 E1 E2 E3 H1 H2 H Ey Eo.
  set (S := roff n i (fun j => f j * v j)) in *. set (S' := roff n i (fun j => Rabs (f j * v j))) in *.
  pose proof u64_pos as U. pose proof eta64_pos as V. pose proof del_nonneg as Pd.
  assert (HT : S' <= roff n i (fun j => Rabs (f j) * (Rabs (y j) + del))).
  { apply terms_le. intros j Hj. unfold v. destruct (j <? i)%nat; auto. }
  assert (HB : row_bound m (Rabs b + S') (f i) <= row_bound m T (f i)) by (apply row_bound_le; unfold T; lra).
  set (rho := row_bound m T (f i)) in *.
  assert (Hbs : Rabs (b - S) <= T).
  { unfold T. assert (Rabs S <= S').
    { unfold S, S', roff. eapply Rle_trans; [apply rsum_abs|]. apply rsum_le. intros j Hj. destruct (j =? i)%nat; [rewrite Rabs_R0; lra|lra]. }
    replace (b - S) with (b + - S) by ring. eapply Rle_trans; [apply Rabs_triang|]. rewrite Rabs_Ropp. lra. }
  assert (PT : 0 <= T) by (eapply Rle_trans; [apply Rabs_pos|exact Hbs]).
  (* small factors *)
  assert (Pair : forall p q, Rabs p <= u64 -> Rabs q <= u64 -> Rabs ((1 + p) * (1 + q) - 1) <= (1 + u64) ^ 2 - 1).
  { intros p q Hp Hq. replace ((1 + p) * (1 + q) - 1) with (p + q + p * q) by ring. eapply Rle_trans; [apply Rabs_triang|].
    pose proof (Rabs_triang p q). rewrite (Rabs_mult p q). assert (Rabs p * Rabs q <= u64 * u64) by (apply Rmult_le_compat; auto; apply Rabs_pos). lra. }
  assert (Tri : Rabs ((1 + e0) * (1 + e1) * (1 + e3) - 1) <= (1 + u64) ^ 3 - 1).
  { pose proof (Pair e0 e1 E0 E1) as Q. set (g := (1 + e0) * (1 + e1) - 1) in *. replace ((1 + e0) * (1 + e1) * (1 + e3) - 1) with (g * (1 + e3) + e3) by (unfold g; ring).
    eapply Rle_trans; [apply Rabs_triang|]. rewrite Rabs_mult.
    assert (Rabs (1 + e3) <= 1 + u64) by (eapply Rle_trans; [apply Rabs_triang|]; rewrite Rabs_R1; lra).
    assert (Rabs g * Rabs (1 + e3) <= ((1 + u64) ^ 2 - 1) * (1 + u64)) by (apply Rmult_le_compat; auto; apply Rabs_pos).
    replace ((1 + u64) ^ 3 - 1) with (((1 + u64) ^ 2 - 1) * (1 + u64) + u64) by ring. lra. }
  pose proof (Pair e2 e3 E2 E3) as Q23.
  assert (Q3 : Rabs (1 + e3) <= 1 + u64) by (eapply Rle_trans; [apply Rabs_triang|]; rewrite Rabs_R1; lra).
  (* the equation *)
  set (X := (1 - w) * f i * old). set (Err := f i * y i - (X + w * (b - S))).
  assert (HErr : Rabs Err <= ((1 + u64) ^ 3 - 1) * Rabs X + Rabs w * (((1 + u64) ^ 2 - 1) * (T + rho) + rho) + 2 * (1 + u64) * Rabs (f i) * eta64).
  { replace Err with (X * ((1 + e0) * (1 + e1) * (1 + e3) - 1) + w * (f i * t * ((1 + e2) * (1 + e3) - 1) + (f i * t - (b - S))) + f i * ((h1 + h2) * (1 + e3)))
      by (unfold Err, X; rewrite Ey; ring).
    eapply Rle_trans; [apply Rabs_triang|]. apply Rplus_le_compat; [eapply Rle_trans; [apply Rabs_triang|]; apply Rplus_le_compat|].
    - rewrite Rabs_mult, Rmult_comm. apply Rmult_le_compat_r; [apply Rabs_pos|exact Tri].
    - rewrite Rabs_mult. apply Rmult_le_compat_l; [apply Rabs_pos|]. eapply Rle_trans; [apply Rabs_triang|]. apply Rplus_le_compat; [|lra].
      rewrite Rabs_mult, Rmult_comm. apply Rmult_le_compat; try apply Rabs_pos; auto.
      replace (f i * t) with ((b - S) + (f i * t - (b - S))) by ring. eapply Rle_trans; [apply Rabs_triang|]. lra.
    - rewrite Rabs_mult, (Rabs_mult (h1 + h2)).
      assert (Rabs (h1 + h2) * Rabs (1 + e3) <= (2 * eta64) * (1 + u64)).
      { apply Rmult_le_compat; try apply Rabs_pos; auto. eapply Rle_trans; [apply Rabs_triang|]. lra. }
      apply Rle_trans with (Rabs (f i) * ((2 * eta64) * (1 + u64))); [apply Rmult_le_compat_l; [apply Rabs_pos|auto]|]. lra. }
  (* collect *)
  assert (HX : Rabs X <= Rabs (1 - w) * Rabs (f i) * (Rabs (y i) + del)).
  { unfold X. destruct Eo as [-> | ->].
    - rewrite !Rabs_mult. apply Rmult_le_compat_l; [apply Rmult_le_pos; apply Rabs_pos|]. now apply x_le.
    - replace ((1 - 1) * f i * old) with 0 by ring. replace (1 - 1) with 0 by ring. rewrite Rabs_R0. lra. }
  assert (Hrow : ((1 + u64) ^ 2 - 1) * (T + rho) + rho <= row_bound (m + 2) T (f i)).
  { unfold rho, row_bound. rewrite pow_add, plus_INR. pose proof (pow_ge_1 m) as P. set (W := (1 + u64) ^ m) in *. pose proof (pos_INR m) as I.
    change (INR 2) with (1 + 1). assert (0 <= 2 * (W * (1 + u64) ^ 2) * eta64).
    { repeat apply Rmult_le_pos; try lra. }
    lra. }
  assert (Hup : Rabs (w * (b - rsum n (fun j => f j * y j)) - ((1 - w) * f i * (y i - old) + w * (roff n i (fun j => f j * v j) - roff n i (fun j => f j * y j)))) <= Rabs Err).
  { rewrite (rsum_split n i) by auto. fold S. set (R := roff n i (fun j => f j * y j)).
    replace (w * (b - (f i * y i + R)) - ((1 - w) * f i * (y i - old) + w * (S - R))) with (- Err) by (unfold Err, X; ring).
    rewrite Rabs_Ropp. lra. }
  assert (Hab : Rabs (roff n i (fun j => f j * v j) - roff n i (fun j => f j * y j)) <= del * rabove n i (fun j => Rabs (f j))).
  { unfold roff, rabove. rewrite rsum_minus. eapply Rle_trans; [apply rsum_abs|]. rewrite <- rsum_scal. apply rsum_le. intros j Hj. unfold v.
    destruct (Nat.eqb_spec j i) as [->|Hne].
    - rewrite Nat.ltb_irrefl, Rminus_0_r, Rabs_R0. lra.
    - destruct (Nat.ltb_spec j i) as [L|L].
      + destruct (Nat.ltb_spec i j); [lia|]. replace (f j * y j - f j * y j) with 0 by ring. rewrite Rabs_R0. lra.
      + destruct (Nat.ltb_spec i j); [|lia]. replace (f j * x j - f j * y j) with (- (f j * (y j - x j))) by ring.
        rewrite Rabs_Ropp, Rabs_mult, Rmult_comm. apply Rmult_le_compat_r; [apply Rabs_pos|auto]. }
  assert (Hold : Rabs ((1 - w) * f i * (y i - old)) <= del * (Rabs (1 - w) * Rabs (f i))).
  { destruct Eo as [-> | ->].
    - rewrite !Rabs_mult. rewrite Rmult_comm. apply Rmult_le_compat_r; [apply Rmult_le_pos; apply Rabs_pos|auto].
    - replace ((1 - 1) * f i * (y i - old)) with 0 by ring. replace (1 - 1) with 0 by ring. rewrite Rabs_R0. lra. }
  rewrite <- Rabs_mult. set (W1 := w * (b - rsum n (fun j => f j * y j))) in *.
  set (W2 := (1 - w) * f i * (y i - old)) in *. set (W3 := roff n i (fun j => f j * v j) - roff n i (fun j => f j * y j)) in *.
  replace W1 with ((W1 - (W2 + w * W3)) + (W2 + w * W3)) by ring. eapply Rle_trans; [apply Rabs_triang|].
  pose proof (Rabs_triang W2 (w * W3)) as Tr. rewrite (Rabs_mult w W3) in Tr.
  assert (Hw3 : Rabs w * Rabs W3 <= Rabs w * (del * rabove n i (fun j => Rabs (f j)))) by (apply Rmult_le_compat_l; [apply Rabs_pos|exact Hab]).
  assert (F1 : ((1 + u64) ^ 3 - 1) * Rabs X <= ((1 + u64) ^ 3 - 1) * (Rabs (1 - w) * Rabs (f i) * (Rabs (y i) + del))).
  { apply Rmult_le_compat_l; [|exact HX]. pose proof (pow_ge_1 3). lra. }
  assert (F2 : Rabs w * (((1 + u64) ^ 2 - 1) * (T + rho) + rho) <= Rabs w * row_bound (m + 2) T (f i)) by (apply Rmult_le_compat_l; [apply Rabs_pos|exact Hrow]).
  unfold relax_bound. lra.
Qed.
End Final.

(** ** The solvers *)
Lemma doubles_nth (v : list NumF64) n : length v = n -> (forall i, (i < n)%nat -> double (nth i v n0)) -> doubles v.
Proof. intros L H x Hx. apply (In_nth _ _ n0) in Hx as (i & Hi & <-). apply H. lia. Qed.
Lemma nth_doubles (v : list NumF64) n i : length v = n -> doubles v -> (i < n)%nat -> double (nth i v n0).
Proof. intros L H Hi. apply H. apply nth_In. lia. Qed.
Lemma blend_double w o t : double w -> double o -> double t -> double (blend w o t).
Proof. intros W O D. unfold blend. assert (double (n1 : NumF64)) by reflexivity. apply add_double; apply mul_double; auto. now apply sub_double. Qed.

Section Solvers.
Context {M : RowMat NumF64}.
Hypothesis HR : RowReads M.
Variables (A : M) (n : nat) (a : nat -> nat -> NumF64) (b : list NumF64).
Hypotheses (HA : MatI.holds A n n a) (Hb : length b = n) (Da : doubles2 n n a) (Fa : all_finite n a) (Db : doubles b).
Let P (v : list NumF64) := length v = n /\ doubles v.

Lemma jac_step x xm : P x -> P xm -> exists y, jac_sweep A b x xm = Ok y /\ P y.
Proof.
  intros (Lx & Dx) (Lm & Dm). destruct (jac_sweep_ok HR A n a b HA Hb x xm Lx Lm) as (y & E & Ly & H). exists y. split; auto. split; auto.
  apply (doubles_nth _ n); auto. intros i Hi. destruct (H i Hi) as (keep & K & ->). apply quot_double; auto.
  - intros j Hj. now apply nth_doubles with n.
  - now apply nth_doubles with n.
Qed.
Lemma sor_step w x xm : double w -> P x -> P xm -> exists y, sor_sweep A b w x xm = Ok y /\ P y.
Proof.
  intros Dw (Lx & Dx) (Lm & Dm). destruct (sor_sweep_ok HR A n a b HA Hb w x xm Lx Lm) as (y & E & Ly & H). exists y. split; auto. split; auto.
  apply (doubles_nth _ n); auto. intros i Hi.
  assert (G : forall k, (k <= n)%nat -> forall r, (r < k)%nat -> double (nth r y n0)).
  { induction k as [|k IH]; intros Hk r Hr; [lia|]. destruct (Nat.eq_dec r k) as [->|Hne]; [|apply IH; lia].
    destruct (H k ltac:(lia)) as (keep & K & ->). apply blend_double; auto; [now apply nth_doubles with n|].
    unfold quot. apply div_double.
    - apply sub_double; [now apply nth_doubles with n|]. apply acc_double. intros j Hj. unfold off in Hj. apply filter_In in Hj as [Hj _].
      apply filter_In in Hj as [Hj _]. apply in_seq in Hj. apply mul_double; [apply Da; lia|]. unfold mixed.
      destruct (Nat.ltb_spec j k); [apply IH; lia|apply nth_doubles with n; auto; lia].
    - unfold mid. destruct (existsb _ _); [apply Da; lia|exact double_zero]. }
  now apply (G n).
Qed.

Lemma jacobi_stop x0 maxIter eps y it : length x0 = n -> doubles x0 -> (Z.of_nat n < 2 ^ 53)%Z ->
  double eps -> finite eps -> Rabs (real eps) <= powerRZ 2 500 ->
  it_jacobi A b x0 maxIter eps = Ok (y, it) -> (it < maxIter)%nat -> (0 < it)%nat /\ exists x,
    it_jacobi A b x0 (it - 1) eps = Ok (x, (it - 1)%nat) /\ length x = n /\ length y = n /\ doubles x /\ doubles y /\
    ((forall i, (i < n)%nat -> finite (nth i x n0) /\ finite (nth i y n0)) ->
     rsum n (fun i => (real (nth i y n0) - real (nth i x n0)) ^ 2) <= powerRZ 2 1000 ->
     forall i, (i < n)%nat ->
       Rabs (real (nth i y n0) - real (nth i x n0)) <= step_bound (real eps) /\
       Rabs (real (nth i b n0) - rsum n (fun j => real (a i j) * real (nth j y n0)))
         <= step_bound (real eps) * roff n i (fun j => Rabs (real (a i j)))
            + row_bound (nonzero_count n (a i) + 2)
                (Rabs (real (nth i b n0)) + roff n i (fun j => Rabs (real (a i j)) * (Rabs (real (nth j y n0)) + step_bound (real eps)))) (real (a i i))).
Proof.
  intros L0 D0 Hn De Fe He E Hit. unfold it_jacobi in E |- *.
  rewrite (holds_rows _ _ _ _ HA), (holds_cols _ _ _ _ HA) in *. unfold v_size in *. rewrite Hb, L0, !Nat.eqb_refl in *. cbn [negb orb] in E |- *.
  rewrite fill_ok in E |- *. cbn [bind] in E |- *.
  assert (P0 : P x0) by (split; auto).
  assert (Pm : P (repeat n0 (length x0))).
  { split; [now rewrite repeat_length|]. intros z Hz. apply repeat_spec in Hz as ->. exact double_zero. }
  destruct (sweeps_end (jac_sweep A b) P (eps * eps)%num jac_step maxIter 0 maxIter x0 _ y it P0 Pm eq_refl E Hit)
    as (Hlt & x & xm & (Lx & Dx) & (Lm & Dm) & Es & Ec & _ & Er).
  split; auto. exists x. rewrite Nat.sub_0_r in Er. split; auto. split; auto.
  destruct (jac_sweep_ok HR A n a b HA Hb x xm Lx Lm) as (y' & E' & Ly & H). rewrite E' in Es. injection Es as ->.
  destruct (jac_step x xm) as (y' & E2 & _ & Dy); [split; auto|split; auto|]. rewrite E2 in E'. injection E' as ->.
  split; auto. split; auto. split; auto. intros Fin HS i Hi.
  assert (Hd : forall j, (j < n)%nat -> Rabs (real (nth j y n0) - real (nth j x n0)) <= step_bound (real eps)).
  { apply (conv_bound x y n eps); auto; intros j Hj; apply Fin; auto. }
  split; [now apply Hd|]. destruct (H i Hi) as (keep & K & Ey). pose proof (proj2 (Fin i Hi)) as Fy. rewrite Ey in Fy.
  destruct (quot_error keep (a i) (fun j => nth j x n0) i n (nth i b n0)) as (_ & _ & Q); auto.
  { intros j Hj. now apply nth_doubles with n. }
  { now apply nth_doubles with n. }
  rewrite <- Ey in Q.
  exact (jacobi_residual n (fun j => real (a i j)) (fun j => real (nth j x n0)) (fun j => real (nth j y n0)) i (real (nth i b n0)) _ Hi Hd _ Q).
Qed.

Lemma sor_stop w x0 maxIter eps y it : length x0 = n -> doubles x0 -> (Z.of_nat n < 2 ^ 53)%Z -> double w ->
  double eps -> finite eps -> Rabs (real eps) <= powerRZ 2 500 ->
  it_sor A b x0 w maxIter eps = Ok (y, it) -> (it < maxIter)%nat -> (0 < it)%nat /\ exists x,
    it_sor A b x0 w (it - 1) eps = Ok (x, (it - 1)%nat) /\ length x = n /\ length y = n /\ doubles x /\ doubles y /\
    ((forall i, (i < n)%nat -> finite (nth i x n0) /\ finite (nth i y n0)) ->
     rsum n (fun i => (real (nth i y n0) - real (nth i x n0)) ^ 2) <= powerRZ 2 1000 ->
     forall i, (i < n)%nat -> finite (nth i b n0) /\
       Rabs (real (nth i y n0) - real (nth i x n0)) <= step_bound (real eps) /\
       ((1 < it)%nat \/ real w = 1 ->
        Rabs (real w) * Rabs (real (nth i b n0) - rsum n (fun j => real (a i j) * real (nth j y n0)))
         <= step_bound (real eps) * (Rabs (1 - real w) * Rabs (real (a i i)) + Rabs (real w) * rabove n i (fun j => Rabs (real (a i j))))
            + relax_bound (nonzero_count n (a i) + 4) (real w) (real (a i i)) (Rabs (real (nth i y n0)) + step_bound (real eps))
                (Rabs (real (nth i b n0)) + roff n i (fun j => Rabs (real (a i j)) * (Rabs (real (nth j y n0)) + step_bound (real eps)))))).
Proof.
  intros L0 D0 Hn Dw De Fe He E Hit. unfold it_sor in E |- *.
  rewrite (holds_rows _ _ _ _ HA), (holds_cols _ _ _ _ HA) in *. unfold v_size in *. rewrite Hb, L0, !Nat.eqb_refl in *. cbn [negb orb] in E |- *.
  rewrite fill_ok in E |- *. cbn [bind] in E |- *.
  assert (P0 : P x0) by (split; auto).
  assert (Pm : P (repeat n0 (length x0))).
  { split; [now rewrite repeat_length|]. intros z Hz. apply repeat_spec in Hz as ->. exact double_zero. }
  destruct (sweeps_end (sor_sweep A b w) P (eps * eps)%num (fun x xm => sor_step w x xm Dw) maxIter 0 maxIter x0 _ y it P0 Pm eq_refl E Hit)
    as (Hlt & x & xm & (Lx & Dx) & (Lm & Dm) & Es & Ec & Em & Er).
  split; auto. exists x. rewrite Nat.sub_0_r in Er. split; auto. split; auto.
  destruct (sor_sweep_ok HR A n a b HA Hb w x xm Lx Lm) as (y' & E' & Ly & H). rewrite E' in Es. injection Es as ->.
  destruct (sor_step w x xm Dw) as (y' & E2 & _ & Dy); [split; auto|split; auto|]. rewrite E2 in E'. injection E' as ->.
  split; auto. split; auto. split; auto. intros Fin HS i Hi.
  assert (Hd : forall j, (j < n)%nat -> Rabs (real (nth j y n0) - real (nth j x n0)) <= step_bound (real eps)).
  { apply (conv_bound x y n eps); auto; intros j Hj; apply Fin; auto. }
  destruct (H i Hi) as (keep & K & Ey). pose proof (proj2 (Fin i Hi)) as Fy. rewrite Ey in Fy.
  set (v := mixed i y x) in *. set (t := quot keep (a i) v i n (nth i b n0)) in *.
  assert (Dv : forall j, (j < n)%nat -> double (v j)).
  { intros j Hj. unfold v, mixed. destruct (j <? i)%nat; now apply nth_doubles with n. }
  assert (Dbi : double (nth i b n0)) by now apply nth_doubles with n.
  assert (Dt : double t) by (apply quot_double; auto).
  assert (Do : double (nth i xm n0)) by now apply nth_doubles with n.
  unfold blend in Fy. assert (D1 : double (n1 : NumF64)) by reflexivity. pose proof (sub_double _ _ D1 Dw) as D1w.
  destruct (add_finite_args _ _ Fy) as [F1 F2]. destruct (mul_finite_args _ _ F1) as [F1w Fo]. destruct (mul_finite_args _ _ F2) as [Fw Ft].
  destruct (quot_error keep (a i) v i n (nth i b n0)) as (Fb & _ & Q); auto.
  fold t in Q. split; [exact Fb|]. split; [now apply Hd|]. intros Hw.
  destruct (sub_err _ _ D1 Dw F1w) as (e0 & H0 & E0). destruct (mul_err _ _ D1w Do F1) as (e1 & h1 & H1 & Hh1 & E1).
  destruct (mul_err _ _ Dw Dt F2) as (e2 & h2 & H2 & Hh2 & E3).
  destruct (add_err _ _ (mul_double _ _ D1w Do) (mul_double _ _ Dw Dt) Fy) as (e3 & H3 & E4).
  replace (nonzero_count n (a i) + 4)%nat with ((nonzero_count n (a i) + 2) + 2)%nat by lia.
  assert (R1 : real (n1 : NumF64) = 1) by exact real_n1.
  apply (sor_residual n (fun j => real (a i j)) (fun j => real (nth j x n0)) (fun j => real (nth j y n0)) i (real (nth i b n0)) _ Hi Hd
    (nonzero_count n (a i) + 2) (real w) (real t) (real (nth i xm n0)) e0 e1 e2 e3 h1 h2); auto.
  - assert (Ev : forall j, real (v j) = if (j <? i)%nat then real (nth j y n0) else real (nth j x n0)) by (intros j; unfold v, mixed; now destruct (j <? i)%nat).
    assert (X : forall g : R -> R, roff n i (fun j => g (real (a i j) * real (v j))) = roff n i (fun j => g (real (a i j) * (if (j <? i)%nat then real (nth j y n0) else real (nth j x n0))))).
    { intros g. apply rsum_ext. intros j Hj. now rewrite Ev. }
    pose proof (X (fun z => z)) as X1. pose proof (X Rabs) as X2. cbv beta in X1, X2. rewrite X1, X2 in Q. exact Q.
  - rewrite Ey. unfold blend. rewrite E4, E1, E3, E0, R1. reflexivity.
  - destruct Hw as [Hw|Hw]; [|now right]. left. destruct Em as [(K1 & _)|(_ & ->)]; [lia|reflexivity].
Qed.
End Solvers.

(** ** Diagonally dominant systems: a small residual means a small error *)
Lemma max_index n (f : nat -> R) : (0 < n)%nat -> exists k, (k < n)%nat /\ forall i, (i < n)%nat -> f i <= f k.
Proof.
  induction n as [|n IH]; intros H; [lia|]. destruct (Nat.eq_dec n 0) as [->|Hn].
  - exists 0%nat. split; [lia|]. intros i Hi. replace i with 0%nat by lia. lra.
  - destruct (IH ltac:(lia)) as (k & Hk & M). destruct (Rle_or_lt (f k) (f n)) as [L|L].
    + exists n. split; [lia|]. intros i Hi. destruct (Nat.eq_dec i n) as [->|Hne]; [lra|]. specialize (M i ltac:(lia)). lra.
    + exists k. split; [lia|]. intros i Hi. destruct (Nat.eq_dec i n) as [->|Hne]; [lra|]. apply M. lia.
Qed.
Lemma dominant_error n a b y z c r : 0 < c -> dominant n a c -> exact_solution n a b z ->
  (forall i, (i < n)%nat -> residual n a b y i <= r) -> forall i, (i < n)%nat -> Rabs (real (nth i y n0) - z i) <= r / c.
Proof.
  intros Hc Hd Hz Hr i Hi. destruct (max_index n (fun i => Rabs (real (nth i y n0) - z i)) ltac:(lia)) as (k & Hk & Mk).
  specialize (Mk i Hi) as Mi. cbv beta in Mi. eapply Rle_trans; [exact Mi|].
  set (e := fun j => real (nth j y n0) - z j) in *.
  specialize (Hd k Hk). specialize (Hz k Hk). specialize (Hr k Hk). unfold residual in Hr. rewrite <- Hz in Hr. rewrite rsum_minus in Hr.
  rewrite (rsum_ext n _ (fun j => - (real (a k j) * e j))) in Hr by (intros j _; unfold e; ring).
  rewrite (rsum_split n k) in Hr by auto.
  assert (H1 : Rabs (roff n k (fun j => - (real (a k j) * e j))) <= Rabs (e k) * roff n k (fun j => Rabs (real (a k j)))).
  { unfold roff. eapply Rle_trans; [apply rsum_abs|]. rewrite <- rsum_scal. apply rsum_le. intros j Hj. destruct (j =? k)%nat; [rewrite Rabs_R0; lra|].
    rewrite Rabs_Ropp, Rabs_mult, Rmult_comm. apply Rmult_le_compat_r; [apply Rabs_pos|]. exact (Mk j Hj). }
  assert (H2 : Rabs (real (a k k)) * Rabs (e k) <= r + Rabs (e k) * roff n k (fun j => Rabs (real (a k j)))).
  { rewrite <- Rabs_mult. set (p := real (a k k) * e k) in *. set (q := roff n k (fun j => - (real (a k j) * e j))) in *.
    replace p with (q + - (- p + q)) by ring. eapply Rle_trans; [apply Rabs_triang|]. rewrite Rabs_Ropp. lra. }
  assert (H3 : (c + roff n k (fun j => Rabs (real (a k j)))) * Rabs (e k) <= Rabs (real (a k k)) * Rabs (e k)).
  { apply Rmult_le_compat_r; [apply Rabs_pos|exact Hd]. }
  change (Rabs (e k) <= r / c). apply Rmult_le_reg_l with c; auto. replace (c * (r / c)) with r by (field; lra). lra.
Qed.
Lemma row_bound_le_all m m' t t' d d' : (m <= m')%nat -> 0 <= t -> t <= t' -> Rabs d <= d' -> row_bound m t d <= row_bound m' t' d'.
Proof.
  intros Hm Ht Htt Hd. eapply Rle_trans; [apply (row_bound_mono m m'); auto|]. eapply Rle_trans; [apply row_bound_le; exact Htt|].
  unfold row_bound. pose proof (pow_ge_1 m') as P. pose proof eta64_pos as V. pose proof (Rle_abs d') as Q.
  apply Rplus_le_compat_l. apply Rmult_le_compat_r; [lra|]. apply Rmult_le_compat_r; [lra|]. lra.
Qed.
Lemma roff_scal_le n i (f g : nat -> R) c : (forall j, (j < n)%nat -> 0 <= f j) -> (forall j, (j < n)%nat -> g j <= c) -> roff n i (fun j => f j * g j) <= roff n i f * c.
Proof.
  intros Hf Hg. rewrite Rmult_comm. unfold roff. rewrite <- rsum_scal. apply rsum_le. intros j Hj. destruct (j =? i)%nat; [lra|].
  rewrite Rmult_comm. apply Rmult_le_compat_r; auto.
Qed.
Lemma step_nonneg e : 0 <= step_bound e.
Proof. apply sqrt_pos. Qed.
Section Sized.
Variables (n : nat) (a : nat -> nat -> NumF64) (b y : list NumF64) (d s B Y : R) (m : nat) (del : R).
Hypotheses (HS : sized n a b y d s B Y m) (Hdel : 0 <= del).
Lemma sized_terms i : (i < n)%nat ->
  0 <= Rabs (real (nth i b n0)) + roff n i (fun j => Rabs (real (a i j)) * (Rabs (real (nth j y n0)) + del)) <= B + s * (Y + del).
Proof.
  intros Hi. destruct (HS i Hi) as (H1 & H2 & H3 & H4 & H5). pose proof (Rabs_pos (real (nth i y n0))) as P0.
  split.
  - apply Rplus_le_le_0_compat; [apply Rabs_pos|]. apply roff_nonneg. intros j Hj. apply Rmult_le_pos; [apply Rabs_pos|]. pose proof (Rabs_pos (real (nth j y n0))). lra.
  - apply Rplus_le_compat; auto. eapply Rle_trans; [apply (roff_scal_le n i _ _ (Y + del))|].
    + intros; apply Rabs_pos.
    + intros j Hj. destruct (HS j Hj) as (_ & _ & _ & HY & _). lra.
    + apply Rmult_le_compat_r; lra.
Qed.
Lemma sized_jacobi i : (i < n)%nat ->
  del * roff n i (fun j => Rabs (real (a i j))) + row_bound (nonzero_count n (a i) + 2)
    (Rabs (real (nth i b n0)) + roff n i (fun j => Rabs (real (a i j)) * (Rabs (real (nth j y n0)) + del))) (real (a i i))
  <= del * s + row_bound (m + 2) (B + s * (Y + del)) d.
Proof.
  intros Hi. destruct (HS i Hi) as (H1 & H2 & H3 & H4 & H5). destruct (sized_terms i Hi). apply Rplus_le_compat.
  - now apply Rmult_le_compat_l.
  - apply row_bound_le_all; auto. lia.
Qed.
Lemma above_le_off i : rabove n i (fun j => Rabs (real (a i j))) <= roff n i (fun j => Rabs (real (a i j))).
Proof.
  apply rsum_le. intros j Hj. pose proof (Rabs_pos (real (a i j))). destruct (Nat.ltb_spec i j), (Nat.eqb_spec j i); try lia; lra.
Qed.
Lemma sized_sor w i : (i < n)%nat ->
  del * (Rabs (1 - w) * Rabs (real (a i i)) + Rabs w * rabove n i (fun j => Rabs (real (a i j)))) + relax_bound (nonzero_count n (a i) + 4) w (real (a i i))
    (Rabs (real (nth i y n0)) + del) (Rabs (real (nth i b n0)) + roff n i (fun j => Rabs (real (a i j)) * (Rabs (real (nth j y n0)) + del)))
  <= del * (Rabs (1 - w) * d + Rabs w * s) + relax_bound (m + 4) w d (Y + del) (B + s * (Y + del)).
Proof.
  intros Hi. destruct (HS i Hi) as (H1 & H2 & H3 & H4 & H5). destruct (sized_terms i Hi) as [T1 T2]. pose proof u64_pos as U. pose proof eta64_pos as V.
  pose proof (Rabs_pos (1 - w)) as P1. pose proof (Rabs_pos w) as P2. pose proof (Rabs_pos (real (a i i))) as P3. pose proof (Rabs_pos (real (nth i y n0))) as P4.
  pose proof (above_le_off i) as HA. assert (Ed : Rabs d = d) by (apply Rabs_pos_eq; lra).
  apply Rplus_le_compat.
  - apply Rmult_le_compat_l; auto. apply Rplus_le_compat; apply Rmult_le_compat_l; auto. lra.
  - unfold relax_bound. rewrite Ed. apply Rplus_le_compat; [apply Rplus_le_compat|].
    + apply Rmult_le_compat_l; [pose proof (pow_ge_1 3); lra|]. apply Rmult_le_compat; [apply Rmult_le_pos; lra|lra| |lra]. apply Rmult_le_compat_l; auto.
    + apply Rmult_le_compat_l; auto. apply row_bound_le_all; auto. lia.
    + apply Rmult_le_compat_r; [lra|]. apply Rmult_le_compat_l; lra.
Qed.
End Sized.
(** One row: the bound of [sor_stop] in terms of bounds for the row. *)
Lemma row_sor n (f : nat -> R) i w y del d s s' b B Y m m' :
  0 <= del -> Rabs (f i) <= d -> roff n i (fun j => Rabs (f j)) <= s -> rabove n i (fun j => Rabs (f j)) <= s' -> Rabs b <= B ->
  (forall j, (j < n)%nat -> Rabs (y j) <= Y) -> (i < n)%nat -> (m <= m')%nat ->
  del * (Rabs (1 - w) * Rabs (f i) + Rabs w * rabove n i (fun j => Rabs (f j))) + relax_bound m w (f i)
    (Rabs (y i) + del) (Rabs b + roff n i (fun j => Rabs (f j) * (Rabs (y j) + del)))
  <= del * (Rabs (1 - w) * d + Rabs w * s') + relax_bound m' w d (Y + del) (B + s * (Y + del)).
Proof.
  intros Hdel H1 H2 H3 H4 HY Hi Hm. pose proof u64_pos as U. pose proof eta64_pos as V. specialize (HY i Hi) as HYi.
  pose proof (Rabs_pos (1 - w)) as P1. pose proof (Rabs_pos w) as P2. pose proof (Rabs_pos (f i)) as P3. pose proof (Rabs_pos (y i)) as P4.
  assert (Ed : Rabs d = d) by (apply Rabs_pos_eq; lra).
  assert (T1 : 0 <= Rabs b + roff n i (fun j => Rabs (f j) * (Rabs (y j) + del))).
  { apply Rplus_le_le_0_compat; [apply Rabs_pos|]. apply roff_nonneg. intros j Hj. apply Rmult_le_pos; [apply Rabs_pos|]. pose proof (Rabs_pos (y j)). lra. }
  assert (T2 : Rabs b + roff n i (fun j => Rabs (f j) * (Rabs (y j) + del)) <= B + s * (Y + del)).
  { apply Rplus_le_compat; auto. eapply Rle_trans; [apply (roff_scal_le n i _ _ (Y + del))|].
    + intros; apply Rabs_pos.
    + intros j Hj. specialize (HY j Hj). lra.
    + apply Rmult_le_compat_r; lra. }
  apply Rplus_le_compat.
  - apply Rmult_le_compat_l; auto. apply Rplus_le_compat; apply Rmult_le_compat_l; auto.
  - unfold relax_bound. rewrite Ed. apply Rplus_le_compat; [apply Rplus_le_compat|].
    + apply Rmult_le_compat_l; [pose proof (pow_ge_1 3); lra|]. apply Rmult_le_compat; [apply Rmult_le_pos; lra|lra| |lra]. apply Rmult_le_compat_l; auto.
    + apply Rmult_le_compat_l; auto. apply row_bound_le_all; auto.
    + apply Rmult_le_compat_r; [lra|]. apply Rmult_le_compat_l; lra.
Qed.
