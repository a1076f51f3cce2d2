(** The poisson program as a whole: solvability, what SOR returns, the data file. *)
From Coq Require Import List Arith Bool Lia Ring Field.
From Verif Require Import Base BaseProofs Num OrdField Spec SpecProofs VectorModel VectorProofs MatI MatIProofs MatOps MatOpsProofs SparseModel LUModel
  DetSpec DetProofs LUSolve LinAlg CGMath CGProofs CGResult IterModel IterProofs IterResult GridModel GridSpec UtilsSpec UtilsProofs GridProofs GridPoisson GridMax ObjProofs.
Import ListNotations.
Local Open Scope nat_scope.
Open Scope res_scope.

Section Sor.
Context {N : Num} (HO : OrdFieldLaws N).
Let HF : FieldLaws N := of_field N HO.
Add Field gsfld : (fl_field N HF).
Notation le x y := (nleb x y = true).
Notation lt x y := (nltb x y = true).

(** The defect after a sweep, in terms of the last update. *)
Lemma sor_defect n a (bb : nat -> N) w x y i : sor_eq n a bb w x x y -> w <> n0 -> i < n -> a i i <> n0 ->
  (bb i - mulvec n a y i)%num =
  (a i i * (n1 / w - n1) * (y i - x i) - mulvec n a (fun j => if i <? j then y j - x j else n0) i)%num.
Proof.
  intros Hs Hw Hi Ha. specialize (Hs i Hi). unfold offsum in Hs.
  set (S := bigsum n (fun j => if j =? i then n0 else (a i j * (if j <? i then y j else x j)))%num) in Hs.
  assert (E : (mulvec n a y i - mulvec n a (fun j => if i <? j then y j - x j else n0) i)%num = (a i i * y i + S)%num).
  { unfold mulvec. rewrite <- bigsum_minus by auto.
    rewrite (bigsum_ext n _ (fun j => (if j =? i then a i i * y i else n0) + (if j =? i then n0 else a i j * (if j <? i then y j else x j)))%num).
    - rewrite bigsum_plus by auto. f_equal. rewrite (bigsum_single HF n i); auto; [now rewrite Nat.eqb_refl|].
      intros k _ Hk. now rewrite (proj2 (Nat.eqb_neq _ _) Hk).
    - intros j Hj. destruct (Nat.eqb_spec j i) as [->|Hne]; [rewrite Nat.ltb_irrefl; ring|].
      destruct (Nat.ltb_spec i j), (Nat.ltb_spec j i); try lia; ring. }
  assert (Eb : bb i = (a i i * (y i - x i) / w + a i i * x i + S)%num).
  { apply (f_equal (fun t => ((t - (n1 - w) * x i) / w * a i i + S)%num)) in Hs. rename Hs into E1.
    transitivity (((n1 - w) * x i + w * ((bb i - S) / a i i) - (n1 - w) * x i) / w * a i i + S)%num; [field; auto|].
    rewrite <- E1. field. auto. }
  rewrite Eb. replace (mulvec n a y i) with (a i i * y i + S + mulvec n a (fun j => if i <? j then y j - x j else n0) i)%num
    by (rewrite <- E; ring). field. auto.
Qed.
Lemma bigsum_term_le n (g : nat -> N) k : k < n -> (forall i, i < n -> le n0 (g i)) -> le (g k) (bigsum n g).
Proof.
  induction n as [|n IH]; [lia|]. intros Hk Hg. cbn [bigsum].
  destruct (Nat.eq_dec k n) as [->|Hne].
  - apply (ole_sub HO). replace (bigsum n g + g n - g n)%num with (bigsum n g) by ring. apply (bigsum_nonneg HO). auto.
  - replace (g k) with (g k + n0)%num by ring. apply (ole_add HO); [apply IH; auto; lia|auto].
Qed.
(** The last update is below eps in every component. *)
Lemma dist2_small n x y (eps : N) i : le n0 eps -> le (dist2 n x y) (eps * eps)%num -> i < n -> le (nabs (y i - x i)%num) eps.
Proof.
  intros He Hd Hi. set (d := (y i - x i)%num).
  assert (Hd2 : le (d * d)%num (eps * eps)%num).
  { apply (of_le_trans N HO) with (dist2 n x y); auto.
    apply (bigsum_term_le n (fun i => (y i - x i) * (y i - x i))%num i Hi). intros; apply (ole_0_sqr HO). }
  destruct (olt_dec HO eps (nabs d)) as [Hl|]; auto. exfalso.
  assert (L : lt (eps * eps)%num (nabs d * nabs d)%num).
  { apply (ole_lt_trans HO) with (eps * nabs d)%num; [apply (ole_mul_l HO); auto; now apply (olt_le HO)|].
    replace (eps * nabs d)%num with (nabs d * eps)%num by ring. apply (olt_mul_l HO); auto. now apply (ole_lt_trans HO) with eps. }
  rewrite <- (oabs_mul HO), (of_abs_pos N HO) in L by apply (ole_0_sqr HO).
  apply (olt_iff HO) in L. contradiction.
Qed.
Lemma ole_mul2 (u v s t : N) : le n0 u -> le n0 t -> le u v -> le s t -> le (u * s)%num (v * t)%num.
Proof.
  intros Hu Ht H1 H2. apply (of_le_trans N HO) with (u * t)%num; [now apply (ole_mul_l HO)|].
  replace (u * t)%num with (t * u)%num by ring. replace (v * t)%num with (t * v)%num by ring. now apply (ole_mul_l HO).
Qed.
End Sor.

Section Data.
Context {N : Num}.
Lemma for_collect {A} lo hi (g : nat -> res A) (h : nat -> A) : (forall k, lo <= k < hi -> g k = Ok (h k)) ->
  forall acc, for_ lo hi (fun k l => let* v := g k in Ok (l ++ [v])) acc = Ok (acc ++ map h (seq lo (hi - lo))).
Proof.
  intros H. unfold for_. assert (Hin : forall k, In k (seq lo (hi - lo)) -> g k = Ok (h k)) by (intros k Hk; apply in_seq in Hk; apply H; lia).
  intros acc. rewrite for_foreach. revert acc Hin. generalize (seq lo (hi - lo)) as l. induction l as [|k l IH]; intros acc Hin; cbn [foreach map].
  - now rewrite app_nil_r.
  - rewrite Hin by (now left). cbn [bind]. rewrite IH by (intros; apply Hin; now right). now rewrite <- app_assoc.
Qed.
Lemma data2_ok XC YC (X : list N) : length X = XC * YC ->
  fdm_data XC YC X = Ok (map (fun y => map (fun x => nth (lin2 XC x y) X n0) (seq 0 XC)) (seq 0 YC)).
Proof.
  intros Hl. unfold fdm_data.
  rewrite (for_collect 0 YC (fun y => for_ 0 XC (fun x l => let* v := v_at X (lin2 XC x y) in Ok (l ++ [v])) [])
    (fun y => map (fun x => nth (lin2 XC x y) X n0) (seq 0 XC))); [now rewrite Nat.sub_0_r|].
  intros y Hy. rewrite (for_collect 0 XC (fun x => v_at X (lin2 XC x y)) (fun x => nth (lin2 XC x y) X n0)); [now rewrite Nat.sub_0_r|].
  intros x Hx. apply v_at_ok. rewrite Hl. apply lin2_lt; lia.
Qed.
Lemma nth_map_seq {A} (h : nat -> A) n k d : k < n -> nth k (map h (seq 0 n)) d = h k.
Proof. intros H. rewrite (nth_indep _ d (h 0)) by (now rewrite map_length, seq_length). rewrite map_nth, seq_nth by auto. reflexivity. Qed.
Lemma table2_grid XC YC (g : nat -> nat -> N) x y : x < XC -> y < YC ->
  table2 (map (fun y => map (fun x => g x y) (seq 0 XC)) (seq 0 YC)) x y = g x y.
Proof. intros Hx Hy. unfold table2. rewrite (nth_map_seq _ YC) by auto. now rewrite nth_map_seq. Qed.
Lemma size2_grid XC YC (g : nat -> nat -> N) : has_size2 XC YC (map (fun y => map (fun x => g x y) (seq 0 XC)) (seq 0 YC)).
Proof. split; [now rewrite map_length, seq_length|]. intros y Hy. rewrite (nth_map_seq _ YC) by auto. now rewrite map_length, seq_length. Qed.
End Data.

Section PoissonMain.
Context {N : Num} (HO : OrdFieldLaws N) (HN : NatLaws N).
Let HF : FieldLaws N := of_field N HO.
Add Field gnfld : (fl_field N HF).
Notation le x y := (nleb x y = true).
Notation lt x y := (nltb x y = true).
Variables (XC YC : nat) (H K : N) (f b : N -> N -> N).
Hypothesis (HX : 0 < XC) (HY : 0 < YC) (HH : H <> n0) (HK : K <> n0).
Local Notation lin := (lin2 XC).
Local Notation D := (XC * YC).
Local Notation a := (tab (prows XC YC H K)).
Local Notation rhs := (prhsi XC YC H K f b).

Lemma KK : (K * K)%num <> n0.
Proof. now apply (mul_neq_0 HO). Qed.
Lemma row_eq (u : nat -> N) x y : x < XC -> y < YC ->
  mulvec D a u (lin x y) = if rimb XC YC x y then u (lin x y) else ((K * K) * laplace H K (fun x y => u (lin x y)) x y)%num.
Proof.
  intros Hx Hy. rewrite (mulvec_tab HF), prows_lin by (auto; intros e; rewrite prows_lin by auto; now apply prow_range).
  now apply prow_sum.
Qed.
Lemma system_iff (u : nat -> N) : (forall i, i < D -> mulvec D a u i = rhs i) <-> poisson XC YC H K f b (fun x y => u (lin x y)).
Proof.
  split.
  - intros E x y Hx Hy. specialize (E (lin x y) (lin2_lt XC YC x y Hx Hy)). rewrite row_eq in E by auto. rewrite prhsi_lin in E by auto. unfold prhs in E. split.
    + intros Hr. apply rimb_spec in Hr. rewrite Hr in E. exact E.
    + intros Hr. apply rimb_false in Hr. rewrite Hr in E.
      apply (f_equal (fun t => t / (K * K))%num) in E. pose proof KK.
      match type of E with ?l = ?r => transitivity l; [field; auto|rewrite E; field; auto] end.
  - intros P i Hi. destruct (lin2_of XC YC i Hi) as (x & y & Hx & Hy & ->). rewrite row_eq, prhsi_lin by auto. unfold prhs.
    destruct (P x y Hx Hy) as [P1 P2]. destruct (rimb XC YC x y) eqn:E.
    + apply P1. now apply rimb_spec.
    + rewrite P2; [reflexivity|]. now apply rimb_false.
Qed.
Lemma poisson_assembly : returns (fdm_assemble XC YC H K f b) (fun s => mi_rows (fst s) = D /\ mi_cols (fst s) = D /\ length (snd s) = D /\
  forall X, length X = D -> (mo_mulv (fst s) X = Ok (snd s) <-> poisson XC YC H K f b (fun x y => nth (lin x y) X n0))).
Proof.
  destruct (poisson_system HF HN XC YC H K f b HX HY) as (s & E & HA & HB). exists s. split; auto.
  assert (HLen : length (snd s) = D) by (rewrite HB, map_length, seq_length; reflexivity).
  split; [exact (proj1 (proj2 HA))|]. split; [exact (proj1 (proj2 (proj2 HA)))|]. split; auto. intros X HXl.
  rewrite <- (system_iff (fun i => nth i X n0)). pose proof (sparse_ops_laws N HF) as OL.
  change (SparseR N : MatOps N) with (SparseOps N) in *. rewrite (ol_mulv _ OL (fst s) D D a X HA HXl), HB. split.
  - intros Ev i Hi. injection Ev as Ev. apply (f_equal (fun l => nth i l n0)) in Ev. rewrite !nth_map_seq in Ev by auto. exact Ev.
  - intros Ev. f_equal. apply map_ext_in. intros i Hi. apply in_seq in Hi. apply Ev. lia.
Qed.

(** One and only one grid function (on the grid) solves the scheme. *)
Lemma poisson_unique u v : poisson XC YC H K f b u -> poisson XC YC H K f b v -> forall x y, x < XC -> y < YC -> u x y = v x y.
Proof.
  intros Pu Pv x y Hx Hy.
  assert (Z : le (nabs (u x y - v x y)%num) (n0 + n0 * bubble XC H x)%num).
  { apply (poisson_stable HO HN XC YC H K HH HK u v n0 n0); auto.
    - intros x' y' Hx' Hy' Hr. rewrite (proj1 (Pu x' y' Hx' Hy') Hr), (proj1 (Pv x' y' Hx' Hy') Hr).
      match goal with |- le (nabs ?t) _ => replace t with (@n0 N) by ring end. rewrite (of_abs_pos N HO); apply (of_le_refl N HO).
    - intros x' y' Hx' Hy' Hr. rewrite (proj2 (Pu x' y' Hx' Hy') Hr), (proj2 (Pv x' y' Hx' Hy') Hr).
      match goal with |- le (nabs ?t) _ => replace t with (@n0 N) by ring end. rewrite (of_abs_pos N HO); apply (of_le_refl N HO).
    - apply (of_le_refl N HO). }
  replace (n0 + n0 * bubble XC H x)%num with (@n0 N) in Z by ring.
  assert (E : (u x y - v x y)%num = n0) by (apply (oabs_0_iff HO); apply (of_le_antisym N HO); auto; apply (oabs_nonneg HO)).
  replace (u x y) with (v x y + (u x y - v x y))%num by ring. rewrite E. ring.
Qed.
End PoissonMain.

Section PoissonRun.
Context {N : Num} (HO : OrdFieldLaws N) (HN : NatLaws N).
Let HF : FieldLaws N := of_field N HO.
Add Field grfld : (fl_field N HF).
Notation le x y := (nleb x y = true).
Notation lt x y := (nltb x y = true).
Variables (XC YC : nat) (H K : N).
Hypothesis (HX : 0 < XC) (HY : 0 < YC) (HH : H <> n0) (HK : K <> n0).
Local Notation lin := (lin2 XC).
Local Notation D := (XC * YC).
Local Notation a := (tab (prows XC YC H K)).

Lemma poisson_exists f b : exists u, poisson XC YC H K f b u.
Proof.
  destruct (injective_solvable HF D a) with (b := prhsi XC YC H K f b) as (x & Hx).
  - intros x Hx j Hj. destruct (lin2_of XC YC j Hj) as (xx & yy & Hxx & Hyy & ->).
    assert (Z : forall i, i < D -> prhsi XC YC H K (fun _ _ => n0) (fun _ _ => n0) i = n0)
      by (intros i _; unfold prhsi, prhs; destruct (rimb XC YC _ _); ring).
    assert (Px : poisson XC YC H K (fun _ _ => n0) (fun _ _ => n0) (fun x' y' => x (lin x' y'))).
    { apply (system_iff HO XC YC H K _ _ HX HY HH HK). intros i Hi. now rewrite Hx, Z. }
    assert (Pz : poisson XC YC H K (fun _ _ => n0) (fun _ _ => n0) (fun _ _ => n0)).
    { apply (system_iff HO XC YC H K _ _ HX HY HH HK (fun _ => n0)). intros i Hi. rewrite Z by auto. apply bigsum_0; auto. intros; ring. }
    exact (poisson_unique HO HN XC YC H K _ _ HH HK _ _ Px Pz xx yy Hxx Hyy).
  - exists (fun x' y' => x (lin x' y')). now apply (system_iff HO XC YC H K _ _ HX HY HH HK).
Qed.

Variables (f b : N -> N -> N) (w eps : N) (maxIter : nat).
Hypothesis (Hw : w <> n0) (Heps : le n0 eps).
Local Notation theta := (nabs (n1 / w - n1)%num).

Lemma R2_pos : lt n0 (fdm_R2 H K).
Proof.
  unfold fdm_R2. replace (K * K / (H * H))%num with ((K * K) * (n1 / (H * H)))%num by (field; auto).
  apply (olt_0_mul HO); [now apply (olt_0_sqr HO)|now apply inv_sq_pos].
Qed.
Lemma C_ne : fdm_C H K <> n0.
Proof.
  unfold fdm_C. intros E. assert (L : lt n0 ((n1 + n1) * (n1 + fdm_R2 H K))%num).
  { apply (olt_0_mul HO); [apply (two_pos HO)|]. apply (olt_0_add HO); [apply (olt_0_1 HO)|]. apply (olt_le HO), R2_pos. }
  replace ((n1 + n1) * (n1 + fdm_R2 H K))%num with (- (- (n1 + n1) * (n1 + fdm_R2 H K)))%num in L by ring. rewrite E in L.
  replace (- n0)%num with (@n0 N) in L by ring. now apply (olt_irrefl HO) in L.
Qed.
Lemma diag_ne i : i < D -> a i i <> n0.
Proof.
  intros Hi. destruct (lin2_of XC YC i Hi) as (x & y & Hx & Hy & ->). rewrite prow_diag by auto.
  destruct (rimb XC YC x y); [apply (one_neq_zero HO)|apply C_ne].
Qed.

(** What the program writes: a sequence of SOR iterates started at 0. *)
Lemma poisson_run : exists X it,
  fdm_main XC YC H K f b w maxIter eps = Ok (map (fun y => map (fun x => X it (lin x y)) (seq 0 XC)) (seq 0 YC), it) /\
  (forall i, i < D -> X 0 i = n0) /\ (forall k, sor_eq D a (prhsi XC YC H K f b) w (X k) (X k) (X (S k))) /\
  run_ends D X maxIter (eps * eps)%num it.
Proof.
  destruct (poisson_system HF HN XC YC H K f b HX HY) as ([A B] & E & HA & HB). cbn [fst snd] in HA, HB.
  unfold fdm_main. rewrite E. cbn [bind fst snd].
  assert (Hlb : length B = D) by (now rewrite HB, map_length, seq_length).
  assert (Hz : v_resize [] D = repeat (@n0 N) D) by (unfold v_resize; rewrite firstn_nil; cbn; now rewrite Nat.sub_0_r).
  rewrite Hz. pose proof (sparse_rows N HF) as HR.
  destruct (sor_zero_start HO HR A D a B (repeat n0 D) HA Hlb (repeat_length _ _) w maxIter eps) as (X & it & Es & H0 & H1 & He).
  { intros i Hi. apply nth_repeat. }
  unfold V in Es. rewrite Es. cbn [bind fst snd]. rewrite data2_ok by (now rewrite map_length, seq_length). cbn [bind].
  exists X, it. split; [|split; [|split]]; auto.
  - f_equal. f_equal. apply map_ext_in. intros y Hy. apply in_seq in Hy. apply map_ext_in. intros x Hx. apply in_seq in Hx.
    apply nth_map_seq. apply lin2_lt; lia.
  - intros k i Hi. rewrite (H1 k i Hi). rewrite HB, nth_map_seq by auto. reflexivity.
Qed.

(** On the rim: the values are (1 - (1-w)^it) b. *)
Lemma rim_values X : (forall i, i < D -> X 0 i = n0) -> (forall k, sor_eq D a (prhsi XC YC H K f b) w (X k) (X k) (X (S k))) ->
  forall k x y, x < XC -> y < YC -> on_rim XC YC x y ->
  X k (lin x y) = ((n1 - npow (n1 - w) k) * b (nofnat x * H) (nofnat y * K))%num.
Proof.
  intros H0 H1 k x y Hx Hy Hr. induction k as [|k IH].
  - rewrite H0 by (now apply lin2_lt). cbn. ring.
  - rewrite (H1 k (lin x y)) by (now apply lin2_lt). rewrite IH, prow_diag by auto. rewrite prhsi_lin by auto. unfold prhs.
    rewrite (proj2 (rimb_spec _ _ _ _) Hr). unfold offsum. rewrite (bigsum_0 HF).
    + cbn [npow]. field. apply (one_neq_zero HO).
    + intros j Hj. destruct (Nat.eqb_spec j (lin x y)) as [->|Hne]; auto.
      rewrite (tab_out HF); [ring|]. intros v. rewrite prows_lin by auto. unfold prow. rewrite (proj2 (rimb_spec _ _ _ _) Hr).
      intros [Ev|[]]. injection Ev as Ev _. congruence.
Qed.

(** Defect of an iterate whose last update is small. *)
Lemma run_defect xo xn : sor_eq D a (prhsi XC YC H K f b) w xo xo xn -> (forall i, i < D -> le (nabs (xn i - xo i)%num) eps) ->
  forall x y, x < XC -> y < YC ->
  (on_rim XC YC x y -> le (nabs (xn (lin x y) - b (nofnat x * H) (nofnat y * K))%num) (theta * eps)%num) /\
  (~ on_rim XC YC x y -> le (nabs (laplace H K (fun x y => xn (lin x y)) x y - f (nofnat x * H) (nofnat y * K))%num)
     (((n1 + n1) * theta + n1) * (n1 / (H * H) + n1 / (K * K)) * eps)%num).
Proof.
  intros Hs Hd x y Hx Hy. assert (Hi : lin x y < D) by (now apply lin2_lt).
  pose proof (sor_defect HO D a _ w xo xn (lin x y) Hs Hw Hi (diag_ne _ Hi)) as Ed.
  rewrite (row_eq HO XC YC H K HX HY HH HK xn x y Hx Hy), prhsi_lin, prow_diag in Ed by auto.
  rewrite (mulvec_tab HF), prows_lin in Ed by (auto; intros e; rewrite prows_lin by auto; now apply prow_range).
  unfold prhs, prow in Ed. split; intros Hr.
  - rewrite (proj2 (rimb_spec _ _ _ _) Hr) in Ed. unfold rowsum in Ed. cbn [fold_right fst snd] in Ed. rewrite Nat.ltb_irrefl in Ed.
    rewrite <- (oabs_opp HO).
    match goal with |- le (nabs ?t) _ => replace t with ((n1 / w - n1) * (xn (lin x y) - xo (lin x y)))%num end.
    + rewrite (oabs_mul HO). apply (ole_mul_l HO); auto. apply (oabs_nonneg HO).
    + transitivity (b (nofnat x * H) (nofnat y * K) - xn (lin x y))%num; [rewrite Ed; ring|ring].
  - rewrite (proj2 (rimb_false _ _ _ _) Hr) in Ed. unfold rowsum in Ed. cbn [fold_right fst snd] in Ed.
    pose proof Hr as Hr'. unfold on_rim in Hr'.
    assert (L1 : (lin x y <? lin (x - 1) y) = false) by (apply Nat.ltb_ge; unfold lin2; lia).
    assert (L2 : (lin x y <? lin x (y - 1)) = false) by (apply Nat.ltb_ge; unfold lin2; nia).
    assert (L3 : (lin x y <? lin (x + 1) y) = true) by (apply Nat.ltb_lt; unfold lin2; lia).
    assert (L4 : (lin x y <? lin x (y + 1)) = true) by (apply Nat.ltb_lt; unfold lin2; nia).
    rewrite L1, L2, L3, L4, Nat.ltb_irrefl in Ed.
    set (d0 := (xn (lin x y) - xo (lin x y))%num) in *. set (d1 := (xn (lin (x + 1) y) - xo (lin (x + 1) y))%num) in *.
    set (d2 := (xn (lin x (y + 1)) - xo (lin x (y + 1)))%num) in *.
    assert (B0 : le (nabs d0) eps) by (apply Hd; auto).
    assert (B1 : le (nabs d1) eps) by (apply Hd, lin2_lt; lia).
    assert (B2 : le (nabs d2) eps) by (apply Hd, lin2_lt; lia).
    pose proof (KK HO K HK) as HK2.
    set (P := (n1 / (H * H))%num) in *. set (Q := (n1 / (K * K))%num) in *.
    assert (HP : le n0 P) by (apply (olt_le HO); now apply inv_sq_pos).
    assert (HQ : le n0 Q) by (apply (olt_le HO); now apply inv_sq_pos).
    assert (El : (laplace H K (fun x y => xn (lin x y)) x y - f (nofnat x * H) (nofnat y * K))%num =
      ((n1 + n1) * (P + Q) * ((n1 / w - n1) * d0) + (P * d1 + Q * d2))%num).
    { apply (f_equal (fun t => (- t) / (K * K))%num) in Ed.
      match type of Ed with ?l = ?r => transitivity l; [field; auto|rewrite Ed] end. unfold fdm_C, fdm_R2, P, Q. field. auto. }
    rewrite El. apply (of_le_trans N HO) with ((n1 + n1) * (P + Q) * (theta * eps) + (P * eps + Q * eps))%num.
    + apply (of_le_trans N HO) with (nabs ((n1 + n1) * (P + Q) * ((n1 / w - n1) * d0)) + nabs (P * d1 + Q * d2))%num; [apply (oabs_add HO)|].
      apply (ole_add HO).
      * rewrite !(oabs_mul HO). rewrite (of_abs_pos N HO (n1 + n1)%num) by (apply (olt_le HO), (two_pos HO)).
        rewrite (of_abs_pos N HO (P + Q)%num) by (now apply (ole_0_add HO)).
        apply (ole_mul_l HO); [apply (ole_0_mul HO); [apply (olt_le HO), (two_pos HO)|now apply (ole_0_add HO)]|].
        apply (ole_mul_l HO); auto. apply (oabs_nonneg HO).
      * apply (of_le_trans N HO) with (nabs (P * d1) + nabs (Q * d2))%num; [apply (oabs_add HO)|].
        apply (ole_add HO); rewrite (oabs_mul HO), (of_abs_pos N HO _) by auto; now apply (ole_mul_l HO).
    + match goal with |- le ?s ?t => replace t with s by ring end. apply (of_le_refl N HO).
Qed.
End PoissonRun.
