(** Convergence of the relaxation method in the two finite difference programs: their matrices fall into levels. *)
From Coq Require Import List Arith Bool Lia Ring Field.
From Verif Require Import Base BaseProofs Num OrdField UtilsSpec UtilsProofs Spec SpecProofs VectorModel VectorSpec VectorProofs MatI MatIProofs MatOps
  DetSpec DetProofs DetMult LUModel LUProofs LUSolve CholProofs CGMath IterModel CGProofs CGResult IterProofs IterResult LinAlg SorConv SorBlock
  GridModel GridSpec GridProofs GridPoisson GridMax GridSor GridHeat GridHeatRun.
Import ListNotations.
Local Open Scope nat_scope.
Open Scope res_scope.

(** ** Diagonally dominant blocks *)
Section Dominant.
Context {N : Num} (HO : OrdFieldLaws N).
Let HF : FieldLaws N := of_field N HO.
Add Field gdfld : (fl_field N HF).
Notation le x y := (nleb x y = true).
Notation lt x y := (nltb x y = true).
Implicit Types (a c : nat -> nat -> N) (x : nat -> N).
Open Scope num_scope.

Lemma form_rowsums n c x : symmetric2 n c ->
  (n1 + n1) * form n c x = (n1 + n1) * bigsum n (fun i => bigsum n (c i) * (x i * x i)) +
    bigsum n (fun i => bigsum n (fun j => - c i j * ((x i - x j) * (x i - x j)))).
Proof.
  intros Hc. set (R := bigsum n (fun i => bigsum n (c i) * (x i * x i))).
  assert (E1 : bigsum n (fun i => bigsum n (fun j => c i j * (x i * x i))) = R) by (apply bigsum_ext; intros i Hi; apply (bigsum_mul_r HF)).
  assert (E2 : bigsum n (fun i => bigsum n (fun j => c i j * (x j * x j))) = R).
  { rewrite (bigsum_swap HF), <- E1. apply bigsum_ext. intros i Hi. apply bigsum_ext. intros j Hj. now rewrite (Hc i j). }
  assert (E3 : bigsum n (fun i => bigsum n (fun j => - c i j * ((x i - x j) * (x i - x j)))) =
    (n1 + n1) * form n c x - (R + R)).
  { rewrite <- E1 at 1. rewrite <- E2. unfold form. rewrite <- (bigsum_plus HF), <- (bigsum_mul_l HF), <- (bigsum_minus HF). apply bigsum_ext. intros i Hi.
    rewrite <- (bigsum_plus HF), <- (bigsum_mul_l HF), <- (bigsum_minus HF). apply bigsum_ext. intros j Hj. ring. }
  rewrite E3. ring.
Qed.
Lemma nonneg_sum_0 n (g : nat -> N) : (forall i, (i < n)%nat -> le n0 (g i)) -> bigsum n g = n0 -> forall i, (i < n)%nat -> g i = n0.
Proof.
  intros Hg E i Hi. apply (of_le_antisym N HO); [|auto]. rewrite <- E. apply (bigsum_term_le HO n g i); auto.
Qed.
Lemma dominant_pd n c : symmetric2 n c -> (forall i j, (i < n)%nat -> (j < n)%nat -> i <> j -> le (c i j) n0) -> (forall i, (i < n)%nat -> le n0 (bigsum n (c i))) ->
  (forall x, (forall i, (i < n)%nat -> mulvec n c x i = n0 /\ bigsum n (c i) * x i = n0) -> forall i, (i < n)%nat -> x i = n0) -> pos_def n c.
Proof.
  intros Hc Ho Hr Hi x (i0 & Hi0 & Hx). pose proof (form_rowsums n c x Hc) as E.
  set (R := bigsum n (fun i => bigsum n (c i) * (x i * x i))) in *. set (T := bigsum n (fun i => bigsum n (fun j => - c i j * ((x i - x j) * (x i - x j))))) in *.
  assert (PT1 : forall i j, (i < n)%nat -> (j < n)%nat -> le n0 (- c i j * ((x i - x j) * (x i - x j)))).
  { intros i j H1 H2. destruct (Nat.eq_dec i j) as [->|Hne]; [replace (- c j j * ((x j - x j) * (x j - x j))) with (n0 : N) by ring; apply (ole_refl HO)|].
    apply (ole_0_mul HO); [|apply (ole_0_sqr HO)]. apply (ole_opp HO). replace (- - c i j) with (c i j) by ring. auto. }
  assert (PR1 : forall i, (i < n)%nat -> le n0 (bigsum n (c i) * (x i * x i))) by (intros i H1; apply (ole_0_mul HO); [auto|apply (ole_0_sqr HO)]).
  assert (PT : le n0 T) by (apply (bigsum_nonneg HO); intros i H1; apply (bigsum_nonneg HO); auto).
  assert (PR : le n0 R) by (apply (bigsum_nonneg HO); auto).
  assert (P2 := olt_le HO _ _ (SorConv.two_pos HO)). pose proof (two_neq_0 HO) as Z2.
  assert (PF : le n0 (form n c x)).
  { replace (form n c x) with ((n1 / (n1 + n1)) * ((n1 + n1) * form n c x)) by (field; auto). apply (ole_0_mul HO); [apply (olt_le HO), (olt_0_inv HO), (SorConv.two_pos HO)|].
    rewrite E. apply (ole_0_add HO); auto. now apply (ole_0_mul HO). }
  change (lt n0 (form n c x)). rewrite (of_lt N HO). apply negb_true_iff. destruct (nleb (form n c x) n0) eqn:El; auto. exfalso.
  assert (F0 : form n c x = n0) by now apply (of_le_antisym N HO). rewrite F0 in E.
  assert (S0 : (n1 + n1) * R + T = n0) by (rewrite <- E; ring). assert (P2R : le n0 ((n1 + n1) * R)) by now apply (ole_0_mul HO).
  assert (T0 : T = n0).
  { apply (of_le_antisym N HO); auto. rewrite <- S0. apply (ole_sub HO). replace ((n1 + n1) * R + T - T) with ((n1 + n1) * R) by ring. auto. }
  assert (R0 : R = n0).
  { rewrite T0 in S0. replace R with ((n1 / (n1 + n1)) * ((n1 + n1) * R + n0)) by (field; auto). rewrite S0. ring. }
  apply Hx. apply Hi; auto. intros i H1.
  assert (RX : bigsum n (c i) * x i = n0).
  { pose proof (nonneg_sum_0 n _ PR1 R0 i H1) as G. destruct (neq_dec HO (x i) n0) as [Hz|Hz]; [rewrite Hz; ring|].
    replace (bigsum n (c i) * x i) with ((n1 / x i) * (bigsum n (c i) * (x i * x i))) by (field; auto). rewrite G. ring. }
  split; auto. rewrite <- RX. unfold mulvec. rewrite <- (bigsum_mul_r HF). apply bigsum_ext. intros j H2.
  pose proof (nonneg_sum_0 n _ (fun i Hi => bigsum_nonneg HO n _ (fun j Hj => PT1 i j Hi Hj)) T0 i H1) as G1.
  pose proof (nonneg_sum_0 n _ (fun j Hj => PT1 i j H1 Hj) G1 j H2) as G2. cbv beta in G2.
  destruct (neq_dec HO (x i) (x j)) as [Hz|Hz]; [now rewrite Hz|]. assert (Hz' : x i - x j <> n0).
  { intros Hd. apply Hz. replace (x i) with (x j + (x i - x j)) by ring. rewrite Hd. ring. }
  replace (c i j) with (- ((n1 / ((x i - x j) * (x i - x j))) * (- c i j * ((x i - x j) * (x i - x j))))) by (field; auto). rewrite G2. ring.
Qed.

(** A matrix whose rows, scaled by [d], have nonpositive entries off the diagonal, are symmetric within a level and have nonnegative sums there. *)
Lemma levels_of n a lev (d : nat -> N) :
  (forall i j, (i < n)%nat -> (j < n)%nat -> (lev i < lev j)%nat -> a i j = n0) ->
  (forall i j, (i < n)%nat -> (j < n)%nat -> lev i = lev j -> i <> j -> d i * a i j = d j * a j i /\ le (d i * a i j) n0) ->
  (forall i, (i < n)%nat -> le n0 (d i * mulvec n a (fun j => if (lev j =? lev i)%nat then n1 else n0) i)) ->
  (forall L x, (forall i, (i < n)%nat -> lev i <> L -> x i = n0) ->
     (forall i, (i < n)%nat -> lev i = L -> d i * mulvec n a x i = n0 /\ d i * mulvec n a (fun j => if (lev j =? L)%nat then n1 else n0) i * x i = n0) ->
     forall i, (i < n)%nat -> lev i = L -> x i = n0) ->
  levels n a lev d.
Proof.
  intros H1 H2 H3 H4. split; auto. intros L.
  assert (Hs : symmetric2 n (cut a lev d L)).
  { intros i j Hi Hj. unfold cut. destruct (Nat.eq_dec i j) as [->|Hne]; auto.
    destruct (Nat.eqb_spec (lev i) L) as [Ei|Ei], (Nat.eqb_spec (lev j) L) as [Ej|Ej]; cbn [andb]; try (rewrite (Nat.eqb_sym i j); reflexivity).
    apply H2; auto. congruence. }
  assert (Hrow : forall i x, (i < n)%nat -> lev i = L -> bigsum n (fun j => cut a lev d L i j * x j) = d i * mulvec n a (fun j => if (lev j =? L)%nat then x j else n0) i).
  { intros i x Hi El. unfold mulvec. rewrite <- (bigsum_mul_l HF). apply bigsum_ext. intros j Hj. unfold cut. rewrite El, Nat.eqb_refl. cbn [andb].
    destruct (Nat.eqb_spec (lev j) L) as [Ej|Ej]; [ring|]. destruct (Nat.eqb_spec i j) as [->|]; [congruence|]. ring. }
  assert (Hid : forall i x, (i < n)%nat -> lev i <> L -> bigsum n (fun j => cut a lev d L i j * x j) = x i).
  { intros i x Hi El. rewrite (bigsum_ext n _ (fun j => if (j =? i)%nat then x i else n0)).
    - rewrite (bigsum_single HF n i); auto; [now rewrite Nat.eqb_refl|]. intros j Hj Hne. now rewrite (proj2 (Nat.eqb_neq _ _) Hne).
    - intros j Hj. unfold cut. rewrite (proj2 (Nat.eqb_neq _ _) El). cbn [andb]. rewrite (Nat.eqb_sym i j). destruct (Nat.eqb_spec j i) as [->|]; ring. }
  assert (Hsum : forall i, bigsum n (cut a lev d L i) = bigsum n (fun j => cut a lev d L i j * n1)) by (intros i; apply bigsum_ext; intros; ring).
  split; auto. apply dominant_pd; auto.
  - intros i j Hi Hj Hne. unfold cut. destruct (Nat.eqb_spec (lev i) L) as [Ei|Ei], (Nat.eqb_spec (lev j) L) as [Ej|Ej]; cbn [andb];
      try (rewrite (proj2 (Nat.eqb_neq _ _) Hne); apply (ole_refl HO)). apply H2; auto. congruence.
  - intros i Hi. rewrite Hsum. destruct (Nat.eq_dec (lev i) L) as [Ei|Ei].
    + rewrite (Hrow i (fun _ => n1)) by auto. rewrite <- Ei. apply H3; auto.
    + rewrite (Hid i (fun _ => n1)) by auto. apply (olt_le HO), (olt_0_1 HO).
  - intros x Hx i Hi. assert (Hoff : forall i, (i < n)%nat -> lev i <> L -> x i = n0).
    { intros j Hj Ej. destruct (Hx j Hj) as [G _]. unfold mulvec in G. rewrite (Hid j x) in G; auto. }
    destruct (Nat.eq_dec (lev i) L) as [Ei|Ei]; [|now apply Hoff]. apply (H4 L x Hoff); auto.
    intros j Hj Ej. destruct (Hx j Hj) as [G1 G2]. unfold mulvec in G1. rewrite (Hrow j x) in G1 by auto. rewrite Hsum, (Hrow j (fun _ => n1)) in G2 by auto.
    split; auto. rewrite <- G1. f_equal. apply bigsum_ext. intros p Hp. destruct (Nat.eqb_spec (lev p) L) as [|Ep]; auto. now rewrite (Hoff p Hp Ep).
Qed.
Lemma entry_delta n a i j : (i < n)%nat -> (j < n)%nat -> a i j = mulvec n a (fun p => if (p =? j)%nat then n1 else n0) i.
Proof.
  intros Hi Hj. unfold mulvec. rewrite (bigsum_ext n _ (fun p => if (p =? j)%nat then a i j else n0)).
  - rewrite (bigsum_single HF n j); auto; [now rewrite Nat.eqb_refl|]. intros p Hp Hne. now rewrite (proj2 (Nat.eqb_neq _ _) Hne).
  - intros p Hp. destruct (Nat.eqb_spec p j) as [->|]; ring.
Qed.
End Dominant.

(** ** The discrete Laplacian *)
Section Lap.
Context {N : Num} (HO : OrdFieldLaws N).
Let HF : FieldLaws N := of_field N HO.
Add Field glfld : (fl_field N HF).
Notation le x y := (nleb x y = true).
Notation lt x y := (nltb x y = true).
Variables (H K : N).
Hypothesis (HH : H <> n0) (HK : K <> n0).

(** The grid function that is 1 at (x', y') and 0 elsewhere. *)
Definition bump (x' y' x y : nat) : N := if (x =? x') && (y =? y') then n1 else n0.
Lemma bump_range x' y' x y : le n0 (bump x' y' x y).
Proof. unfold bump. destruct (_ && _); [apply (olt_le HO), (olt_0_1 HO)|apply (ole_refl HO)]. Qed.
Lemma bump_off x' y' x y : (x, y) <> (x', y') -> bump x' y' x y = n0.
Proof. intros Hne. unfold bump. destruct (Nat.eqb_spec x x') as [->|]; auto. destruct (Nat.eqb_spec y y') as [->|]; auto. congruence. Qed.
Lemma lap_split (u : nat -> nat -> N) x y : laplace H K u x y =
  ((n1 / (H * H)) * ((u (x - 1)%nat y - u x y) + (u (x + 1)%nat y - u x y)) + (n1 / (K * K)) * ((u x (y - 1)%nat - u x y) + (u x (y + 1)%nat - u x y)))%num.
Proof. unfold laplace, diff2. field. auto. Qed.
Lemma lap_low (u : nat -> nat -> N) x y : le (u x y) (u (x - 1) y) -> le (u x y) (u (x + 1) y) -> le (u x y) (u x (y - 1)) -> le (u x y) (u x (y + 1)) ->
  le n0 (laplace H K u x y).
Proof.
  intros H1 H2 H3 H4. rewrite lap_split. apply (ole_sub HO) in H1, H2, H3, H4.
  apply (ole_0_add HO); apply (ole_0_mul HO); try (apply (olt_le HO), (inv_sq_pos HO); assumption); apply (ole_0_add HO); assumption.
Qed.
Lemma lap_high (u : nat -> nat -> N) x y : le (u (x - 1) y) (u x y) -> le (u (x + 1) y) (u x y) -> le (u x (y - 1)) (u x y) -> le (u x (y + 1)) (u x y) ->
  le (laplace H K u x y) n0.
Proof.
  intros H1 H2 H3 H4. apply (ole_0_opp HO).
  replace (- laplace H K u x y)%num with (laplace H K (fun x y => - u x y)%num x y) by (unfold laplace, diff2; field; auto).
  apply lap_low; apply (ole_sub HO); match goal with |- le _ (- ?p - - ?q)%num => replace (- p - - q)%num with (q - p)%num by ring end; apply (proj1 (ole_sub HO _ _)); assumption.
Qed.
Lemma lap_bump_sym x y x' y' : 0 < x -> 0 < y -> 0 < x' -> 0 < y' -> laplace H K (bump x' y') x y = laplace H K (bump x y) x' y'.
Proof.
  intros P1 P2 P3 P4. rewrite !lap_split.
  assert (E0 : bump x' y' x y = bump x y x' y') by (unfold bump; now rewrite (Nat.eqb_sym x), (Nat.eqb_sym y)).
  assert (E1 : bump x' y' (x - 1) y = bump x y (x' + 1) y').
  { unfold bump. rewrite (Nat.eqb_sym y). replace (x - 1 =? x') with (x' + 1 =? x); auto. apply eq_true_iff_eq. rewrite !Nat.eqb_eq. lia. }
  assert (E2 : bump x' y' (x + 1) y = bump x y (x' - 1) y').
  { unfold bump. rewrite (Nat.eqb_sym y). replace (x + 1 =? x') with (x' - 1 =? x); auto. apply eq_true_iff_eq. rewrite !Nat.eqb_eq. lia. }
  assert (E3 : bump x' y' x (y - 1) = bump x y x' (y' + 1)).
  { unfold bump. rewrite (Nat.eqb_sym x). replace (y - 1 =? y') with (y' + 1 =? y); auto. apply eq_true_iff_eq. rewrite !Nat.eqb_eq. lia. }
  assert (E4 : bump x' y' x (y + 1) = bump x y x' (y' - 1)).
  { unfold bump. rewrite (Nat.eqb_sym x). replace (y + 1 =? y') with (y' - 1 =? y); auto. apply eq_true_iff_eq. rewrite !Nat.eqb_eq. lia. }
  rewrite E0, E1, E2, E3, E4. ring.
Qed.
Lemma lap_bump_pos x y x' y' : (x, y) <> (x', y') -> le n0 (laplace H K (bump x' y') x y).
Proof. intros Hne. apply lap_low; rewrite (bump_off _ _ _ _ Hne); apply bump_range. Qed.
Lemma lap_ext (u v : nat -> nat -> N) x y : u x y = v x y -> u (x - 1) y = v (x - 1) y -> u (x + 1) y = v (x + 1) y -> u x (y - 1) = v x (y - 1) -> u x (y + 1) = v x (y + 1) ->
  laplace H K u x y = laplace H K v x y.
Proof. intros E1 E2 E3 E4 E5. unfold laplace. now rewrite E1, E2, E3, E4, E5. Qed.
End Lap.

(** ** fdm.cpp *)
Section Fdm.
Context {N : Num} (HO : OrdFieldLaws N) (HN : NatLaws N).
Let HF : FieldLaws N := of_field N HO.
Add Field gffld : (fl_field N HF).
Notation le x y := (nleb x y = true).
Notation lt x y := (nltb x y = true).
Variables (XC YC : nat) (H K : N).
Hypothesis (HX : 0 < XC) (HY : 0 < YC) (HH : H <> n0) (HK : K <> n0).
Local Notation lin := (lin2 XC).
Local Notation D := (XC * YC).
Local Notation a := (tab (prows XC YC H K)).
Definition plev (i : nat) : nat := if rimb XC YC (i mod XC) (i / XC) then 0 else 1.
Definition pscale (i : nat) : N := if rimb XC YC (i mod XC) (i / XC) then n1 else (- n1)%num.
Lemma plev_lin x y : x < XC -> plev (lin x y) = if rimb XC YC x y then 0 else 1.
Proof. intros Hx. unfold plev. now rewrite lin2_x, lin2_y. Qed.
Lemma pscale_lin x y : x < XC -> pscale (lin x y) = if rimb XC YC x y then n1 else (- n1)%num.
Proof. intros Hx. unfold pscale. now rewrite lin2_x, lin2_y. Qed.
Lemma lin_bump x' y' x y : x < XC -> x' < XC -> (if lin x y =? lin x' y' then n1 else n0) = bump (N := N) x' y' x y.
Proof.
  intros Hx Hx'. unfold bump. destruct (Nat.eqb_spec x x') as [->|Hn]; cbn [andb].
  - destruct (Nat.eqb_spec y y') as [->|Hm]; [now rewrite Nat.eqb_refl|]. rewrite (proj2 (Nat.eqb_neq _ _)); auto. unfold lin2. nia.
  - rewrite (proj2 (Nat.eqb_neq _ _)); auto. intros E. apply Hn. rewrite <- (lin2_x XC x y), <- (lin2_x XC x' y'); congruence.
Qed.
Lemma pentry x y x' y' : x < XC -> y < YC -> x' < XC -> y' < YC ->
  a (lin x y) (lin x' y') = if rimb XC YC x y then bump x' y' x y else (K * K * laplace H K (bump x' y') x y)%num.
Proof.
  intros Hx Hy Hx' Hy'. rewrite (entry_delta HO D a) by now apply lin2_lt. rewrite (row_eq HO XC YC H K HX HY HH HK) by auto.
  destruct (rimb XC YC x y) eqn:E; [now apply lin_bump|]. apply rimb_false in E. unfold on_rim in E.
  f_equal. apply lap_ext; apply lin_bump; lia.
Qed.
Lemma fdm_levels : levels D a plev pscale.
Proof.
  pose proof (KK HO K HK) as HKK.
  apply (levels_of HO).
  - intros i j Hi Hj Hl. destruct (lin2_of XC YC i Hi) as (x & y & Hx & Hy & ->), (lin2_of XC YC j Hj) as (x' & y' & Hx' & Hy' & ->).
    rewrite !plev_lin in Hl by auto. rewrite pentry by auto. destruct (rimb XC YC x y) eqn:E, (rimb XC YC x' y') eqn:E'; try lia.
    apply bump_off. congruence.
  - intros i j Hi Hj Hl Hne. destruct (lin2_of XC YC i Hi) as (x & y & Hx & Hy & ->), (lin2_of XC YC j Hj) as (x' & y' & Hx' & Hy' & ->).
    rewrite !plev_lin in Hl by auto. rewrite !pentry, !pscale_lin by auto. assert (Hp : (x, y) <> (x', y')) by congruence.
    destruct (rimb XC YC x y) eqn:E, (rimb XC YC x' y') eqn:E'; try lia.
    + rewrite !bump_off by congruence. split; [ring|]. replace (n1 * n0)%num with (n0 : N) by ring. apply (ole_refl HO).
    + apply rimb_false in E, E'. unfold on_rim in E, E'. rewrite (lap_bump_sym HO H K HH HK x' y' x y) by lia. split; [ring|].
      apply (ole_0_opp HO). replace (- (- n1 * (K * K * laplace H K (bump x' y') x y)))%num with (K * K * laplace H K (bump x' y') x y)%num by ring.
      apply (ole_0_mul HO); [apply (ole_0_sqr HO)|]. now apply (lap_bump_pos HO).
  - intros i Hi. destruct (lin2_of XC YC i Hi) as (x & y & Hx & Hy & ->). rewrite (row_eq HO XC YC H K HX HY HH HK), pscale_lin by auto.
    destruct (rimb XC YC x y) eqn:E.
    + rewrite Nat.eqb_refl. replace (n1 * n1)%num with (n1 : N) by ring. apply (olt_le HO), (olt_0_1 HO).
    + match goal with |- le n0 (- n1 * (K * K * ?l))%num => replace (- n1 * (K * K * l))%num with (K * K * (- l))%num by ring end.
      apply (ole_0_mul HO); [apply (ole_0_sqr HO)|]. apply (ole_opp HO).
      apply (lap_high HO); auto; rewrite Nat.eqb_refl; destruct (_ =? _); first [apply (ole_refl HO)|apply (olt_le HO), (olt_0_1 HO)].
  - intros L x Hoff Hrow i Hi El. destruct (lin2_of XC YC i Hi) as (px & py & Hx & Hy & ->).
    destruct (Nat.eq_dec L 1) as [->|HL1].
    + assert (P : poisson XC YC H K (fun _ _ => n0) (fun _ _ => n0) (fun x' y' => x (lin x' y'))).
      { intros x' y' Hx' Hy'. pose proof (lin2_lt XC YC x' y' Hx' Hy') as Hl. split; intros Hr.
        - apply Hoff; auto. rewrite plev_lin, (proj2 (rimb_spec _ _ _ _)) by auto. lia.
        - destruct (Hrow (lin x' y') Hl) as [G _]; [rewrite plev_lin, (proj2 (rimb_false _ _ _ _)) by auto; reflexivity|].
          rewrite (row_eq HO XC YC H K HX HY HH HK), pscale_lin, (proj2 (rimb_false _ _ _ _) Hr) in G by auto.
          match goal with |- ?l = n0 => replace l with (- (n1 / (K * K)) * (- n1 * (K * K * l)))%num by (field; auto) end. rewrite G. ring. }
      assert (P0 : poisson XC YC H K (fun _ _ => n0) (fun _ _ => n0) (fun _ _ => n0)).
      { intros x' y' _ _. split; auto. intros _. unfold laplace, diff2. field. auto. }
      exact (poisson_unique HO HN XC YC H K (fun _ _ => n0) (fun _ _ => n0) HH HK _ _ P P0 px py Hx Hy).
    + rewrite plev_lin in El by auto. destruct (rimb XC YC px py) eqn:E; [|congruence].
      destruct (Hrow (lin px py) Hi) as [G _]; [rewrite plev_lin, E by auto; congruence|].
      rewrite (row_eq HO XC YC H K HX HY HH HK), pscale_lin, E in G by auto. rewrite <- G. ring.
Qed.
End Fdm.

Section FdmRun.
Context {N : Num} (HO : OrdFieldLaws N) (HN : NatLaws N).
Let HF : FieldLaws N := of_field N HO.
Add Field gefld : (fl_field N HF).
Notation le x y := (nleb x y = true).
Notation lt x y := (nltb x y = true).

Lemma norm_bound n (s : list N) (B : N) : (forall i, i < n -> le (nabs (nth i s n0)) B) -> le (norm2sq n s) (bigsum n (fun _ => n1) * (B * B))%num.
Proof.
  intros Hb. unfold norm2sq. rewrite <- (bigsum_mul_r HF). apply (bigsum_le HO). intros i Hi.
  replace (nth i s n0 * nth i s n0)%num with (nabs (nth i s n0) * nabs (nth i s n0))%num by (rewrite <- (oabs_mul HO); apply (of_abs_pos N HO), (ole_0_sqr HO)).
  replace (n1 * (B * B))%num with (B * B)%num by ring. specialize (Hb i Hi). pose proof (oabs_nonneg HO (nth i s n0)) as Hp.
  apply (ole_mul2 HO); auto. apply (ole_trans HO _ _ _ Hp Hb).
Qed.

Variables (XC YC : nat) (H K : N).
Hypothesis (HX : 0 < XC) (HY : 0 < YC) (HH : H <> n0) (HK : K <> n0).
Local Notation lin := (lin2 XC).
Local Notation D := (XC * YC).
Local Notation a := (tab (prows XC YC H K)).
Lemma fdm_shape f b : exists (A : SparseR N) B, MatI.holds A D D a /\ length B = D /\ (forall i, i < D -> nth i B n0 = prhsi XC YC H K f b i) /\
  forall w maxIter eps y it, it_sor (M := SparseR N) A B (repeat n0 D) w maxIter eps = Ok (y, it) -> length y = D ->
    fdm_main XC YC H K f b w maxIter eps = Ok (map (fun y' => map (fun x => nth (lin x y') y n0) (seq 0 XC)) (seq 0 YC), it).
Proof.
  destruct (poisson_system HF HN XC YC H K f b HX HY) as ([A B] & E & HA & HB). cbn [fst snd] in HA, HB. exists A, B.
  assert (Hlb : length B = D) by (now rewrite HB, map_length, seq_length). do 2 (split; [auto|]). split; [intros i Hi; now rewrite HB, nth_map_seq by auto|].
  intros w maxIter eps y it Es Hl. unfold fdm_main. rewrite E. cbn [bind fst snd].
  assert (Hz : v_resize [] D = repeat (@n0 N) D) by (unfold v_resize; rewrite firstn_nil; cbn [length app]; now rewrite Nat.sub_0_r).
  rewrite Hz. change (SparseR N) with (SparseR N) in *. rewrite Es. cbn [bind fst snd]. rewrite data2_ok by auto. reflexivity.
Qed.
Lemma grid_list (u : nat -> nat -> N) x y : x < XC -> y < YC -> nth (lin x y) (map (fun i => u (i mod XC) (i / XC)) (seq 0 D)) n0 = u x y.
Proof. intros Hx Hy. rewrite nth_map_seq by now apply lin2_lt. now rewrite lin2_x, lin2_y. Qed.
Lemma poisson_ext f b u v : poisson XC YC H K f b u -> (forall x y, x < XC -> y < YC -> u x y = v x y) -> poisson XC YC H K f b v.
Proof.
  intros P E x y Hx Hy. destruct (P x y Hx Hy) as [P1 P2]. split; intros Hr; [rewrite <- E by auto; auto|]. rewrite <- P2 by auto.
  unfold on_rim in Hr. symmetry. apply lap_ext; apply E; lia.
Qed.

Theorem fdm_converges (w : N) : lt n0 w -> lt w (n1 + n1)%num -> exists q C : N, le n0 q /\ lt q n1 /\ le n0 C /\
  forall f b u (B : N) maxIter eps, poisson XC YC H K f b u -> (forall x y, x < XC -> y < YC -> le (nabs (u x y)) B) ->
  returns (fdm_main XC YC H K f b w maxIter eps) (fun r => forall x y, x < XC -> y < YC ->
    le ((table2 (fst r) x y - u x y) * (table2 (fst r) x y - u x y))%num (C * qpow q (snd r) * (B * B))%num).
Proof.
  intros H0 H2. destruct (block_converges HO D a (plev XC YC) (pscale XC YC) w (fdm_levels HO HN XC YC H K HX HY HH HK) H0 H2) as (q & C & Hq0 & Hq1 & HC & HS).
  exists q, (C * bigsum D (fun _ => n1))%num. do 2 (split; [auto|]). split; [apply (ole_0_mul HO); auto; apply (bigsum_nonneg HO); intros; apply (olt_le HO), (olt_0_1 HO)|].
  intros f b u B maxIter eps Hu HB. destruct (fdm_shape f b) as (A & bb & HA & Hl & Hbb & Hmain).
  set (s := map (fun i => u (i mod XC) (i / XC)) (seq 0 D)).
  assert (Hs : solves D a s bb).
  { intros i Hi. rewrite Hbb by auto. apply (system_iff HO XC YC H K f b HX HY HH HK (fun j => nth j s n0)); auto.
    apply (poisson_ext f b u); auto. intros x y Hx Hy. symmetry. now apply grid_list. }
  destruct (HS (SparseR N) (sparse_rows N HF) A bb (repeat n0 D) s maxIter eps HA Hl (repeat_length _ _)) as (y & it & E & _ & Ly & Herr & _).
  { intros i Hi. apply nth_repeat. } { exact Hs. }
  eexists. split; [exact (Hmain w maxIter eps y it E Ly)|]. cbn [fst snd]. intros px py Hx Hy. rewrite (table2_grid XC YC (fun x y' => nth (lin x y') y n0)) by auto.
  specialize (Herr (lin px py) (lin2_lt XC YC px py Hx Hy)). replace (nth (lin px py) s n0) with (u px py) in Herr by (symmetry; now apply grid_list).
  eapply (ole_trans HO); [exact Herr|].
  replace (C * bigsum D (fun _ : nat => n1) * qpow q it * (B * B))%num with (C * (qpow q it * (bigsum D (fun _ : nat => n1) * (B * B))))%num by ring.
  apply (ole_mul_l HO); auto. apply (ole_mul_l HO); [now apply (qpow_nonneg HO)|]. apply norm_bound. intros i Hi.
  destruct (lin2_of XC YC i Hi) as (x' & y' & Hx' & Hy' & ->). unfold s. rewrite grid_list by auto. auto.
Qed.
Theorem fdm_terminates (HA : archimedean N) (w : N) f b eps : lt n0 w -> lt w (n1 + n1)%num -> eps <> n0 ->
  exists n, forall maxIter, returns (fdm_main XC YC H K f b w maxIter eps) (fun r => snd r <= n).
Proof.
  intros H0 H2 He. destruct (fdm_shape f b) as (A & bb & HAh & Hl & _ & Hmain).
  destruct (block_terminates HO HN HA D a (plev XC YC) (pscale XC YC) w (fdm_levels HO HN XC YC H K HX HY HH HK) H0 H2 bb (repeat n0 D) eps Hl (repeat_length _ _)) as (n & Hn); auto.
  { intros i Hi. apply nth_repeat. }
  exists n. intros maxIter. destruct (Hn (SparseR N) (sparse_rows N HF) A maxIter HAh) as (y & it & E & Hit).
  assert (Ly : length y = D).
  { destruct (sor_zero_start HO (sparse_rows N HF) A D a bb (repeat n0 D) HAh Hl (repeat_length _ _) w maxIter eps) as (X & it' & E' & _); [intros; apply nth_repeat|].
    rewrite E' in E. injection E as <- _. apply V_len. }
  eexists. split; [exact (Hmain w maxIter eps y it E Ly)|]. exact Hit.
Qed.
End FdmRun.

(** ** heat/main.cpp *)
Section HeatLevels.
Context {N : Num} (HO : OrdFieldLaws N) (HN : NatLaws N).
Let HF : FieldLaws N := of_field N HO.
Add Field hlfld : (fl_field N HF).
Notation le x y := (nleb x y = true).
Notation lt x y := (nltb x y = true).
Variables (TC XC YC : nat) (HT HX HY : N).
Hypothesis (PT : 0 < TC) (PX : 0 < XC) (PY : 0 < YC).
Hypothesis (NT : lt n0 HT) (NX : HX <> n0) (NY : HY <> n0).
Local Notation lin := (lin3 XC YC).
Local Notation D := (TC * XC * YC).
Local Notation ft := (ft HT). Local Notation fx := (fx HX). Local Notation fy := (fy HY).
Variable (k : N -> N -> N -> N).
Hypothesis (Pk : forall t x y, t < TC -> x < XC -> y < YC -> le n0 (k (ft t) (fx x) (fy y))).
Local Notation kf := (kf HT HX HY k).
Local Notation a := (tab (hrows XC YC HT HX HY k)).
Definition kzero (t x y : nat) : bool := nleb (kf t x y) n0.
Definition hlev3 (t x y : nat) : nat := if fixedb XC YC t x y then 0 else if kzero t x y then 2 * t - 1 else 2 * t.
Definition hscale3 (t x y : nat) : N := if fixedb XC YC t x y then n1 else if kzero t x y then n1 else (n1 / kf t x y)%num.
Definition hlev (i : nat) : nat := hlev3 (i / XC / YC) (i mod XC) ((i / XC) mod YC).
Definition hscale (i : nat) : N := hscale3 (i / XC / YC) (i mod XC) ((i / XC) mod YC).
Lemma hlev_lin t x y : x < XC -> y < YC -> hlev (lin t x y) = hlev3 t x y.
Proof. intros Hx Hy. unfold hlev. now rewrite lin3_x, lin3_y, lin3_t. Qed.
Lemma hscale_lin t x y : x < XC -> y < YC -> hscale (lin t x y) = hscale3 t x y.
Proof. intros Hx Hy. unfold hscale. now rewrite lin3_x, lin3_y, lin3_t. Qed.
Lemma kzero_eq t x y : t < TC -> x < XC -> y < YC -> kzero t x y = true -> kf t x y = n0.
Proof. intros Ht Hx Hy E. apply (of_le_antisym N HO); [exact E|]. now apply Pk. Qed.
Lemma kzero_pos t x y : kzero t x y = false -> lt n0 (kf t x y).
Proof. intros E. rewrite (of_lt N HO). unfold kzero in E. now rewrite E. Qed.
Definition bump3 (t' x' y' t x y : nat) : N := if (t =? t') && ((x =? x') && (y =? y')) then n1 else n0.
Lemma lin_bump3 t' x' y' t x y : x < XC -> x' < XC -> y < YC -> y' < YC -> (if lin t x y =? lin t' x' y' then n1 else n0) = bump3 t' x' y' t x y.
Proof.
  intros Hx Hx' Hy Hy'. unfold bump3.
  assert (G : forall c : bool, (c = true <-> t = t' /\ x = x' /\ y = y') -> (if lin t x y =? lin t' x' y' then n1 else n0) = (if c then n1 else n0 : N)).
  { intros c Hc. destruct c.
    - destruct (proj1 Hc eq_refl) as (-> & -> & ->). now rewrite Nat.eqb_refl.
    - rewrite (proj2 (Nat.eqb_neq _ _)); auto. intros E. assert (false = true); [|discriminate]. apply Hc.
      split; [|split]; [rewrite <- (lin3_t XC YC t x y), <- (lin3_t XC YC t' x' y')|rewrite <- (lin3_x XC YC t x y), <- (lin3_x XC YC t' x' y')|
        rewrite <- (lin3_y XC YC t x y), <- (lin3_y XC YC t' x' y')]; auto; now rewrite E. }
  apply G. rewrite !andb_true_iff, !Nat.eqb_eq. reflexivity.
Qed.
Lemma bump3_same t x' y' x y : bump3 t x' y' t x y = bump x' y' x y.
Proof. unfold bump3, bump. now rewrite Nat.eqb_refl. Qed.
Lemma bump3_other t t' x' y' x y : t <> t' -> bump3 t' x' y' t x y = n0.
Proof. intros Hn. unfold bump3. now rewrite (proj2 (Nat.eqb_neq _ _) Hn). Qed.
Lemma bump3_off t t' x' y' x y : (t, x, y) <> (t', x', y') -> bump3 t' x' y' t x y = n0.
Proof. intros Hne. destruct (Nat.eq_dec t t') as [->|]; [|now apply bump3_other]. rewrite bump3_same. apply bump_off. congruence. Qed.
Lemma hentry t x y t' x' y' : t < TC -> x < XC -> y < YC -> t' < TC -> x' < XC -> y' < YC ->
  a (lin t x y) (lin t' x' y') = if fixedb XC YC t x y then bump3 t' x' y' t x y
    else ((bump3 t' x' y' t x y - bump3 t' x' y' (t - 1) x y) / HT - kf t x y * laplace HX HY (bump3 t' x' y' t) x y)%num.
Proof.
  intros Ht Hx Hy Ht' Hx' Hy'. rewrite (entry_delta HO D a) by now apply lin3_lt. rewrite (heat_row HF TC XC YC HT HX HY k (HT_ne HO HT NT) NX NY) by auto.
  destruct (fixedb XC YC t x y) eqn:E; [now apply lin_bump3|]. apply fixedb_false in E as [E1 E]. unfold on_rim in E.
  rewrite !lin_bump3 by auto. do 2 f_equal. apply lap_ext; apply lin_bump3; lia.
Qed.
Lemma lap_zero x y (u : nat -> nat -> N) : (forall x y, u x y = n0) -> laplace HX HY u x y = n0.
Proof. intros E. unfold laplace. rewrite !E. unfold diff2. field. auto. Qed.
Lemma heat_levels : levels D a hlev hscale.
Proof.
  pose proof (HT_ne HO HT NT) as NT'. assert (PHT : lt n0 (n1 / HT)%num) by now apply (olt_0_inv HO).
  assert (Hpos : forall i, i < D -> lt n0 (hscale i * mulvec D a (fun j => if hlev j =? hlev i then n1 else n0) i)%num).
  { intros i Hi. destruct (lin3_of TC XC YC i Hi) as (t & x & y & Ht & Hx & Hy & ->). rewrite (heat_row HF TC XC YC HT HX HY k NT' NX NY) by auto.
    rewrite !hscale_lin, !hlev_lin, Nat.eqb_refl by auto. unfold hscale3. destruct (fixedb XC YC t x y) eqn:E.
    - replace (n1 * n1)%num with (n1 : N) by ring. apply (olt_0_1 HO).
    - assert (Eo : (hlev3 (t - 1) x y =? hlev3 t x y) = false).
      { apply Nat.eqb_neq. unfold hlev3. rewrite E. apply fixedb_false in E as [E1 _].
        destruct (fixedb XC YC (t - 1) x y), (kzero (t - 1) x y), (kzero t x y); lia. }
      rewrite Eo. destruct (kzero t x y) eqn:Ek.
      + rewrite (kzero_eq t x y) by auto. match goal with |- lt n0 ?g => replace g with (n1 / HT)%num by (field; auto) end. auto.
      + apply kzero_pos in Ek. assert (Nk : kf t x y <> n0) by (apply not_eq_sym, (olt_ne HO); auto).
        match goal with |- lt n0 (_ * (_ - _ * ?g))%num => assert (Hl : le g n0); [|set (l := g) in *; clearbody l] end.
        { apply (lap_high HO); auto; cbv beta; rewrite (hlev_lin t x y), Nat.eqb_refl by auto; 
            (match goal with |- le (if ?c then _ else _) _ => destruct c end; [apply (ole_refl HO)|apply (olt_le HO), (olt_0_1 HO)]). }
        replace (n1 / kf t x y * ((n1 - n0) / HT - kf t x y * l))%num with (n1 / kf t x y * (n1 / HT) + - l)%num by (field; auto).
        apply (olt_0_add HO); [apply (olt_0_mul HO); auto; now apply (olt_0_inv HO)|]. now apply (ole_opp HO). }
  apply (levels_of HO).
  - intros i j Hi Hj Hl. destruct (lin3_of TC XC YC i Hi) as (t & x & y & Ht & Hx & Hy & ->), (lin3_of TC XC YC j Hj) as (t' & x' & y' & Ht' & Hx' & Hy' & ->).
    rewrite !hlev_lin in Hl by auto. rewrite hentry by auto. assert (Hne : (t, x, y) <> (t', x', y')) by (intros E; injection E as <- <- <-; lia).
    rewrite (bump3_off t t' x' y' x y Hne). unfold hlev3 in Hl. destruct (fixedb XC YC t x y) eqn:E; auto. apply fixedb_false in E as [E1 _].
    destruct (fixedb XC YC t' x' y') eqn:E'; [lia|]. apply fixedb_false in E' as [E1' _].
    assert (Hb : bump3 t' x' y' (t - 1) x y = n0).
    { apply bump3_other. intros Et. destruct (kzero t x y), (kzero t' x' y'); lia. }
    rewrite Hb. destruct (Nat.eq_dec t t') as [<-|Htt].
    + destruct (kzero t x y) eqn:Ek, (kzero t x' y') eqn:Ek'; try lia. rewrite (kzero_eq t x y) by auto. field; auto.
    + rewrite lap_zero by (intros; now apply bump3_other). field; auto.
  - intros i j Hi Hj Hl Hne. destruct (lin3_of TC XC YC i Hi) as (t & x & y & Ht & Hx & Hy & ->), (lin3_of TC XC YC j Hj) as (t' & x' & y' & Ht' & Hx' & Hy' & ->).
    rewrite !hlev_lin in Hl by auto. rewrite !hentry, !hscale_lin by auto. assert (Hp : (t, x, y) <> (t', x', y')) by congruence. assert (Hp' : (t', x', y') <> (t, x, y)) by congruence.
    rewrite (bump3_off t t' x' y' x y Hp), (bump3_off t' t x y x' y' Hp'). unfold hlev3 in Hl. unfold hscale3.
    destruct (fixedb XC YC t x y) eqn:E.
    + destruct (fixedb XC YC t' x' y') eqn:E'.
      * split; [ring|]. replace (n1 * n0)%num with (n0 : N) by ring. apply (ole_refl HO).
      * apply fixedb_false in E' as [E1' _]. destruct (kzero t' x' y'); lia.
    + apply fixedb_false in E as [E1 E2]. destruct (fixedb XC YC t' x' y') eqn:E'; [destruct (kzero t x y); lia|]. apply fixedb_false in E' as [E1' E2'].
      assert (t' = t) by (destruct (kzero t x y), (kzero t' x' y'); lia). subst t'.
      assert (Hz : kzero t x' y' = kzero t x y) by (destruct (kzero t x y), (kzero t x' y'); auto; lia). rewrite Hz.
      rewrite !(bump3_other (t - 1) t) by lia.
      destruct (kzero t x y) eqn:Ek.
      * rewrite (kzero_eq t x y), (kzero_eq t x' y') by auto. split; [field; auto|]. match goal with |- le ?g n0 => replace g with (n0 : N) by (field; auto) end. apply (ole_refl HO).
      * apply kzero_pos in Ek. apply kzero_pos in Hz. assert (Nk : kf t x y <> n0) by (apply not_eq_sym, (olt_ne HO); auto).
        assert (Nk' : kf t x' y' <> n0) by (apply not_eq_sym, (olt_ne HO); auto). unfold on_rim in E2, E2'.
        assert (L1 : laplace HX HY (bump3 t x' y' t) x y = laplace HX HY (bump x' y') x y) by (apply lap_ext; apply bump3_same).
        assert (L2 : laplace HX HY (bump3 t x y t) x' y' = laplace HX HY (bump x' y') x y) by (rewrite <- (lap_bump_sym HO HX HY NX NY x' y' x y) by lia; apply lap_ext; apply bump3_same).
        rewrite L1, L2. assert (Pl : le n0 (laplace HX HY (bump x' y') x y)) by (apply (lap_bump_pos HO); auto; congruence).
        split; [field; auto|]. apply (ole_0_opp HO). match goal with |- le n0 ?g => replace g with (laplace HX HY (bump x' y') x y) by (field; auto) end. auto.
  - intros i Hi. apply (olt_le HO). auto.
  - intros L x Hoff Hrow i Hi El. destruct (Hrow i Hi El) as [_ G]. specialize (Hpos i Hi). rewrite El in Hpos.
    match type of G with (?r * _)%num = n0 => set (rr := r) in *; assert (Hr : rr <> n0) by (apply not_eq_sym, (olt_ne HO); auto);
      replace (x i) with (n1 / rr * (rr * x i))%num by (field; auto); rewrite G; ring end.
Qed.
End HeatLevels.

Section HeatConv.
Context {N : Num} (HO : OrdFieldLaws N) (HN : NatLaws N).
Let HF : FieldLaws N := of_field N HO.
Add Field hcfld : (fl_field N HF).
Notation le x y := (nleb x y = true).
Notation lt x y := (nltb x y = true).
Variables (TC XC YC : nat) (HT HX HY : N).
Hypothesis (PT : 0 < TC) (PX : 0 < XC) (PY : 0 < YC).
Hypothesis (NT : lt n0 HT) (NX : HX <> n0) (NY : HY <> n0).
Local Notation lin := (lin3 XC YC).
Local Notation D := (TC * XC * YC).
Local Notation ft := (ft HT). Local Notation fx := (fx HX). Local Notation fy := (fy HY).
Variable (k : N -> N -> N -> N).
Hypothesis (Pk : forall t x y, t < TC -> x < XC -> y < YC -> le n0 (k (ft t) (fx x) (fy y))).
Local Notation a := (tab (hrows XC YC HT HX HY k)).
Lemma heat_shape f b t0 : exists (A : SparseR N) B, MatI.holds A D D a /\ length B = D /\ (forall i, i < D -> nth i B n0 = hrhsi XC YC HT HX HY f b t0 i) /\
  forall w maxIter eps y it, it_sor (M := SparseR N) A B (repeat n0 D) w maxIter eps = Ok (y, it) -> length y = D ->
    heat_main TC XC YC HT HX HY k f b t0 w maxIter eps =
      Ok (map (fun t => map (fun y' => map (fun x => nth (lin t x y') y n0) (seq 0 XC)) (seq 0 YC)) (seq 0 TC), it).
Proof.
  destruct (heat_system HF TC XC YC HT HX HY k f b t0 PT PX PY) as ([A B] & E & HA & HB). cbn [fst snd] in HA, HB. exists A, B.
  assert (Hlb : length B = D) by (now rewrite HB, map_length, seq_length). do 2 (split; [auto|]). split; [intros i Hi; now rewrite HB, nth_map_seq by auto|].
  intros w maxIter eps y it Es Hl. unfold heat_main. rewrite E. cbn [bind fst snd].
  assert (Hz : v_resize [] D = repeat (@n0 N) D) by (unfold v_resize; rewrite firstn_nil; cbn [length app]; now rewrite Nat.sub_0_r).
  rewrite Hz, Es. cbn [bind fst snd]. rewrite (data3_ok TC XC YC) by auto. reflexivity.
Qed.
Lemma grid_list3 (u : nat -> nat -> nat -> N) t x y : t < TC -> x < XC -> y < YC ->
  nth (lin t x y) (map (fun i => u (i / XC / YC) (i mod XC) ((i / XC) mod YC)) (seq 0 D)) n0 = u t x y.
Proof. intros Ht Hx Hy. rewrite nth_map_seq by now apply lin3_lt. now rewrite lin3_x, lin3_y, lin3_t. Qed.
Lemma heat_ext f b t0 u v : heat TC XC YC HT HX HY k f b t0 u -> (forall t x y, t < TC -> x < XC -> y < YC -> u t x y = v t x y) -> heat TC XC YC HT HX HY k f b t0 v.
Proof.
  intros P E t x y Ht Hx Hy. destruct (P t x y Ht Hx Hy) as (P1 & P2 & P3). split; [|split].
  - intros Z. rewrite <- E by auto. auto.
  - intros Z Hr. rewrite <- E by auto. auto.
  - intros Z Hr. specialize (P3 Z Hr). unfold on_rim in Hr. rewrite <- !E by lia. rewrite P3. f_equal. f_equal. apply lap_ext; apply E; lia.
Qed.

Theorem heat_converges (w : N) : lt n0 w -> lt w (n1 + n1)%num -> exists q C : N, le n0 q /\ lt q n1 /\ le n0 C /\
  forall f b t0 u (B : N) maxIter eps, heat TC XC YC HT HX HY k f b t0 u -> (forall t x y, t < TC -> x < XC -> y < YC -> le (nabs (u t x y)) B) ->
  returns (heat_main TC XC YC HT HX HY k f b t0 w maxIter eps) (fun r => forall t x y, t < TC -> x < XC -> y < YC ->
    le ((table3 (fst r) t x y - u t x y) * (table3 (fst r) t x y - u t x y))%num (C * qpow q (snd r) * (B * B))%num).
Proof.
  intros H0 H2. destruct (block_converges HO D a (hlev XC YC HT HX HY k) (hscale XC YC HT HX HY k) w (heat_levels HO TC XC YC HT HX HY PT PX PY NT NX NY k Pk) H0 H2) as (q & C & Hq0 & Hq1 & HC & HS).
  exists q, (C * bigsum D (fun _ => n1))%num. do 2 (split; [auto|]). split; [apply (ole_0_mul HO); auto; apply (bigsum_nonneg HO); intros; apply (olt_le HO), (olt_0_1 HO)|].
  intros f b t0 u B maxIter eps Hu HB. destruct (heat_shape f b t0) as (A & bb & HA & Hl & Hbb & Hmain).
  set (s := map (fun i => u (i / XC / YC) (i mod XC) ((i / XC) mod YC)) (seq 0 D)).
  assert (Hs : solves D a s bb).
  { intros i Hi. rewrite Hbb by auto. apply (heat_iff HF TC XC YC HT HX HY k f b t0 (HT_ne HO HT NT) NX NY (fun j => nth j s n0)); auto.
    apply (heat_ext f b t0 u); auto. intros t x y Ht Hx Hy. symmetry. now apply grid_list3. }
  destruct (HS (SparseR N) (sparse_rows N HF) A bb (repeat n0 D) s maxIter eps HA Hl (repeat_length _ _)) as (y & it & E & _ & Ly & Herr & _).
  { intros i Hi. apply nth_repeat. } { exact Hs. }
  eexists. split; [exact (Hmain w maxIter eps y it E Ly)|]. cbn [fst snd]. intros t px py Ht Hx Hy. rewrite (table3_grid TC XC YC (fun t x y' => nth (lin t x y') y n0)) by auto.
  specialize (Herr (lin t px py) (lin3_lt TC XC YC t px py Ht Hx Hy)). replace (nth (lin t px py) s n0) with (u t px py) in Herr by (symmetry; now apply grid_list3).
  eapply (ole_trans HO); [exact Herr|].
  replace (C * bigsum D (fun _ : nat => n1) * qpow q it * (B * B))%num with (C * (qpow q it * (bigsum D (fun _ : nat => n1) * (B * B))))%num by ring.
  apply (ole_mul_l HO); auto. apply (ole_mul_l HO); [now apply (qpow_nonneg HO)|]. apply (norm_bound HO). intros i Hi.
  destruct (lin3_of TC XC YC i Hi) as (t' & x' & y' & Ht' & Hx' & Hy' & ->). unfold s. rewrite grid_list3 by auto. auto.
Qed.
Theorem heat_terminates (HA : archimedean N) (w : N) f b t0 eps : lt n0 w -> lt w (n1 + n1)%num -> eps <> n0 ->
  exists n, forall maxIter, returns (heat_main TC XC YC HT HX HY k f b t0 w maxIter eps) (fun r => snd r <= n).
Proof.
  intros H0 H2 He. destruct (heat_shape f b t0) as (A & bb & HAh & Hl & _ & Hmain).
  destruct (block_terminates HO HN HA D a (hlev XC YC HT HX HY k) (hscale XC YC HT HX HY k) w (heat_levels HO TC XC YC HT HX HY PT PX PY NT NX NY k Pk) H0 H2 bb (repeat n0 D) eps Hl (repeat_length _ _)) as (n & Hn); auto.
  { intros i Hi. apply nth_repeat. }
  exists n. intros maxIter. destruct (Hn (SparseR N) (sparse_rows N HF) A maxIter HAh) as (y & it & E & Hit).
  assert (Ly : length y = D).
  { destruct (sor_zero_start HO (sparse_rows N HF) A D a bb (repeat n0 D) HAh Hl (repeat_length _ _) w maxIter eps) as (X & it' & E' & _); [intros; apply nth_repeat|].
    rewrite E' in E. injection E as <- _. apply V_len. }
  eexists. split; [exact (Hmain w maxIter eps y it E Ly)|]. exact Hit.
Qed.
End HeatConv.
