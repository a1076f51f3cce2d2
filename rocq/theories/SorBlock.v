(** Convergence of the relaxation method for matrices that fall into levels: the unknowns of a level only depend on the unknowns
    of that level and of lower ones, and within a level the matrix becomes symmetric positive definite when its rows are scaled.
    The discrete boundary value problems of the example programs are of this kind (level 0: given values). *)
From Coq Require Import List Arith Bool Lia Ring Field.
From Verif Require Import Base BaseProofs Num OrdField UtilsSpec Spec SpecProofs VectorModel VectorSpec VectorProofs MatI MatIProofs MatOps
  DetSpec DetProofs DetMult LUModel LUProofs LUSolve CholProofs CGMath IterModel CGProofs CGResult IterProofs IterResult LinAlg SorConv.
Import ListNotations.
Local Open Scope nat_scope.
Open Scope res_scope.

Section Block.
Context {N : Num} (HO : OrdFieldLaws N).
Let HF : FieldLaws N := of_field N HO.
Add Field sbfld : (fl_field N HF).
Notation le x y := (nleb x y = true).
Notation lt x y := (nltb x y = true).
Implicit Types (a : nat -> nat -> N) (b x y z e : nat -> N).
Open Scope num_scope.
Notation sumsq n e := (bigsum n (fun j => e j * e j)).

(** ** Forms *)
Definition bil n a x y : N := bigsum n (fun i => x i * mulvec n a y i).
Lemma form_bil n a x : form n a x = bil n a x x.
Proof. apply (form_dot HO). Qed.
Lemma bil_sym n a x y : symmetric2 n a -> bil n a x y = bil n a y x.
Proof.
  intros Ha. unfold bil, mulvec.
  rewrite (bigsum_ext n _ (fun i => bigsum n (fun j => x i * (a i j * y j)))) by (intros; now rewrite (bigsum_mul_l HF)).
  rewrite (bigsum_swap HF). apply bigsum_ext. intros j Hj. rewrite <- (bigsum_mul_l HF). apply bigsum_ext. intros i Hi. rewrite (Ha i j) by auto. ring.
Qed.
Lemma form_comb n a x y (c : N) : symmetric2 n a ->
  form n a (fun i => x i + c * y i) = form n a x + (n1 + n1) * c * bil n a x y + c * c * form n a y.
Proof.
  intros Ha. rewrite !form_bil. replace ((n1 + n1) * c * bil n a x y) with (c * bil n a x y + c * bil n a y x) by (rewrite (bil_sym n a y x Ha); ring).
  unfold bil. rewrite <- !(bigsum_mul_l HF), <- !(bigsum_plus HF). apply bigsum_ext. intros i Hi.
  assert (E : mulvec n a (fun j => x j + c * y j) i = mulvec n a x i + c * mulvec n a y i).
  { unfold mulvec. rewrite <- (bigsum_mul_l HF), <- (bigsum_plus HF). apply bigsum_ext. intros. ring. }
  rewrite E. ring.
Qed.
Lemma form_zero n a z : (forall i, (i < n)%nat -> z i = n0) -> form n a z = n0.
Proof.
  intros H. unfold form. rewrite (bigsum_ext n _ (fun _ => n0)); [now rewrite (bigsum_0 HF)|].
  intros i Hi. rewrite (bigsum_ext n _ (fun _ => n0)) by (intros j Hj; rewrite H by auto; ring). now rewrite (bigsum_0 HF).
Qed.
Lemma form_nonneg n a z : pos_def n a -> le n0 (form n a z).
Proof.
  intros Hp. destruct (classic_zero HO n z) as [H|H]; [rewrite form_zero by auto; apply (ole_refl HO)|]. apply (olt_le HO). now apply Hp.
Qed.
(** F(x + y) <= (1 + h) F(x) + (1 + 1/h) F(y) *)
Lemma form_split n a x y (h : N) : symmetric2 n a -> pos_def n a -> lt n0 h ->
  le (form n a (fun i => x i + y i)) ((n1 + h) * form n a x + (n1 + n1 / h) * form n a y).
Proof.
  intros Ha Hp Hh. assert (Hn : h <> n0) by (apply not_eq_sym, (olt_ne HO); auto).
  rewrite (form_ext n a (fun i => x i + y i) (fun i => x i + n1 * y i)) by (intros; ring). rewrite form_comb by auto. apply (ole_sub HO).
  assert (P : le n0 (form n a (fun i => x i + (- (n1 / h)) * y i))) by now apply form_nonneg. rewrite form_comb in P by auto.
  match goal with |- le n0 ?g => replace g with (h * (form n a x + (n1 + n1) * - (n1 / h) * bil n a x y + - (n1 / h) * - (n1 / h) * form n a y)) by (field; auto) end.
  apply (ole_0_mul HO); auto. apply (olt_le HO); auto.
Qed.
(** Cauchy-Schwarz *)
Lemma form_cs n a x y : symmetric2 n a -> pos_def n a -> le (bil n a x y * bil n a x y) (form n a x * form n a y).
Proof.
  intros Ha Hp. destruct (classic_zero HO n y) as [H|H].
  - rewrite (form_zero n a y H). unfold bil, mulvec. rewrite (bigsum_ext n _ (fun _ => n0)).
    + rewrite (bigsum_0 HF) by auto. replace (form n a x * n0) with (n0 * n0 : N) by ring. apply (ole_refl HO).
    + intros i Hi. rewrite (bigsum_ext n _ (fun _ => n0)) by (intros j Hj; rewrite H by auto; ring). rewrite (bigsum_0 HF) by auto. ring.
  - pose proof (Hp y H) as P. change (lt n0 (form n a y)) in P. set (t := form n a y) in *. assert (Ht : t <> n0) by (apply not_eq_sym, (olt_ne HO); auto).
    assert (Q : le n0 (form n a (fun i => x i + (- (bil n a x y / t)) * y i))) by now apply form_nonneg. rewrite form_comb in Q by auto. fold t in Q.
    apply (ole_sub HO). match goal with |- le n0 ?g => replace g with (t * (form n a x + (n1 + n1) * - (bil n a x y / t) * bil n a x y + - (bil n a x y / t) * - (bil n a x y / t) * t)) by (field; auto) end.
    apply (ole_0_mul HO); auto. apply (olt_le HO); auto.
Qed.
(** The form dominates the squares of the components and is dominated by them. *)
Lemma form_lower n a : symmetric2 n a -> pos_def n a -> exists c : N, le n0 c /\ forall z j, (j < n)%nat -> le (z j * z j) (c * form n a z).
Proof.
  intros Ha Hp. destruct (pd_inverse HO n a Hp) as (g & Hg). exists (bigsum n (fun j => form n a (g j))). split.
  - apply (bigsum_nonneg HO). intros. now apply form_nonneg.
  - intros z j Hj. assert (E : z j = bil n a z (g j)).
    { unfold bil. rewrite (bigsum_single HF n j) by (auto; intros i Hi Hne; rewrite Hg by auto; bcase; try congruence; ring). rewrite Hg by auto. rewrite Nat.eqb_refl. ring. }
    rewrite E. eapply (ole_trans HO); [apply form_cs; auto|]. replace (form n a z * form n a (g j)) with (form n a z * form n a (g j)) by ring.
    replace (bigsum n (fun j => form n a (g j)) * form n a z) with (form n a z * bigsum n (fun j => form n a (g j))) by ring.
    apply (ole_mul_l HO); [now apply form_nonneg|]. apply (term_le_sum HO n (fun j => form n a (g j)) j Hj). intros. now apply form_nonneg.
Qed.
Lemma form_upper n a : exists c : N, le n0 c /\ forall z, le (form n a z) (c * sumsq n z).
Proof.
  exists (bigsum n (fun i => bigsum n (fun j => nabs (a i j)))). split.
  - apply (bigsum_nonneg HO). intros. apply (bigsum_nonneg HO). intros. apply (oabs_nonneg HO).
  - intros z. unfold form. rewrite <- (bigsum_mul_r HF). apply (bigsum_le HO). intros i Hi. rewrite <- (bigsum_mul_r HF). apply (bigsum_le HO). intros j Hj.
    eapply (ole_trans HO); [apply (oabs_le HO)|]. replace (z i * a i j * z j) with (a i j * (z i * z j)) by ring. rewrite (oabs_mul HO).
    apply (ole_mul_l HO); [apply (oabs_nonneg HO)|]. now apply (prod_bound HO).
Qed.
(** A linear combination of numbers whose squares are at most T. *)
Lemma prod_le (u v T : N) : le (u * u) T -> le (v * v) T -> le (nabs (u * v)) T.
Proof.
  intros Hu Hv. set (p := nabs (u * v)). assert (Ep : p = nabs u * nabs v) by apply (oabs_mul HO).
  assert (Eu : nabs u * nabs u = u * u) by (rewrite <- (oabs_mul HO), (of_abs_pos N HO); auto; apply (ole_0_sqr HO)).
  assert (Ev : nabs v * nabs v = v * v) by (rewrite <- (oabs_mul HO), (of_abs_pos N HO); auto; apply (ole_0_sqr HO)).
  assert (G : le (p + p) (T + T)).
  { apply (ole_trans HO _ (u * u + v * v)); [|apply (ole_add HO); auto]. apply (ole_sub HO). rewrite <- Eu, <- Ev, Ep.
    match goal with |- le n0 ?g => replace g with ((nabs u - nabs v) * (nabs u - nabs v)) by ring end. apply (ole_0_sqr HO). }
  pose proof (two_neq_0 HO) as Z. replace p with ((n1 / (n1 + n1)) * (p + p)) by (field; auto). replace T with ((n1 / (n1 + n1)) * (T + T)) by (field; auto).
  apply (ole_mul_l HO); auto. apply (olt_le HO), (olt_0_inv HO), (two_pos HO).
Qed.
Lemma lin_sq n (l t : nat -> N) (T : N) : (forall p, (p < n)%nat -> le (t p * t p) T) ->
  le (bigsum n (fun p => l p * t p) * bigsum n (fun p => l p * t p)) (bigsum n (fun p => nabs (l p)) * bigsum n (fun p => nabs (l p)) * T).
Proof.
  intros H. rewrite !(bigsum_sq HO). rewrite <- (bigsum_mul_r HF). apply (bigsum_le HO). intros p Hp. rewrite <- (bigsum_mul_r HF). apply (bigsum_le HO). intros q Hq.
  eapply (ole_trans HO); [apply (oabs_le HO)|]. replace (l p * t p * (l q * t q)) with (l p * l q * (t p * t q)) by ring.
  rewrite (oabs_mul HO), (oabs_mul HO (l p)). apply (ole_mul_l HO); [apply (ole_0_mul HO); apply (oabs_nonneg HO)|]. apply prod_le; auto.
Qed.
Lemma sq_add (u v : N) : le ((u + v) * (u + v)) ((n1 + n1) * (u * u) + (n1 + n1) * (v * v)).
Proof.
  apply (ole_sub HO). match goal with |- le n0 ?g => replace g with ((u - v) * (u - v)) by ring end. apply (ole_0_sqr HO).
Qed.
(** The solution is bounded by the right-hand side. *)
Lemma solve_bound n a : (forall x, (forall i, (i < n)%nat -> mulvec n a x i = n0) -> forall j, (j < n)%nat -> x j = n0) ->
  exists R : N, le n0 R /\ forall e r (T : N), (forall i, (i < n)%nat -> mulvec n a e i = r i) -> (forall i, (i < n)%nat -> le (r i * r i) T) ->
    forall j, (j < n)%nat -> le (e j * e j) (R * T).
Proof.
  intros Hinj.
  assert (Hg : forall m, exists g : nat -> nat -> N, forall i j, (i < n)%nat -> (j < m)%nat -> mulvec n a (g j) i = (if (i =? j)%nat then n1 else n0)).
  { induction m as [|m (g & Hg)]; [exists (fun _ _ => n0); lia|].
    destruct (injective_solvable HF n a Hinj (fun i => if (i =? m)%nat then n1 else n0)) as (v & Hv).
    exists (fun j => if (j =? m)%nat then v else g j). intros i j Hi Hj. destruct (Nat.eqb_spec j m) as [->|]; [now rewrite Hv|apply Hg; lia]. }
  destruct (Hg n) as (g & Hgn). clear Hg.
  set (S2 := fun j => bigsum n (fun p => nabs (g p j)) * bigsum n (fun p => nabs (g p j))).
  assert (HS2 : forall j, le n0 (S2 j)) by (intros; apply (ole_0_sqr HO)).
  exists (bigsum n S2). split; [apply (bigsum_nonneg HO); auto|].
  intros e r T He Hr j Hj. assert (E : forall t, (t < n)%nat -> e t = bigsum n (fun p => g p t * r p)).
  { intros t Ht. enough (e t - bigsum n (fun p => g p t * r p) = n0) as Q by (replace (e t) with (e t - bigsum n (fun p => g p t * r p) + bigsum n (fun p => g p t * r p)) by ring; rewrite Q; ring).
    apply (Hinj (fun t => e t - bigsum n (fun p => g p t * r p))); auto. intros i Hi.
    rewrite (mulvec_minus HO), He, (mulvec_lin HO) by auto.
    rewrite (bigsum_single HF n i) by (auto; intros p Hp Hne; rewrite Hgn by auto; bcase; try congruence; ring). rewrite Hgn by auto. rewrite Nat.eqb_refl. ring. }
  rewrite (E j Hj). assert (T0 : le n0 T) by (eapply (ole_trans HO); [apply (ole_0_sqr HO)|apply (Hr j Hj)]).
  eapply (ole_trans HO); [apply lin_sq; exact Hr|]. change (le (S2 j * T) (bigsum n S2 * T)).
  replace (S2 j * T) with (T * S2 j) by ring. replace (bigsum n S2 * T) with (T * bigsum n S2) by ring. apply (ole_mul_l HO); auto. now apply (term_le_sum HO).
Qed.

(** ** Levels *)
Variables (n : nat) (a : nat -> nat -> N) (lev : nat -> nat) (d : nat -> N) (w : N).
Definition cut (L i j : nat) : N := if (lev i =? L)%nat && (lev j =? L)%nat then d i * a i j else if (i =? j)%nat then n1 else n0.
Definition levels : Prop := (forall i j, (i < n)%nat -> (j < n)%nat -> (lev i < lev j)%nat -> a i j = n0) /\
  forall L, symmetric2 n (cut L) /\ pos_def n (cut L).
Hypotheses (HL : levels) (Hw0 : lt n0 w) (Hw2 : lt w (n1 + n1)).
Lemma wnz : w <> n0.
Proof. apply not_eq_sym, (olt_ne HO); auto. Qed.
Lemma level_diag i : (i < n)%nat -> d i <> n0 /\ a i i <> n0.
Proof.
  intros Hi. destruct HL as [_ H]. destruct (H (lev i)) as [_ Hp]. apply (pos_def_diag HO n _ i) in Hp; auto. unfold cut in Hp. rewrite !Nat.eqb_refl in Hp. cbn [andb] in Hp.
  split; intros E; rewrite E in Hp; [replace (n0 * a i i) with (n0 : N) in Hp by ring|replace (d i * n0) with (n0 : N) in Hp by ring]; exact (olt_irrefl HO _ Hp).
Qed.
Lemma sor_error b x y s : sor_eq n a b w x x y -> (forall i, (i < n)%nat -> mulvec n a s i = b i) ->
  sor_eq n a (fun _ => n0) w (fun i => x i - s i) (fun i => x i - s i) (fun i => y i - s i).
Proof.
  intros Hy Hs i Hi. destruct (level_diag i Hi) as [_ Hn]. rewrite (Hy i Hi), <- (Hs i Hi). unfold mulvec. rewrite (offsum_split HO n i (fun j => a i j * s j)) by auto.
  rewrite (offsum_ext n i (fun j => a i j * (if (j <? i)%nat then y j - s j else x j - s j)) (fun j => a i j * (if (j <? i)%nat then y j else x j) - a i j * s j)) by (intros j _ _; bcase; ring).
  rewrite (offsum_minus HO). field. auto.
Qed.
Notation esweep e e' := (sor_eq n a (fun _ => n0) w e e e').
Definition rs (L : nat) (e : nat -> N) (i : nat) : N := if (lev i =? L)%nat then e i else n0.
Definition pick (L i : nat) (e e' : nat -> N) (j : nat) : N := if (lev j <? L)%nat then (if (j <? i)%nat then e' j else e j) else n0.
Definition rhs (L : nat) (e e' : nat -> N) (i : nat) : N := if (lev i =? L)%nat then bigsum n (fun j => - (d i * a i j) * pick L i e e' j) else n0.
Lemma restrict_sweep L e e' : esweep e e' -> sor_eq n (cut L) (rhs L e e') w (rs L e) (rs L e) (rs L e').
Proof.
  intros H i Hi. unfold rs at 1 2, rhs. destruct (Nat.eqb_spec (lev i) L) as [EL|NL].
  - destruct (level_diag i Hi) as [Hd Hn]. rewrite (H i Hi).
    assert (Ec : cut L i i = d i * a i i) by (unfold cut; rewrite EL, Nat.eqb_refl; reflexivity). rewrite Ec.
    assert (Eo : offsum n i (fun j => a i j * (if (j <? i)%nat then e' j else e j)) =
      bigsum n (fun j => a i j * pick L i e e' j) + offsum n i (fun j => a i j * (if (j <? i)%nat then rs L e' j else rs L e j))).
    { unfold offsum. rewrite <- (bigsum_plus HF). apply bigsum_ext. intros j Hj. unfold pick, rs.
      destruct (Nat.eqb_spec j i) as [->|Nj].
      - rewrite EL, Nat.ltb_irrefl. ring.
      - destruct (Nat.ltb_spec (lev j) L) as [l1|l1].
        + destruct (Nat.eqb_spec (lev j) L); [lia|]. destruct (j <? i)%nat; ring.
        + destruct (Nat.eqb_spec (lev j) L).
          * destruct (j <? i)%nat; ring.
          * rewrite (proj1 HL i j) by (auto; lia). destruct (j <? i)%nat; ring. }
    rewrite Eo. rewrite (bigsum_ext n (fun j => - (d i * a i j) * pick L i e e' j) (fun j => - d i * (a i j * pick L i e e' j))) by (intros; ring). rewrite (bigsum_mul_l HF).
    rewrite (offsum_ext n i (fun j => cut L i j * (if (j <? i)%nat then rs L e' j else rs L e j)) (fun j => d i * (a i j * (if (j <? i)%nat then rs L e' j else rs L e j)))).
    + replace (offsum n i (fun j => d i * (a i j * (if (j <? i)%nat then rs L e' j else rs L e j)))) with (d i * offsum n i (fun j => a i j * (if (j <? i)%nat then rs L e' j else rs L e j))).
      * field. auto.
      * unfold offsum. rewrite <- (bigsum_mul_l HF). apply bigsum_ext. intros j Hj. bcase; ring.
    + intros j Hj Nj. unfold cut, rs. rewrite EL, Nat.eqb_refl. cbn [andb]. destruct (Nat.eqb_spec (lev j) L); [ring|]. destruct (Nat.eqb_spec i j); [congruence|]. destruct (j <? i)%nat; ring.
  - assert (Ec : forall j, cut L i j = if (i =? j)%nat then n1 else n0) by (intros j; unfold cut; destruct (Nat.eqb_spec (lev i) L); [congruence|reflexivity]).
    rewrite Ec, Nat.eqb_refl. rewrite (offsum_ext n i _ (fun _ => n0)).
    + unfold offsum. rewrite (bigsum_ext n _ (fun _ => n0)) by (intros; now destruct (_ =? _)%nat). rewrite (bigsum_0 HF) by auto. field. apply (one_neq_zero HO).
    + intros j Hj Nj. rewrite Ec. destruct (Nat.eqb_spec i j); [congruence|ring].
Qed.
Definition F (L : nat) (e : nat -> N) : N := form n (cut L) (rs L e).
Definition low (L : nat) (e : nat -> N) : N := bigsum n (fun j => if (lev j <? L)%nat then e j * e j else n0).
Lemma low_nonneg L e : le n0 (low L e).
Proof. apply (bigsum_nonneg HO). intros. destruct (_ <? _)%nat; [apply (ole_0_sqr HO)|apply (ole_refl HO)]. Qed.
Lemma pick_low L i e e' j : (j < n)%nat -> le (pick L i e e' j * pick L i e e' j) (low L e + low L e').
Proof.
  intros Hj. assert (H : forall z, (lev j < L)%nat -> le (z j * z j) (low L z)).
  { intros z Hl. pose proof (term_le_sum HO n (fun j => if (lev j <? L)%nat then z j * z j else n0) j Hj) as G. cbv beta in G.
    destruct (Nat.ltb_spec (lev j) L); [|lia]. apply G. intros. destruct (_ <? _)%nat; [apply (ole_0_sqr HO)|apply (ole_refl HO)]. }
  unfold pick. destruct (Nat.ltb_spec (lev j) L) as [l|l].
  - destruct (j <? i)%nat.
    + replace (e' j * e' j) with (n0 + e' j * e' j) by ring. apply (ole_add HO); auto. apply low_nonneg.
    + replace (e j * e j) with (e j * e j + n0) by ring. apply (ole_add HO); auto. apply low_nonneg.
  - replace (n0 * n0) with (n0 : N) by ring. apply (ole_0_add HO); apply low_nonneg.
Qed.
Lemma level_step L : exists q K : N, le n0 q /\ lt q n1 /\ le n0 K /\ forall e e', esweep e e' -> le (F L e') (q * F L e + K * (low L e + low L e')).
Proof.
  destruct HL as [_ HB]. destruct (HB L) as [Hs Hp]. destruct (sor_constants HO n (cut L) w Hs Hp Hw0 Hw2) as (q & C0 & D0 & Hq0 & Hq1 & _ & _ & HS).
  destruct (solve_bound n (cut L) (pd_injective HO n (cut L) Hp)) as (R & HR & HRb). destruct (form_upper n (cut L)) as (cu & Hcu & HU).
  set (three := (n1 + n1 + n1 : N)). set (h := (n1 - q) / (three + three)).
  assert (P3 : lt n0 (three + three)) by (pose proof (olt_0_1 HO) as q1; pose proof (olt_le HO _ _ q1) as q2; unfold three; repeat (apply (olt_0_add HO) || apply (ole_0_add HO)); auto).
  assert (Z3 : three + three <> n0) by (apply not_eq_sym, (olt_ne HO); auto).
  assert (Pd : lt n0 (n1 - q)) by now apply (olt_sub HO) in Hq1.
  assert (Ph : lt n0 h) by (replace h with ((n1 - q) * (n1 / (three + three))) by (unfold h; field; auto); apply (olt_0_mul HO); auto; now apply (olt_0_inv HO)).
  assert (Zh : h <> n0) by (apply not_eq_sym, (olt_ne HO); auto).
  assert (h1 : le h n1).
  { apply (ole_sub HO). replace (n1 - h) with ((n1 / (three + three)) * (q + (three + three - n1))) by (unfold h; field; exact Z3).
    apply (ole_0_mul HO); [apply (olt_le HO), (olt_0_inv HO); auto|]. apply (ole_0_add HO); auto. unfold three.
    match goal with |- le n0 ?g => replace g with (n1 + n1 + n1 + n1 + n1 : N) by ring end. repeat apply (ole_0_add HO); apply (olt_le HO), (olt_0_1 HO). }
  set (q' := (n1 + h) * ((n1 + h) * q)). set (u := n1 + n1 / h).
  assert (Pu : le n0 u) by (apply (ole_0_add HO); apply (olt_le HO); [apply (olt_0_1 HO)|now apply (olt_0_inv HO)]).
  assert (Pnh : le n0 (n1 + h)) by (apply (ole_0_add HO); apply (olt_le HO); auto; apply (olt_0_1 HO)).
  assert (Pn : le n0 (bigsum n (fun _ => n1 : N))) by (apply (bigsum_nonneg HO); intros; apply (olt_le HO), (olt_0_1 HO)).
  set (G := bigsum n (fun i => bigsum n (fun j => nabs (- (d i * a i j))) * bigsum n (fun j => nabs (- (d i * a i j))))).
  assert (PG : le n0 G) by (apply (bigsum_nonneg HO); intros; apply (ole_0_sqr HO)).
  set (K1 := cu * (bigsum n (fun _ => n1) * (R * G))).
  assert (PK1 : le n0 K1) by (unfold K1; repeat (apply (ole_0_mul HO); auto)).
  exists q', ((n1 + h) * (q * (u * K1)) + u * K1). split; [|split; [|split]].
  - repeat (apply (ole_0_mul HO); auto).
  - apply (olt_sub HO). assert (E : le q' (q * (n1 + three * h))).
    { apply (ole_sub HO). unfold q', three. match goal with |- le n0 ?g => replace g with (q * (h * (n1 - h))) by ring end.
      apply (ole_0_mul HO); auto. apply (ole_0_mul HO); [apply (olt_le HO); auto|]. now apply (ole_sub HO) in h1. }
    apply (ole_sub HO) in E. pose proof (olt_le HO _ _ Pd) as Pd'.
    assert (P2 : lt n0 (n1 / (n1 + n1) : N)) by (apply (olt_0_inv HO), (two_pos HO)).
    replace (n1 - q') with ((n1 / (n1 + n1)) * (n1 - q) * (n1 - q) + (n1 / (n1 + n1)) * (n1 - q) + (q * (n1 + three * h) - q')).
    + apply (olt_0_add HO); auto. replace (n1 / (n1 + n1) * (n1 - q) * (n1 - q) + n1 / (n1 + n1) * (n1 - q)) with (n1 / (n1 + n1) * (n1 - q) + n1 / (n1 + n1) * (n1 - q) * (n1 - q)) by ring.
      apply (olt_0_add HO); [now apply (olt_0_mul HO)|]. apply (ole_0_mul HO); auto. apply (ole_0_mul HO); auto. apply (olt_le HO); auto.
    + replace (three * h) with ((n1 - q) / (n1 + n1)).
      * field. apply (two_neq_0 HO).
      * unfold h. field. split; [exact Z3|apply (two_neq_0 HO)].
  - apply (ole_0_add HO); repeat (apply (ole_0_mul HO); auto).
  - intros e e' He. pose proof (restrict_sweep L e e' He) as Hr. set (T := low L e + low L e').
    assert (PT : le n0 T) by (apply (ole_0_add HO); apply low_nonneg).
    assert (Hg : forall i, (i < n)%nat -> le (rhs L e e' i * rhs L e e' i) (G * T)).
    { intros i Hi. unfold rhs. destruct (Nat.eqb_spec (lev i) L) as [_|_].
      - eapply (ole_trans HO); [apply (lin_sq n (fun j => - (d i * a i j)) (pick L i e e') T); intros; now apply pick_low|].
        set (m := fun i => bigsum n (fun j => nabs (- (d i * a i j))) * bigsum n (fun j => nabs (- (d i * a i j)))).
        change (le (m i * T) (bigsum n m * T)). replace (m i * T) with (T * m i) by ring. replace (bigsum n m * T) with (T * bigsum n m) by ring.
        apply (ole_mul_l HO); auto. apply (term_le_sum HO); auto. intros. apply (ole_0_sqr HO).
      - replace (n0 * n0) with (n0 : N) by ring. now apply (ole_0_mul HO). }
    destruct (injective_solvable HF n (cut L) (pd_injective HO n (cut L) Hp) (rhs L e e')) as (st & Hst).
    destruct (HS (rhs L e e') st (rs L e) (rs L e') Hst Hr) as (Hq & _ & _).
    assert (Hst2 : forall j, (j < n)%nat -> le (st j * st j) (R * (G * T))) by (intros j Hj; exact (HRb st (rhs L e e') (G * T) Hst Hg j Hj)).
    assert (HFs : le (form n (cut L) st) (K1 * T)).
    { eapply (ole_trans HO); [apply HU|]. unfold K1. replace (cu * (bigsum n (fun _ => n1) * (R * G)) * T) with (cu * (bigsum n (fun _ => n1) * (R * (G * T)))) by ring.
      apply (ole_mul_l HO); auto. rewrite <- (bigsum_mul_r HF). apply (bigsum_le HO). intros j Hj. replace (n1 * (R * (G * T))) with (R * (G * T)) by ring. auto. }
    assert (HFn : form n (cut L) (fun i => - st i) = form n (cut L) st).
    { unfold form. apply bigsum_ext. intros i Hi. apply bigsum_ext. intros j Hj. ring. }
    assert (HA : le (F L e') ((n1 + h) * energy n (cut L) st (rs L e') + u * form n (cut L) st)).
    { unfold F. rewrite (form_ext n (cut L) (rs L e') (fun i => (rs L e' i - st i) + st i)) by (intros; ring). apply form_split; auto. }
    assert (HB2 : le (energy n (cut L) st (rs L e)) ((n1 + h) * F L e + u * form n (cut L) st)).
    { unfold energy. rewrite (form_ext n (cut L) _ (fun i => rs L e i + - st i)) by (intros; ring). rewrite <- HFn. apply form_split; auto. }
    eapply (ole_trans HO); [exact HA|].
    apply (ole_trans HO _ ((n1 + h) * (q * ((n1 + h) * F L e + u * (K1 * T))) + u * (K1 * T))).
    + apply (ole_add HO).
      * apply (ole_mul_l HO); auto. eapply (ole_trans HO); [exact Hq|]. apply (ole_mul_l HO); auto. eapply (ole_trans HO); [exact HB2|].
        apply (ole_add HO); [apply (ole_refl HO)|]. now apply (ole_mul_l HO).
      * now apply (ole_mul_l HO).
    + match goal with |- le ?x ?y => replace y with x by (unfold q'; fold T; ring) end. apply (ole_refl HO).
Qed.
(** The combined measure of the error decreases in every sweep. *)
Lemma levels_lyapunov L : exists (Psi : (nat -> N) -> N) (r c C : N), le n0 r /\ lt r n1 /\ le n0 c /\ le n0 C /\
  (forall e, le n0 (Psi e)) /\ (forall e j, (j < n)%nat -> (lev j < L)%nat -> le (e j * e j) (c * Psi e)) /\ (forall e, le (Psi e) (C * sumsq n e)) /\
  forall e e', esweep e e' -> le (Psi e') (r * Psi e).
Proof.
  induction L as [|L (Psi & r & c & C & Hr0 & Hr1 & Hc & HC & HP & Hlow & Hup & Hdec)].
  - exists (fun _ => n0), n0, n0, n0. repeat split; try apply (ole_refl HO); try apply (olt_0_1 HO).
    + intros _. apply (ole_refl HO).
    + intros; lia.
    + intros e. replace (n0 * sumsq n e) with (n0 : N) by ring. apply (ole_refl HO).
    + intros. replace (n0 * n0) with (n0 : N) by ring. apply (ole_refl HO).
  - destruct (level_step L) as (q & K & Hq0 & Hq1 & HK & Hstep). destruct HL as [_ HB]. destruct (HB L) as [Hs Hp].
    destruct (form_lower n (cut L) Hs Hp) as (cl & Hcl & Hlo). destruct (form_upper n (cut L)) as (cu & Hcu & HU).
    set (nn := bigsum n (fun _ => n1 : N)). assert (Pn : le n0 nn) by (apply (bigsum_nonneg HO); intros; apply (olt_le HO), (olt_0_1 HO)).
    set (K' := K * (nn * c * (n1 + r))). assert (P1r : le n0 (n1 + r)) by (apply (ole_0_add HO); auto; apply (olt_le HO), (olt_0_1 HO)).
    assert (PK : le n0 K') by (unfold K'; repeat (apply (ole_0_mul HO); auto)).
    assert (Pr : lt n0 (n1 - r)) by now apply (olt_sub HO) in Hr1. assert (Pq : lt n0 (n1 - q)) by now apply (olt_sub HO) in Hq1.
    assert (Zr : n1 - r <> n0) by (apply not_eq_sym, (olt_ne HO); auto). pose proof (two_neq_0 HO) as Z2.
    set (M := (n1 + n1) * (n1 + K') * (n1 / (n1 - r))).
    assert (PM : lt n0 M) by (unfold M; apply (olt_0_mul HO); [apply (olt_0_mul HO); [apply (two_pos HO)|apply (olt_0_add HO); auto; apply (olt_0_1 HO)]|now apply (olt_0_inv HO)]).
    assert (ZM : M <> n0) by (apply not_eq_sym, (olt_ne HO); auto). assert (EM : M = (n1 + n1) * (n1 + K') * (n1 / (n1 - r))) by reflexivity. clearbody M.
    assert (PM' := olt_le HO _ _ PM). assert (PiM : le n0 (n1 / M)) by (apply (olt_le HO), (olt_0_inv HO); auto).
    set (half := (n1 / (n1 + n1) : N)). assert (Phalf : lt n0 half) by (apply (olt_0_inv HO), (two_pos HO)).
    set (r' := n1 - half * ((n1 - q) * (n1 - r))).
    assert (PF : forall e, le n0 (F L e)) by (intros; now apply form_nonneg).
    exists (fun e => F L e + M * Psi e), r', (cl + c * (n1 / M)), (cu + M * C).
    split; [|split; [|split; [|split; [|split; [|split; [|split]]]]]].
    + replace r' with (half + half * (q + r * (n1 - q))) by (unfold r', half; field; auto).
      apply (ole_0_add HO); [apply (olt_le HO); auto|]. apply (ole_0_mul HO); [apply (olt_le HO); auto|]. apply (ole_0_add HO); auto. apply (ole_0_mul HO); auto. apply (olt_le HO); auto.
    + apply (olt_sub HO). replace (n1 - r') with (half * ((n1 - q) * (n1 - r))) by (unfold r'; ring). repeat (apply (olt_0_mul HO); auto).
    + apply (ole_0_add HO); auto. apply (ole_0_mul HO); auto.
    + apply (ole_0_add HO); auto. apply (ole_0_mul HO); auto.
    + intros e. apply (ole_0_add HO); auto. apply (ole_0_mul HO); auto.
    + intros e j Hj Hl. destruct (Nat.eq_dec (lev j) L) as [E|E].
      * apply (ole_trans HO _ (cl * F L e)).
        -- pose proof (Hlo (rs L e) j Hj) as G. unfold rs at 1 2 in G. rewrite E, Nat.eqb_refl in G. exact G.
        -- apply (ole_sub HO). match goal with |- le n0 ?g => replace g with (cl * (M * Psi e) + c * (n1 / M) * (F L e + M * Psi e)) by ring end.
           repeat first [assumption | apply HP | apply PF | apply (ole_0_add HO) | apply (ole_0_mul HO)].
      * eapply (ole_trans HO); [apply (Hlow e j Hj); lia|]. apply (ole_sub HO).
        match goal with |- le n0 ?g => replace g with (cl * (F L e + M * Psi e) + c * (n1 / M) * F L e) by (field; auto) end.
        repeat first [assumption | apply HP | apply PF | apply (ole_0_add HO) | apply (ole_0_mul HO)].
    + intros e. replace ((cu + M * C) * sumsq n e) with (cu * sumsq n e + M * (C * sumsq n e)) by ring. apply (ole_add HO).
      * unfold F. eapply (ole_trans HO); [apply HU|]. apply (ole_mul_l HO); auto. apply (bigsum_le HO). intros j Hj. unfold rs. destruct (_ =? _)%nat; [apply (ole_refl HO)|].
        replace (n0 * n0) with (n0 : N) by ring. apply (ole_0_sqr HO).
      * apply (ole_mul_l HO); auto.
    + intros e e' He. pose proof (Hstep e e' He) as H1. pose proof (Hdec e e' He) as H2.
      assert (Hl : forall z, le (low L z) (nn * (c * Psi z))).
      { intros z. unfold low, nn. rewrite <- (bigsum_mul_r HF). apply (bigsum_le HO). intros j Hj. replace (n1 * (c * Psi z)) with (c * Psi z) by ring.
        destruct (Nat.ltb_spec (lev j) L); auto. apply (ole_0_mul HO); auto. }
      assert (H3 : le (low L e + low L e') (nn * c * (n1 + r) * Psi e)).
      { eapply (ole_trans HO); [apply (ole_add HO); apply Hl|]. replace (nn * c * (n1 + r) * Psi e) with (nn * (c * Psi e) + nn * (c * (r * Psi e))) by ring.
        apply (ole_add HO); [apply (ole_refl HO)|]. repeat (apply (ole_mul_l HO); auto). }
      apply (ole_trans HO _ (q * F L e + K' * Psi e + M * (r * Psi e))).
      * apply (ole_add HO); [|apply (ole_mul_l HO); auto; apply (olt_le HO); auto]. eapply (ole_trans HO); [exact H1|]. apply (ole_add HO); [apply (ole_refl HO)|].
        unfold K'. replace (K * (nn * c * (n1 + r)) * Psi e) with (K * (nn * c * (n1 + r) * Psi e)) by ring. now apply (ole_mul_l HO).
      * apply (ole_sub HO).
        match goal with |- le n0 ?g => replace g with (half * (n1 - q) * (n1 + r) * F L e + (n1 + (n1 + K') * q) * Psi e) by (rewrite EM; unfold r', half; field; auto) end.
        pose proof (olt_le HO _ _ Phalf). pose proof (olt_le HO _ _ Pq). pose proof (olt_le HO _ _ (olt_0_1 HO)).
        repeat first [assumption | apply HP | apply PF | apply (ole_0_add HO) | apply (ole_0_mul HO)].
Qed.

Lemma lev_bound : exists L, forall j, (j < n)%nat -> (lev j < L)%nat.
Proof.
  clear HL Hw0 Hw2. induction n as [|m (L & H)]; [exists 0%nat; lia|]. exists (S (lev m + L)). intros j Hj. destruct (Nat.eq_dec j m) as [->|]; [lia|]. specialize (H j ltac:(lia)). lia.
Qed.
Lemma levels_injective x : (forall i, (i < n)%nat -> mulvec n a x i = n0) -> forall j, (j < n)%nat -> x j = n0.
Proof.
  intros Hx j Hj. destruct lev_bound as (L & HLb). destruct (levels_lyapunov L) as (Psi & r & c & C & Hr0 & Hr1 & Hc & HC & HP & Hlow & Hup & Hdec).
  assert (Hf : esweep x x) by (apply (sor_fixed HO); auto; intros i Hi; now apply level_diag).
  pose proof (Hdec x x Hf) as H. assert (E : Psi x = n0).
  { apply (ole_antisym HO); auto. apply (ole_sub HO) in H. apply (ole_sub HO). assert (Pr : lt n0 (n1 - r)) by now apply (olt_sub HO) in Hr1.
    assert (Zr : n1 - r <> n0) by (apply not_eq_sym, (olt_ne HO); auto).
    replace (n0 - Psi x) with ((n1 / (n1 - r)) * (r * Psi x - Psi x)) by (field; auto). apply (ole_0_mul HO); auto. apply (olt_le HO), (olt_0_inv HO); auto. }
  specialize (Hlow x j Hj (HLb j Hj)). rewrite E in Hlow. replace (c * n0) with (n0 : N) in Hlow by ring.
  assert (Q : x j * x j = n0) by (apply (ole_antisym HO); auto; apply (ole_0_sqr HO)). apply (mul_0 HO) in Q. tauto.
Qed.
(** What a sweep says about the error: it is bounded by the size of the last update. *)
Lemma update_bound : exists R : N, le n0 R /\ forall b s x y, (forall i, (i < n)%nat -> mulvec n a s i = b i) -> sor_eq n a b w x x y ->
  forall j, (j < n)%nat -> le ((y j - s j) * (y j - s j)) (R * dist2 n x y).
Proof.
  destruct (solve_bound n a levels_injective) as (R & HR & HRb).
  set (G := bigsum n (fun i => bigsum n (fun p => nabs (lowmat a w i p)) * bigsum n (fun p => nabs (lowmat a w i p)))).
  assert (PG : le n0 G) by (apply (bigsum_nonneg HO); intros; apply (ole_0_sqr HO)).
  assert (P2 := olt_le HO _ _ (two_pos HO)). pose proof (olt_le HO _ _ (olt_0_1 HO)) as P1.
  exists ((n1 + n1) * (R * G) + (n1 + n1)). split; [repeat first [assumption | apply (ole_0_add HO) | apply (ole_0_mul HO)]|].
  intros b s x y Hs Hy j Hj. set (T := dist2 n x y).
  assert (Ht : forall p, (p < n)%nat -> le ((y p - x p) * (y p - x p)) T).
  { intros p Hp. apply (term_le_sum HO n (fun p => (y p - x p) * (y p - x p)) p Hp). intros. apply (ole_0_sqr HO). }
  assert (He : le ((s j - x j) * (s j - x j)) (R * (G * T))).
  { apply (HRb (fun i => s i - x i) (fun i => b i - mulvec n a x i) (G * T)); auto.
    - intros i Hi. rewrite (mulvec_minus HO), Hs by auto. reflexivity.
    - intros i Hi. rewrite (sweep_residual HO n a b w x y i) by (auto; try apply wnz; intros i' Hi'; now apply level_diag).
      eapply (ole_trans HO); [apply (lin_sq n (lowmat a w i) (fun p => y p - x p) T); auto|].
      set (m := fun i => bigsum n (fun p => nabs (lowmat a w i p)) * bigsum n (fun p => nabs (lowmat a w i p))). change (le (m i * T) (bigsum n m * T)).
      replace (m i * T) with (T * m i) by ring. replace (bigsum n m * T) with (T * bigsum n m) by ring.
      apply (ole_mul_l HO); [apply dist2_nonneg; auto|]. apply (term_le_sum HO); auto. intros. apply (ole_0_sqr HO). }
  replace (y j - s j) with ((x j - s j) + (y j - x j)) by ring. eapply (ole_trans HO); [apply sq_add|].
  replace (((n1 + n1) * (R * G) + (n1 + n1)) * T) with ((n1 + n1) * (R * (G * T)) + (n1 + n1) * T) by ring. apply (ole_add HO); apply (ole_mul_l HO); auto.
  replace ((x j - s j) * (x j - s j)) with ((s j - x j) * (s j - x j)) by ring. auto.
Qed.
(** Everything about one sweep, with constants that only depend on the matrix and the weight. *)
Lemma levels_constants : exists (Psi : (nat -> N) -> N) (q C : N), le n0 q /\ lt q n1 /\ le n0 C /\
  (forall e, le n0 (Psi e)) /\ (forall e j, (j < n)%nat -> le (e j * e j) (C * Psi e)) /\ (forall e, le (Psi e) (C * sumsq n e)) /\
  forall b s x y, (forall i, (i < n)%nat -> mulvec n a s i = b i) -> sor_eq n a b w x x y ->
    le (Psi (fun i => y i - s i)) (q * Psi (fun i => x i - s i)) /\ le (dist2 n x y) (C * Psi (fun i => x i - s i)) /\
    forall j, (j < n)%nat -> le ((y j - s j) * (y j - s j)) (C * dist2 n x y).
Proof.
  destruct lev_bound as (L & HLb). destruct (levels_lyapunov L) as (Psi & r & c & C & Hr0 & Hr1 & Hc & HC & HP & Hlow & Hup & Hdec).
  destruct update_bound as (R & HR & HRb). set (nn := bigsum n (fun _ => n1 : N)).
  assert (P1 := olt_le HO _ _ (olt_0_1 HO)). assert (Pn : le n0 nn) by (apply (bigsum_nonneg HO); auto). assert (P2 := olt_le HO _ _ (two_pos HO)).
  set (D := nn * ((n1 + n1) * c + (n1 + n1) * c)).
  assert (PD : le n0 D) by (unfold D; repeat first [assumption | apply (ole_0_add HO) | apply (ole_0_mul HO)]).
  assert (Hsub : forall u v t : N, le u (v * t) -> le n0 t -> le v (c + C + R + D) -> le u ((c + C + R + D) * t)).
  { intros u v t H1 H2 H3. eapply (ole_trans HO); [exact H1|]. replace (v * t) with (t * v) by ring. replace ((c + C + R + D) * t) with (t * (c + C + R + D)) by ring. now apply (ole_mul_l HO). }
  assert (G : forall u v : N, le n0 (v - u) -> le u v) by (intros u v; apply (ole_sub HO)).
  exists Psi, r, (c + C + R + D). do 2 (split; [auto|]). split; [repeat apply (ole_0_add HO); auto|]. split; [auto|]. split; [|split].
  - intros e j Hj. apply (Hsub _ c); auto. apply G. replace (c + C + R + D - c) with (C + R + D) by ring. repeat apply (ole_0_add HO); auto.
  - intros e. apply (Hsub _ C); auto; [apply (bigsum_nonneg HO); intros; apply (ole_0_sqr HO)|]. apply G. replace (c + C + R + D - C) with (c + R + D) by ring. repeat apply (ole_0_add HO); auto.
  - intros b s x y Hs Hy. pose proof (sor_error b x y s Hy Hs) as He. pose proof (Hdec _ _ He) as Hd. split; [exact Hd|]. split.
    + apply (Hsub _ D); auto; [|apply G; replace (c + C + R + D - D) with (c + C + R) by ring; repeat apply (ole_0_add HO); auto].
      unfold D. replace (nn * ((n1 + n1) * c + (n1 + n1) * c) * Psi (fun i => x i - s i)) with (nn * (((n1 + n1) * c + (n1 + n1) * c) * Psi (fun i => x i - s i))) by ring.
      unfold nn. rewrite <- (bigsum_mul_r HF). unfold dist2. apply (bigsum_le HO). intros j Hj.
      replace (y j - x j) with ((y j - s j) + (s j - x j)) by ring. eapply (ole_trans HO); [apply sq_add|].
      match goal with |- le _ ?g => replace g with ((n1 + n1) * (c * Psi (fun i => x i - s i)) + (n1 + n1) * (c * Psi (fun i => x i - s i))) by ring end.
      apply (ole_add HO); apply (ole_mul_l HO); auto.
      * eapply (ole_trans HO); [apply (Hlow (fun i => y i - s i) j Hj (HLb j Hj))|]. apply (ole_mul_l HO); auto. eapply (ole_trans HO); [exact Hd|].
        apply (ole_sub HO). replace (Psi (fun i => x i - s i) - r * Psi (fun i => x i - s i)) with ((n1 - r) * Psi (fun i => x i - s i)) by ring.
        apply (ole_0_mul HO); auto. apply (olt_le HO). now apply (olt_sub HO) in Hr1.
      * replace ((s j - x j) * (s j - x j)) with ((x j - s j) * (x j - s j)) by ring. apply (Hlow (fun i => x i - s i) j Hj (HLb j Hj)).
    + intros j Hj. apply (Hsub _ R); [apply (HRb b s x y Hs Hy j Hj)|apply (bigsum_nonneg HO); intros; apply (ole_0_sqr HO)|]. apply G. replace (c + C + R + D - R) with (c + C + D) by ring. repeat apply (ole_0_add HO); auto.
Qed.
End Block.

(** ** The method itself, started at zero *)
Section BlockRun.
Context {N : Num} (HO : OrdFieldLaws N).
Let HF : FieldLaws N := of_field N HO.
Add Field brfld : (fl_field N HF).
Notation le x y := (nleb x y = true).
Notation lt x y := (nltb x y = true).
Notation vec l := (fun i => nth i l n0).
Definition norm2sq n (v : list N) : N := bigsum n (fun j => nth j v n0 * nth j v n0)%num.

Theorem block_converges n a lev d (w : N) : levels n a lev d -> lt n0 w -> lt w (n1 + n1)%num -> exists q C : N, le n0 q /\ lt q n1 /\ le n0 C /\
  forall (M : RowMat N) (HR : RowLaws M) (A : M) b x0 s maxIter eps, holds A n n a -> length b = n -> length x0 = n -> (forall i, i < n -> nth i x0 n0 = n0) -> solves n a s b ->
  exists y it, it_sor A b x0 w maxIter eps = Ok (y, it) /\ it <= maxIter /\ length y = n /\
    (forall i, i < n -> le ((nth i y n0 - nth i s n0) * (nth i y n0 - nth i s n0))%num (C * (qpow q it * norm2sq n s))%num) /\
    (it < maxIter -> forall i, i < n -> le ((nth i y n0 - nth i s n0) * (nth i y n0 - nth i s n0))%num (C * (eps * eps))%num) /\
    (forall k, S k < it -> le (eps * eps)%num (C * (qpow q k * norm2sq n s))%num).
Proof.
  intros HL H0 H2. destruct (levels_constants HO n a lev d w HL H0 H2) as (Psi & q & C & Hq0 & Hq1 & HC & HP & Hlow & Hup & Hs1).
  exists q, (C * C + C)%num. split; [auto|]. split; [auto|]. split; [apply (ole_0_add HO); auto; now apply (ole_0_mul HO)|].
  intros M HR A b x0 s maxIter eps HA Hb Hx Hz Hs. destruct (sor_zero_start HO HR A n a b x0 HA Hb Hx w maxIter eps Hz) as (X & it & E & E0 & E1 & He1 & He2 & He3 & He4).
  set (err := fun k i => (X k i - nth i s n0)%num).
  assert (Hn : le n0 (norm2sq n s)) by (apply (bigsum_nonneg HO); intros; apply (ole_0_sqr HO)).
  assert (Hk : forall k, le (Psi (err k)) (qpow q k * (C * norm2sq n s))%num).
  { induction k as [|k IH]; cbn [qpow].
    - replace (n1 * (C * norm2sq n s))%num with (C * norm2sq n s)%num by ring. eapply (ole_trans HO); [apply Hup|]. apply (ole_mul_l HO); auto.
      apply (bigsum_le HO). intros i Hi. unfold err. rewrite E0 by auto. replace ((n0 - nth i s n0) * (n0 - nth i s n0))%num with (nth i s n0 * nth i s n0)%num by ring. apply (ole_refl HO).
    - destruct (Hs1 (vec b) (vec s) (X k) (X (S k)) Hs (E1 k)) as (G & _). eapply (ole_trans HO); [exact G|].
      replace (q * qpow q k * (C * norm2sq n s))%num with (q * (qpow q k * (C * norm2sq n s)))%num by ring. apply (ole_mul_l HO); [exact Hq0|exact IH]. }
  assert (Hbig : forall k t : N, le n0 t -> le (C * C * t)%num ((C * C + C) * t)%num).
  { intros _ t Ht. apply (ole_sub HO). replace ((C * C + C) * t - C * C * t)%num with (C * t)%num by ring. apply (ole_0_mul HO); auto. }
  exists (V n (X it)), it. split; [auto|]. split; [lia|]. split; [apply V_len|]. split; [|split].
  - intros i Hi. rewrite V_nth by auto. eapply (ole_trans HO); [apply (Hlow (err it) i Hi)|].
    apply (ole_trans HO _ (C * (qpow q it * (C * norm2sq n s)))%num); [apply (ole_mul_l HO); [exact HC|exact (Hk it)]|].
    replace (C * (qpow q it * (C * norm2sq n s)))%num with (C * C * (qpow q it * norm2sq n s))%num by ring. apply (Hbig n0). apply (ole_0_mul HO); auto. now apply (qpow_nonneg HO).
  - intros Hlt i Hi. destruct (He3 Hlt) as (k & -> & Hd). rewrite V_nth by auto. destruct (Hs1 (vec b) (vec s) (X k) (X (S k)) Hs (E1 k)) as (_ & _ & G).
    eapply (ole_trans HO); [apply (G i Hi)|]. eapply (ole_trans HO); [apply (ole_mul_l HO); [exact HC|exact Hd]|].
    apply (ole_sub HO). replace ((C * C + C) * (eps * eps) - C * (eps * eps))%num with (C * C * (eps * eps))%num by ring. apply (ole_0_mul HO); apply (ole_0_sqr HO).
  - intros k Hlt. pose proof (He2 k ltac:(lia) Hlt) as F0. apply (onle_lt HO), (olt_le HO) in F0. eapply (ole_trans HO); [exact F0|].
    destruct (Hs1 (vec b) (vec s) (X k) (X (S k)) Hs (E1 k)) as (_ & G & _). eapply (ole_trans HO); [exact G|].
    apply (ole_trans HO _ (C * (qpow q k * (C * norm2sq n s)))%num); [apply (ole_mul_l HO); [exact HC|exact (Hk k)]|].
    replace (C * (qpow q k * (C * norm2sq n s)))%num with (C * C * (qpow q k * norm2sq n s))%num by ring. apply (Hbig n0). apply (ole_0_mul HO); auto. now apply (qpow_nonneg HO).
Qed.
(** A geometric sequence drops below every positive bound. *)
Lemma geometric_small (HN : NatLaws N) (HA : archimedean N) (q c e : N) : le n0 q -> lt q n1 -> lt n0 e -> exists k, lt (c * qpow q k)%num e.
Proof.
  intros Hq0 Hq1 He. assert (P1 : lt n0 (nabs c + n1)%num) by (replace (nabs c + n1)%num with (n1 + nabs c)%num by ring; apply (olt_0_add HO); [apply (olt_0_1 HO)|apply (oabs_nonneg HO)]).
  assert (Z1 : (nabs c + n1)%num <> n0) by (apply not_eq_sym, (olt_ne HO); auto). pose proof (two_neq_0 HO) as Z2.
  destruct (qpow_small HO HN q (e * (n1 / ((nabs c + n1) * (n1 + n1))))%num HA Hq0 Hq1) as (k & Hk).
  - apply (olt_0_mul HO); auto. apply (olt_0_inv HO), (olt_0_mul HO); [auto|apply (two_pos HO)].
  - exists k. set (h := (e * (n1 / (n1 + n1)))%num). assert (Ph : lt n0 h) by (apply (olt_0_mul HO); auto; apply (olt_0_inv HO), (two_pos HO)).
    apply (ole_lt_trans HO _ h).
    + apply (ole_trans HO _ ((nabs c + n1) * qpow q k)%num).
      * replace (c * qpow q k)%num with (qpow q k * c)%num by ring. replace ((nabs c + n1) * qpow q k)%num with (qpow q k * (nabs c + n1))%num by ring.
        apply (ole_mul_l HO); [now apply (qpow_nonneg HO)|]. replace c with (c + n0)%num at 1 by ring. apply (ole_add HO); [apply (oabs_le HO)|apply (olt_le HO), (olt_0_1 HO)].
      * replace h with ((nabs c + n1) * (e * (n1 / ((nabs c + n1) * (n1 + n1)))))%num by (unfold h; field; auto). apply (ole_mul_l HO); auto. apply (olt_le HO); auto.
    + apply (olt_sub HO). replace (e - h)%num with h by (unfold h; field; auto). auto.
Qed.
Theorem block_terminates (HN : NatLaws N) (HA : archimedean N) n a lev d (w : N) : levels n a lev d -> lt n0 w -> lt w (n1 + n1)%num ->
  forall b x0 eps, length b = n -> length x0 = n -> (forall i, i < n -> nth i x0 n0 = n0) -> eps <> n0 ->
  exists K, forall (M : RowMat N) (HR : RowLaws M) (A : M) maxIter, holds A n n a -> exists y it, it_sor A b x0 w maxIter eps = Ok (y, it) /\ it <= K.
Proof.
  intros HL H0 H2 b x0 eps Hb Hx Hz He. destruct (block_converges n a lev d w HL H0 H2) as (q & C & Hq0 & Hq1 & HC & HS).
  destruct (injective_solvable HF n a (levels_injective HO n a lev d w HL H0 H2) (vec b)) as (sv & Hsv).
  assert (Hs : solves n a (V n sv) b).
  { intros i Hi. rewrite <- (Hsv i Hi). apply bigsum_ext. intros j Hj. now rewrite V_nth. }
  destruct (geometric_small HN HA q (C * norm2sq n (V n sv))%num (eps * eps)%num Hq0 Hq1 (olt_0_sqr HO _ He)) as (k & Hk).
  exists (S k). intros M HR A maxIter Hh. destruct (HS M HR A b x0 (V n sv) maxIter eps Hh Hb Hx Hz Hs) as (y & it & E & _ & _ & _ & _ & B).
  exists y, it. split; auto. destruct (le_lt_dec it (S k)) as [|Hlt]; auto. exfalso. specialize (B k Hlt).
  replace (C * (qpow q k * norm2sq n (V n sv)))%num with (C * norm2sq n (V n sv) * qpow q k)%num in B by ring.
  exact (olt_irrefl HO _ (ole_lt_trans HO _ _ _ B Hk)).
Qed.
End BlockRun.
