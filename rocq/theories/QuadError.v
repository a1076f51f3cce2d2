(** Quadrature errors for functions that are not polynomials. *)
From Coq Require Import List Arith Bool ZArith Reals Lia Lra.
From Coquelicot Require Import Coquelicot.
From Verif Require Import Base BaseProofs Num NumInst ShapeSpec QuadModel QuadSpec QuadProofs AccuracySpec GridTaylor.
Import ListNotations.
Local Open Scope R_scope.

(** ** Best approximation *)
Definition abs_sum (l : list R) : R := fold_right (fun a s => Rabs a + s) 0 l.
Lemma abs_weights k o : In (k, o) rules -> abs_sum (@nweights NumR k o) <= 11 / 10.
Proof.
  intros H. caseR H; cbn [nweights gl_table snd map abs_sum fold_right]; opsQ;
  repeat match goal with |- context [Rabs ?x] => first [rewrite (Rabs_pos_eq x) by lra|rewrite (Rabs_left x) by lra] end; lra.
Qed.
Lemma wsum_close (ws : list R) (f g : list R -> R) (ps : list (list R)) d : 0 <= d -> (forall p, In p ps -> Rabs (f p - g p) <= d) ->
  Rabs (wsum (N := NumR) ws (map f ps) - wsum (N := NumR) ws (map g ps)) <= abs_sum ws * d.
Proof.
  intros Hd. revert ps. induction ws as [|w ws IH]; intros [|p ps] H; cbn [wsum map abs_sum fold_right]; cbn [nadd nmul n0 NumR].
  - rewrite Rminus_diag_eq, Rabs_R0 by reflexivity. lra.
  - rewrite Rminus_diag_eq, Rabs_R0 by reflexivity. lra.
  - fold (abs_sum ws). rewrite Rminus_diag_eq, Rabs_R0 by reflexivity. apply Rmult_le_pos; auto. pose proof (Rabs_pos w).
    assert (0 <= abs_sum ws). { clear. induction ws as [|a ws IH]; cbn [abs_sum fold_right]; [lra|]. pose proof (Rabs_pos a). fold (abs_sum ws). lra. } lra.
  - fold (abs_sum ws). specialize (IH ps ltac:(intros; apply H; now right)). specialize (H p ltac:(now left)).
    match type of IH with Rabs (?a - ?b) <= _ => set (u := a) in *; set (v := b) in * end. clearbody u v.
    replace (w * f p + u - (w * g p + v)) with (w * (f p - g p) + (u - v)) by ring.
    eapply Rle_trans; [apply Rabs_triang|]. rewrite Rabs_mult.
    assert (Rabs w * Rabs (f p - g p) <= Rabs w * d) by (apply Rmult_le_compat_l; auto; apply Rabs_pos). lra.
Qed.
Lemma int_close (f g : R -> R) a b (A B d : R) : a <= b -> is_RInt f a b A -> is_RInt g a b B ->
  (forall x, a <= x <= b -> Rabs (f x - g x) <= d) -> Rabs (A - B) <= d * (b - a).
Proof.
  intros Hab HA HB H. pose proof (is_RInt_minus _ _ _ _ _ _ HA HB) as D.
  pose proof (norm_RInt_le_const (fun y => minus (f y) (g y)) a b (minus A B) d Hab H D) as E. rewrite Rmult_comm. exact E.
Qed.
Lemma integral_close k f g (A B d : R) : (k = 1 \/ k = 2)%nat -> 0 <= d -> integral k f A -> integral k g B ->
  (forall p, length p = k -> in_simplex p -> Rabs (f p - g p) <= d) -> Rabs (A - B) <= d.
Proof.
  intros Hk Hd HA HB H. destruct Hk as [->| ->]; cbn [integral] in HA, HB.
  - pose proof (int_close _ _ 0 1 A B d ltac:(lra) HA HB) as E. replace d with (d * (1 - 0)) by ring. apply E. intros x Hx. apply H; auto.
    split; [repeat (constructor; [lra|]); constructor|cbn; lra].
  - destruct HA as (ga & Ga & HA). destruct HB as (gb & Gb & HB).
    pose proof (int_close ga gb 0 1 A B d ltac:(lra) HA HB) as E. replace d with (d * (1 - 0)) by ring. apply E. intros x Hx.
    pose proof (int_close _ _ 0 (1 - x) (ga x) (gb x) d ltac:(lra) (Ga x Hx) (Gb x Hx)) as E2.
    eapply Rle_trans; [apply E2|]. 2: { assert (0 <= d * x) by (apply Rmult_le_pos; lra). lra. }
    intros y Hy. apply H; auto. split; [repeat (constructor; [lra|]); constructor|cbn; lra].
Qed.
Theorem eval_best k o (f : list R -> R) (c : list R) (I d : R) : In (k, o) rules -> length c = length (exponents k (degree k o)) -> integral k f I ->
  (forall p, length p = k -> in_simplex p -> Rabs (f p - @poly NumR k (degree k o) c p) <= d) ->
  returns (q_eval (N := NumR) k o (fun p => Ok (f p)) 0) (fun v => Rabs (v - I) <= 21 / 10 * d + 2 / 10 ^ 15 * abs_total c).
Proof.
  intros H Hc HI Hd. destruct (integrable k o c H) as (J & HJ).
  destruct (eval_exact k o c J H Hc HJ) as (q & Eq & Bq).
  rewrite (eval_is NumR_field k o) in Eq by auto. injection Eq as Eq. cbn [nadd NumR n0] in Eq. rewrite Rplus_0_l in Eq.
  assert (Pd : 0 <= d).
  { assert (exists p, In p (@gl_points NumR k o)) as (p & Hp) by (clear -H; caseR H; eexists; left; reflexivity).
    destruct (points_in k o p H Hp) as (A & B). specialize (Hd p A B). pose proof (Rabs_pos (f p - @poly NumR k (degree k o) c p)). lra. }
  eexists. split; [now apply (eval_is NumR_field)|]. cbn [nadd NumR n0]. rewrite Rplus_0_l.
  pose proof (wsum_close (@nweights NumR k o) f (@poly NumR k (degree k o) c) (@gl_points NumR k o) d Pd) as E1.
  specialize (E1 ltac:(intros p Hp; destruct (points_in k o p H Hp); auto)). rewrite Eq in E1.
  pose proof (integral_close k f _ I J d ltac:(clear -H; caseR H; auto) Pd HI HJ Hd) as E2.
  pose proof (abs_weights k o H) as W. assert (E1' : abs_sum (@nweights NumR k o) * d <= 11 / 10 * d) by (apply Rmult_le_compat_r; auto).
  match type of E1 with Rabs (?a - _) <= _ => set (v := a : R) in * end.
  match goal with |- Rabs (?b - I) <= _ => change b with v end. clearbody v. clear Eq.
  replace (v - I) with ((v - q) + (q - J) + - (I - J)) by ring.
  eapply Rle_trans; [apply Rabs_triang|]. rewrite Rabs_Ropp. eapply Rle_trans; [apply Rplus_le_compat_r, Rabs_triang|]. lra.
Qed.

(** ** Taylor polynomials at 0 *)
Definition tcoef (F : nat -> R -> R) (i : nat) : R := F i 0 / INR (fact i).
Fixpoint tp (F : nat -> R -> R) (n : nat) (t : R) : R := match n with O => 0 | S k => tp F k t + tcoef F k * t ^ k end.
Lemma tp_deriv F n t : derivable_pt_lim (tp F (S n)) t (tp (fun i => F (S i)) n t).
Proof.
  induction n as [|n IH].
  - cbn [tp]. apply (dl_ext (fct_cte (0 + tcoef F 0 * 1)) _ _ 0); [reflexivity|reflexivity|apply derivable_pt_lim_const].
  - change (derivable_pt_lim (fun t => tp F (S n) t + tcoef F (S n) * t ^ S n) t (tp (fun i => F (S i)) n t + tcoef (fun i => F (S i)) n * t ^ n)).
    apply derivable_pt_lim_plus; auto. refine (dl_ext _ _ _ _ _ (fun _ => eq_refl) _ (dl_pow (tcoef F (S n)) n t)).
    unfold tcoef. rewrite fact_simpl, mult_INR. field. split; [apply INR_fact_neq_0|apply not_0_INR; discriminate].
Qed.
Lemma tp_0 F n : tp F (S n) 0 = F 0%nat 0.
Proof.
  induction n as [|n IH]; [cbn [tp]; unfold tcoef; cbn; field|]. change (tp F (S n) 0 + tcoef F (S n) * 0 ^ S n = F 0%nat 0).
  rewrite IH. cbn [pow]. ring.
Qed.
Lemma taylor (n : nat) : forall M (F : nat -> R -> R) b t, derivatives 0 b M n F -> 0 <= t <= b ->
  Rabs (F 0%nat t - tp F n t) <= M / INR (fact n) * t ^ n.
Proof.
  induction n as [|n IH]; intros M F b t [D B] Ht.
  - cbn [tp fact INR pow]. rewrite Rminus_0_r. specialize (B t Ht). lra.
  - assert (S : forall s, 0 <= s <= t -> Rabs (F 1%nat s - tp (fun i => F (S i)) n s) <= M / INR (fact n) * s ^ n).
    { intros s Hs. apply (IH M (fun i => F (S i)) b s); [|lra]. split; [intros i z Hi Hz; apply D; [lia|auto]|exact B]. }
    assert (main : forall e, e = 1 \/ e = -1 -> e * (F 0%nat t - tp F (Datatypes.S n) t) <= M / INR (fact (Datatypes.S n)) * t ^ Datatypes.S n).
    { intros e He.
      assert (G : 0 <= M / INR (fact (Datatypes.S n)) * t ^ Datatypes.S n - e * (F 0%nat t - tp F (Datatypes.S n) t)).
      { apply (grow (fun s => M / INR (fact (Datatypes.S n)) * s ^ Datatypes.S n - e * (F 0%nat s - tp F (Datatypes.S n) s))
          (fun s => M / INR (fact n) * s ^ n - e * (F 1%nat s - tp (fun i => F (Datatypes.S i)) n s))); [lra| | |].
        - intros s Hs. pose proof (derivable_pt_lim_minus _ _ _ _ _ (D 0%nat s ltac:(lia) ltac:(lra)) (tp_deriv F n s)) as A1.
          pose proof (derivable_pt_lim_minus _ _ _ _ _ (dl_pow (M / INR (fact (Datatypes.S n))) n s) (derivable_pt_lim_scal _ e _ _ A1)) as A2.
          refine (dl_ext _ _ _ _ _ _ _ A2); [reflexivity|]. rewrite fact_simpl, mult_INR. field. split; [apply INR_fact_neq_0|apply not_0_INR; discriminate].
        - intros s Hs. specialize (S s Hs). apply abs_inv in S. destruct He as [->| ->]; lra.
        - rewrite tp_0. cbn [pow]. ring. }
      lra. }
    pose proof (main 1 (or_introl eq_refl)). pose proof (main (-1) (or_intror eq_refl)). apply Rabs_le. lra.
Qed.
(** Its coefficients as a list, and the polynomial in the vocabulary of the shape functions. *)
Definition tlist (F : nat -> R -> R) (n : nat) : list R := map (tcoef F) (seq 0 n).
Lemma tp_poly F o t : (o = 1 \/ o = 2 \/ o = 3)%nat -> @poly NumR 1 (degree 1 o) (tlist F (2 * o)) [t] = tp F (2 * o) t.
Proof.
  intros Ho. destruct Ho as [->|[->| ->]]; cbn [degree Nat.mul Nat.add Nat.sub]; unfold tlist, poly;
  cbn [exponents seq flat_map map app Nat.sub combine fold_right fst snd monomial npow tp]; cbn [nadd nmul n0 n1 NumR]; change (T NumR) with R; ring.
Qed.
Lemma tp_total F n : abs_total (tlist F n) = fold_right Rplus 0 (map (fun i => Rabs (F i 0) / INR (fact i)) (seq 0 n)).
Proof.
  unfold tlist, abs_total. induction (seq 0 n) as [|i l IH]; [reflexivity|]. cbn [map fold_right]. rewrite IH. f_equal. unfold tcoef, Rdiv. rewrite Rabs_mult, (Rabs_pos_eq (/ _)); auto.
  left. apply Rinv_0_lt_compat, INR_fact_lt_0.
Qed.
(** o Gauss points on [a, a+h]: an error of order h^(2o+1). *)
Theorem line_error o (F : nat -> R -> R) (a h M I : R) : (o = 1 \/ o = 2 \/ o = 3)%nat -> 0 < h -> derivatives a (a + h) M (2 * o) F -> is_RInt (F 0%nat) a (a + h) I ->
  returns (q_eval (N := NumR) 1 o (fun p => Ok (F 0%nat (a + h * nth 0 p 0))) 0) (fun v =>
    Rabs (h * v - I) <= h * (21 / 10 * (M * h ^ (2 * o) / INR (fact (2 * o))) +
      2 / 10 ^ 15 * fold_right Rplus 0 (map (fun i => Rabs (F i a) * h ^ i / INR (fact i)) (seq 0 (2 * o))))).
Proof.
  intros Ho Hh [D B] HI. set (n := (2 * o)%nat) in *. set (G := fun i t => h ^ i * F i (a + h * t)).
  assert (HG : derivatives 0 1 (h ^ n * M) n G).
  { split.
    - intros i t Hi Ht. unfold G. assert (Dt : a <= a + h * t <= a + h) by (split; [|rewrite <- (Rmult_1_r h) at 2]; [|apply Rplus_le_compat_l, Rmult_le_compat_l; lra];
        assert (0 <= h * t) by (apply Rmult_le_pos; lra); lra).
      specialize (D i (a + h * t) Hi Dt). apply dl_shift in D. pose proof (derivable_pt_lim_scal _ (h ^ i) _ _ D) as A.
      refine (dl_ext _ _ _ _ _ (fun _ => eq_refl) _ A). cbn [pow]. ring.
    - intros t Ht. unfold G. assert (Dt : a <= a + h * t <= a + h) by (split; [|rewrite <- (Rmult_1_r h) at 2]; [|apply Rplus_le_compat_l, Rmult_le_compat_l; lra];
        assert (0 <= h * t) by (apply Rmult_le_pos; lra); lra).
      specialize (B _ Dt). pose proof (pow_lt h n Hh). rewrite Rabs_mult, (Rabs_pos_eq (h ^ n)) by lra. apply Rmult_le_compat_l; lra. }
  assert (In (1%nat, o) rules) as Hr by (destruct Ho as [->|[->| ->]]; cbn; auto 6).
  assert (Hi : integral 1 (fun p => F 0%nat (a + h * nth 0 p 0)) (I / h)).
  { cbn [integral nth]. pose proof (is_RInt_comp_lin (F 0%nat) h a 0 1 I) as C. replace (h * 0 + a) with a in C by ring. replace (h * 1 + a) with (a + h) in C by ring.
    specialize (C HI). apply (is_RInt_scal _ _ _ (/ h)) in C. refine (int_eq _ _ _ _ _ _ C _ _).
    - intros x. unfold scal; cbn. unfold mult; cbn. replace (h * x + a) with (a + h * x) by ring. field. lra.
    - unfold scal; cbn. unfold mult; cbn. field. lra. }
  assert (Lc : length (tlist G n) = length (exponents 1 (degree 1 o))) by (unfold tlist; rewrite map_length, seq_length; unfold n; destruct Ho as [->|[->| ->]]; reflexivity).
  destruct (eval_best 1 o (fun p => F 0%nat (a + h * nth 0 p 0)) (tlist G n) (I / h) (h ^ n * M / INR (fact n)) Hr Lc Hi) as (v & Ev & Bv).
  { intros p Hp [P1 P2]. destruct p as [|t [|]]; try discriminate. inversion P1; subst. cbn in P2. cbn [nth].
    pose proof (tp_poly G o t Ho) as Ep. fold n in Ep. match goal with |- Rabs (_ - ?b) <= _ => replace b with (tp G n t) by (symmetry; exact Ep) end.
    pose proof (taylor n (h ^ n * M) G 1 t HG ltac:(lra)) as E. unfold G at 1 in E. cbn [pow] in E. rewrite Rmult_1_l in E.
    eapply Rle_trans; [exact E|]. destruct HG as [_ Bg]. specialize (Bg 0 ltac:(lra)). pose proof (Rabs_pos (G n 0)).
    assert (0 <= h ^ n * M / INR (fact n)) by (apply Rmult_le_pos; [lra|left; apply Rinv_0_lt_compat, INR_fact_lt_0]).
    rewrite <- (Rmult_1_r (h ^ n * M / INR (fact n))) at 2. apply Rmult_le_compat_l; auto. rewrite <- (pow1 n). apply pow_incr. lra. }
  exists v. split; [exact Ev|]. replace (h * v - I) with (h * (v - I / h)) by (field; lra). rewrite Rabs_mult, (Rabs_pos_eq h) by lra.
  apply Rmult_le_compat_l; [lra|]. eapply Rle_trans; [exact Bv|]. right. rewrite tp_total. f_equal; [field; apply INR_fact_neq_0|]. f_equal. f_equal.
  apply map_ext. intros i. unfold G. replace (a + h * 0) with a by ring. rewrite Rabs_mult, (Rabs_pos_eq (h ^ i)) by (left; now apply pow_lt). unfold Rdiv. ring.
Qed.
