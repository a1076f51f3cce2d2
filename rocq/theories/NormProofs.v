(** Facts about max_norm2, min_norm2, cond and the vector norm (used by PropNorm). *)
From Coq Require Import List Arith Bool Lia Ring Field.
From Verif Require Import Base BaseProofs Num OrdField Spec SpecProofs VectorModel VectorSpec VectorProofs VectorPropProofs MatI MatIProofs MatOps
  DetSpec DetProofs LUModel LUProofs LUSolve IterResult.
Import ListNotations.
Local Open Scope nat_scope.
Open Scope res_scope.

Section Norms.
Context {N : Num} (HO : OrdFieldLaws N).
Let HF : FieldLaws N := of_field N HO.
Add Field nfld : (fl_field N HF).
Notation le x y := (nleb x y = true).
Notation lt x y := (nltb x y = true).
Implicit Types (a : nat -> nat -> N) (f g : nat -> N).
Open Scope num_scope.

(** ** Squares *)
Lemma sqr_le_inv (x y : N) : le n0 y -> le (x * x) (y * y) -> le x y.
Proof.
  intros Hy H. destruct (nleb x y) eqn:E; auto. exfalso. apply (onle_lt HO) in E.
  assert (Hx : lt n0 x) by (eapply (ole_lt_trans HO); eauto).
  apply (olt_irrefl HO (x * x)). eapply (ole_lt_trans HO); [exact H|].
  eapply (ole_lt_trans HO) with (y := y * x).
  - apply (ole_mul_l HO); auto. now apply (olt_le HO).
  - replace (y * x) with (x * y) by ring. apply (olt_mul_l HO); auto.
Qed.
Lemma sqr_le (x y : N) : le n0 x -> le x y -> le (x * x) (y * y).
Proof.
  intros Hx H. eapply (ole_trans HO) with (y := x * y); [now apply (ole_mul_l HO)|].
  replace (x * y) with (y * x) by ring. apply (ole_mul_l HO); auto. eapply (ole_trans HO); eauto.
Qed.
Lemma abs_sqr (x : N) : nabs x * nabs x = x * x.
Proof. rewrite <- (oabs_mul HO). apply (of_abs_pos N HO). apply (ole_0_sqr HO). Qed.
Lemma abs_le_sqr (x y : N) : le n0 y -> le (x * x) (y * y) -> le (nabs x) y.
Proof. intros Hy H. apply sqr_le_inv; auto. now rewrite abs_sqr. Qed.

Definition ssq (n : nat) f : N := bigsum n (fun i => f i * f i).
Lemma ssq_nonneg n f : le n0 (ssq n f).
Proof. apply (bigsum_nonneg HO). intros. apply (ole_0_sqr HO). Qed.

Lemma cauchy_schwarz n f g : let c := bigsum n (fun i => f i * g i) in le (c * c) (ssq n f * ssq n g).
Proof.
  cbn zeta. induction n as [|n IH]; unfold ssq in *; cbn [bigsum]; [apply (ole_refl HO)|].
  set (C := bigsum n (fun i => f i * g i)) in *. set (A := bigsum n (fun i => f i * f i)) in *.
  set (B := bigsum n (fun i => g i * g i)) in *. set (u := f n) in *. set (v := g n) in *.
  assert (HA : le n0 A) by apply (ssq_nonneg n f). assert (HB : le n0 B) by apply (ssq_nonneg n g).
  assert (K : le ((C * (u * v) + C * (u * v))) (A * (v * v) + B * (u * u))).
  { apply sqr_le_inv.
    - apply (ole_0_add HO); apply (ole_0_mul HO); auto; apply (ole_0_sqr HO).
    - set (p := A * (v * v)). set (q := B * (u * u)).
      eapply (ole_trans HO) with (y := (p * q + p * q) + (p * q + p * q)).
      + assert (H1 : le (C * C * ((u * v) * (u * v))) (p * q)).
        { unfold p, q. replace (A * (v * v) * (B * (u * u))) with ((u * v) * (u * v) * (A * B)) by ring.
          replace (C * C * (u * v * (u * v))) with ((u * v) * (u * v) * (C * C)) by ring.
          apply (ole_mul_l HO); auto. apply (ole_0_sqr HO). }
        replace ((C * (u * v) + C * (u * v)) * (C * (u * v) + C * (u * v))) with
          ((C * C * ((u * v) * (u * v)) + C * C * ((u * v) * (u * v))) + (C * C * ((u * v) * (u * v)) + C * C * ((u * v) * (u * v)))) by ring.
        apply (ole_add HO); apply (ole_add HO); auto.
      + apply (proj2 (ole_sub HO _ _)). replace ((p + q) * (p + q) - (p * q + p * q + (p * q + p * q))) with ((p - q) * (p - q)) by ring.
        apply (ole_0_sqr HO). }
  apply (proj2 (ole_sub HO _ _)).
  replace ((A + u * u) * (B + v * v) - (C + u * v) * (C + u * v)) with
    ((A * B - C * C) + ((A * (v * v) + B * (u * u)) - (C * (u * v) + C * (u * v)))) by ring.
  apply (ole_0_add HO); apply (proj1 (ole_sub HO _ _)); assumption.
Qed.

(** ** Roots *)
Section Roots.
Context (HS : SqrtLaws N).
Lemma sqrt_le (x y : N) : le n0 x -> le x y -> le (nsqrt x) (nsqrt y).
Proof.
  intros Hx H. assert (Hy : le n0 y) by (eapply (ole_trans HO); eauto).
  apply sqr_le_inv; [now apply (sq_nonneg N HS)|]. now rewrite !(sq_sqr N HS).
Qed.
Lemma sqrt_unique (x y : N) : le n0 y -> y * y = x -> nsqrt x = y.
Proof.
  intros Hy E. assert (Hx : le n0 x) by (subst x; apply (ole_0_sqr HO)).
  apply (nonneg_sqr_inj HO); auto; [now apply (sq_nonneg N HS)|]. rewrite (sq_sqr N HS); auto.
Qed.
Lemma sqrt_0 : nsqrt (@n0 N) = n0.
Proof. apply sqrt_unique; [apply (ole_refl HO)|ring]. Qed.
Lemma sqrt_0_inv (x : N) : le n0 x -> nsqrt x = n0 -> x = n0.
Proof. intros Hx E. rewrite <- (sq_sqr N HS x), E by auto. ring. Qed.

Definition nrm n f : N := nsqrt (ssq n f).
Lemma nrm_nonneg n f : le n0 (nrm n f).
Proof. apply (sq_nonneg N HS). apply ssq_nonneg. Qed.
Lemma nrm_sqr n f : nrm n f * nrm n f = ssq n f.
Proof. apply (sq_sqr N HS). apply ssq_nonneg. Qed.
Lemma nrm_mono n f g : (forall i, (i < n)%nat -> le n0 (f i)) -> (forall i, (i < n)%nat -> le (f i) (g i)) -> le (nrm n f) (nrm n g).
Proof. intros H0 H. apply sqrt_le; [apply ssq_nonneg|]. apply (bigsum_le HO). intros i Hi. apply sqr_le; auto. Qed.
Lemma dot_le_nrm n f g : le (nabs (bigsum n (fun i => f i * g i))) (nrm n f * nrm n g).
Proof.
  apply abs_le_sqr; [apply (ole_0_mul HO); apply nrm_nonneg|].
  replace (nrm n f * nrm n g * (nrm n f * nrm n g)) with ((nrm n f * nrm n f) * (nrm n g * nrm n g)) by ring.
  rewrite !nrm_sqr. apply cauchy_schwarz.
Qed.
Lemma nrm_add n f g : le (nrm n (fun i => f i + g i)) (nrm n f + nrm n g).
Proof.
  apply sqr_le_inv; [apply (ole_0_add HO); apply nrm_nonneg|]. rewrite nrm_sqr. unfold ssq.
  rewrite (bigsum_ext n _ (fun i => (f i * f i + g i * g i) + (f i * g i + f i * g i))) by (intros; ring).
  rewrite !(bigsum_plus HF). fold (ssq n f) (ssq n g).
  replace ((nrm n f + nrm n g) * (nrm n f + nrm n g)) with ((nrm n f * nrm n f + nrm n g * nrm n g) + (nrm n f * nrm n g + nrm n f * nrm n g)) by ring.
  rewrite !nrm_sqr. apply (ole_add HO); [apply (ole_refl HO)|].
  assert (H : le (bigsum n (fun i => f i * g i)) (nrm n f * nrm n g)) by (eapply (ole_trans HO); [apply (oabs_le HO)|apply dot_le_nrm]).
  now apply (ole_add HO).
Qed.
Lemma nrm_scale n c f : le n0 c -> nrm n (fun i => c * f i) = c * nrm n f.
Proof.
  intros Hc. apply sqrt_unique; [apply (ole_0_mul HO); auto; apply nrm_nonneg|].
  replace (c * nrm n f * (c * nrm n f)) with (c * c * (nrm n f * nrm n f)) by ring. rewrite nrm_sqr. unfold ssq.
  rewrite <- (bigsum_mul_l HF). apply bigsum_ext. intros. ring.
Qed.
Lemma nrm_ext n f g : (forall i, (i < n)%nat -> f i = g i) -> nrm n f = nrm n g.
Proof. intros H. unfold nrm, ssq. f_equal. apply bigsum_ext. intros i Hi. now rewrite H. Qed.
Lemma nrm_term n f i : (i < n)%nat -> le (nabs (f i)) (nrm n f).
Proof.
  intros Hi. apply abs_le_sqr; [apply nrm_nonneg|]. rewrite nrm_sqr. unfold ssq.
  assert (G : forall m, (i < m)%nat -> le (f i * f i) (bigsum m (fun k => f k * f k))).
  { induction m as [|m IH]; intros Hm; [lia|]. cbn [bigsum]. destruct (Nat.eq_dec i m) as [->|E].
    - replace (f m * f m) with (n0 + f m * f m) at 1 by ring. apply (ole_add HO); [apply ssq_nonneg|apply (ole_refl HO)].
    - replace (f i * f i) with (f i * f i + n0) by ring. apply (ole_add HO); [apply IH; lia|apply (ole_0_sqr HO)]. }
  now apply G.
Qed.
End Roots.

(** ** The row loops *)
Lemma fold_max (l : list (nat * N)) (s0 : N) : let r := fold_left (fun s (e : nat * N) => if nltb s (nabs (snd e)) then nabs (snd e) else s) l s0 in
  le s0 r /\ (forall e, In e l -> le (nabs (snd e)) r) /\ (r = s0 \/ exists e, In e l /\ r = nabs (snd e)).
Proof.
  cbn zeta. revert s0. induction l as [|e l IH]; intros s0; cbn [fold_left].
  - split; [apply (ole_refl HO)|]. split; [intros e []|now left].
  - set (s1 := if nltb s0 (nabs (snd e)) then nabs (snd e) else s0).
    assert (H1 : le s0 s1 /\ le (nabs (snd e)) s1).
    { unfold s1. destruct (nltb s0 (nabs (snd e))) eqn:E; split; try apply (ole_refl HO).
      - now apply (olt_le HO).
      - now apply (onlt_le HO). }
    destruct (IH s1) as (G1 & G2 & G3). split; [eapply (ole_trans HO); [apply H1|exact G1]|]. split.
    + intros e' [<-|He]; auto. eapply (ole_trans HO); [apply H1|exact G1].
    + destruct G3 as [G3|[e' [He G3]]].
      * rewrite G3. unfold s1. destruct (nltb s0 (nabs (snd e))); [right; exists e; cbn; auto|now left].
      * right. exists e'. split; auto. now right.
Qed.
Lemma fold_min (l : list (nat * N)) (s0 : N) : let r := fold_left (fun s (e : nat * N) => if nltb (nabs (snd e)) s then nabs (snd e) else s) l s0 in
  le r s0 /\ (forall e, In e l -> le r (nabs (snd e))) /\ (r = s0 \/ exists e, In e l /\ r = nabs (snd e)).
Proof.
  cbn zeta. revert s0. induction l as [|e l IH]; intros s0; cbn [fold_left].
  - split; [apply (ole_refl HO)|]. split; [intros e []|now left].
  - set (s1 := if nltb (nabs (snd e)) s0 then nabs (snd e) else s0).
    assert (H1 : le s1 s0 /\ le s1 (nabs (snd e))).
    { unfold s1. destruct (nltb (nabs (snd e)) s0) eqn:E; split; try apply (ole_refl HO).
      - now apply (olt_le HO).
      - now apply (onlt_le HO). }
    destruct (IH s1) as (G1 & G2 & G3). split; [eapply (ole_trans HO); [exact G1|apply H1]|]. split.
    + intros e' [<-|He]; auto. eapply (ole_trans HO); [exact G1|apply H1].
    + destruct G3 as [G3|[e' [He G3]]].
      * rewrite G3. unfold s1. destruct (nltb (nabs (snd e)) s0); [right; exists e; cbn; auto|now left].
      * right. exists e'. split; auto. now right.
Qed.

Lemma for_sum (body : nat -> N -> res N) n f : (forall i v, (i < n)%nat -> body i v = Ok (v + f i)) -> for_ 0 n body n0 = Ok (bigsum n f).
Proof.
  intros H. unfold for_. rewrite Nat.sub_0_r. rewrite (acc_loop _ (fun i s => (s + f i)%num)); [now rewrite fold_bigsum|].
  intros i s Hi. apply H. lia.
Qed.
(** the value of a row loop, row by row *)
Lemma norm2_rows {M : RowMat N} (sel : N -> N -> bool) (init : N) (m : M) d1 d2 a f : holds m d1 d2 a ->
  (forall i, (i < d1)%nat -> row_fold sel init m i = Ok (f i)) -> norm2_of sel init m = Ok (nsqrt (ssq d1 f)).
Proof.
  intros Hm H. unfold norm2_of. replace (mi_rows m) with d1 by (symmetry; apply Hm).
  rewrite (for_sum _ d1 (fun i => f i * f i)); [reflexivity|].
  intros i v Hi. rewrite H by auto. reflexivity.
Qed.
Definition row_abs a (d2 i : nat) : list N := map (fun j => nabs (a i j)) (seq 0 d2).
(** absolute values of the entries different from 0 *)
Definition row_abs_nz a (d2 i : nat) : list N := filter (fun x => negb (neqb x n0)) (row_abs a d2 i).

Lemma in_row_abs a d2 i j : (j < d2)%nat -> In (nabs (a i j)) (row_abs a d2 i).
Proof. intros H. apply (in_map (fun j => nabs (a i j))). apply in_seq. lia. Qed.

Lemma max_row {M : RowMat N} (HM : RowLaws M) (m : M) d1 d2 a i : (0 < d2)%nat -> holds m d1 d2 a -> (i < d1)%nat ->
  exists r, row_fold (fun x s => nltb s x) n0 m i = Ok r /\ largest (row_abs a d2 i) r.
Proof.
  intros Hd Hm Hi. destruct (rl_row M HM m d1 d2 a i Hm Hi) as (keep & E & K). unfold row_fold. rewrite E. cbn [bind].
  eexists. split; [reflexivity|]. set (l := map (fun j => (j, a i j)) (filter keep (seq 0 d2))).
  destruct (fold_max l n0) as (H0 & H1 & H2).
  set (r := fold_left _ l n0) in *.
  assert (Hub : forall y, In y (row_abs a d2 i) -> le y r).
  { intros y Hy. apply in_map_iff in Hy. destruct Hy as (j & <- & Hj). destruct (keep j) eqn:Ek.
    - apply (H1 (j, a i j)). apply (in_map (fun j => (j, a i j))). apply filter_In. auto.
    - apply in_seq in Hj. rewrite (K j) by (auto; lia). rewrite (oabs_0 HO). exact H0. }
  split; [|exact Hub]. destruct H2 as [H2|[e [He H2]]].
  - assert (G : nabs (a i 0%nat) = r).
    { apply (ole_antisym HO); [apply Hub; now apply in_row_abs|]. rewrite H2. apply (oabs_nonneg HO). }
    rewrite <- G. now apply in_row_abs.
  - apply in_map_iff in He. destruct He as (j & <- & Hj). apply filter_In in Hj. destruct Hj as [Hj _]. apply in_seq in Hj.
    rewrite H2. cbn [snd]. apply in_row_abs. lia.
Qed.
Lemma choose_rows (P : nat -> N -> Prop) n : (forall i, (i < n)%nat -> exists r, P i r) -> exists f, forall i, (i < n)%nat -> P i (f i).
Proof.
  induction n as [|n IH]; intros H; [exists (fun _ => n0); lia|].
  destruct IH as [f Hf]; [intros; apply H; lia|]. destruct (H n) as [r Hr]; [lia|].
  exists (fun i => if (i =? n)%nat then r else f i). intros i Hi. bcase; subst; auto. apply Hf. lia.
Qed.
Lemma max_norm_rows {M : RowMat N} (HM : RowLaws M) (m : M) d1 d2 a : (0 < d2)%nat -> holds m d1 d2 a ->
  exists f, (forall i, (i < d1)%nat -> largest (row_abs a d2 i) (f i)) /\ max_norm2 m = Ok (nsqrt (ssq d1 f)).
Proof.
  intros Hd Hm. destruct (choose_rows (fun i r => row_fold (fun x s => nltb s x) n0 m i = Ok r /\ largest (row_abs a d2 i) r) d1) as [f Hf].
  { intros i Hi. now apply (max_row HM m d1 d2 a i). }
  exists f. split; [intros i Hi; now apply Hf|]. apply (norm2_rows _ _ m d1 d2 a f Hm). intros i Hi. now apply Hf.
Qed.
Lemma largest_unique l (x y : N) : largest l x -> largest l y -> x = y.
Proof. intros [H1 H2] [H3 H4]. apply (ole_antisym HO); auto. Qed.
Lemma smallest_unique l (x y : N) : smallest l x -> smallest l y -> x = y.
Proof. intros [H1 H2] [H3 H4]. apply (ole_antisym HO); auto. Qed.
Lemma row_abs_nonneg a d2 i x : In x (row_abs a d2 i) -> le n0 x.
Proof. intros H. apply in_map_iff in H. destruct H as (j & <- & _). apply (oabs_nonneg HO). Qed.
End Norms.
