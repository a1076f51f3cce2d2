(** The conjugate gradient recurrences on tables: linear dependence, conjugacy, finite termination. *)
From Coq Require Import List Arith Bool Lia Ring Field.
From Verif Require Import Base BaseProofs Num OrdField Spec SpecProofs DetSpec DetProofs DetMult LUProofs CholProofs.
Import ListNotations.
Local Open Scope nat_scope.

(** Inner product of two vectors of length n. *)
Definition dot {N : Num} (n : nat) (f g : nat -> N) : N := bigsum n (fun i => f i * g i)%num.

Section Dep.
Context {N : Num} (HO : OrdFieldLaws N).
Let HF : FieldLaws N := of_field N HO.
Add Field depfld : (fl_field N HF).
Open Scope num_scope.

Lemma bigsum_skip p n (f : nat -> N) : (p <= n)%nat -> bigsum (S n) f = f p + bigsum n (fun k => f (skip p k)).
Proof.
  revert p. induction n as [|n IH]; intros p Hp.
  - assert (p = 0%nat) as -> by lia. simpl. ring.
  - destruct (Nat.eq_dec p (S n)) as [->|Hne].
    + change (bigsum (S (S n)) f) with (bigsum (S n) f + f (S n)).
      rewrite (bigsum_ext (S n) (fun k => f (skip (S n) k)) f); [ring|].
      intros i Hi. unfold skip. now rewrite (proj2 (Nat.ltb_lt _ _)).
    + change (bigsum (S (S n)) f) with (bigsum (S n) f + f (S n)). rewrite (IH p) by lia.
      change (bigsum (S n) (fun k => f (skip p k))) with (bigsum n (fun k => f (skip p k)) + f (skip p n)).
      replace (skip p n) with (S n); [ring|]. unfold skip. destruct (Nat.ltb_spec n p); lia.
Qed.
Lemma unskip_skip p k : unskip p (skip p k) = k.
Proof. unfold unskip, skip. destruct (Nat.ltb_spec k p); [|destruct (Nat.ltb_spec (S k) p); lia]. destruct (Nat.ltb_spec k p); lia. Qed.

Lemma nz_dec' (f : nat -> N) n : (forall i, (i < n)%nat -> f i = n0) \/ exists i, (i < n)%nat /\ f i <> n0.
Proof.
  destruct (nz_dec HF f 0 n) as [(i & Hi & H)|H]; [right; exists i; split; auto; lia|left; intros; apply H; lia].
Qed.
(** n+1 vectors with n coordinates are linearly dependent. *)
Lemma lin_dep n : forall v : nat -> nat -> N, exists c : nat -> N,
  (exists k, (k <= n)%nat /\ c k <> n0) /\ forall i, (i < n)%nat -> bigsum (S n) (fun k => c k * v k i) = n0.
Proof.
  induction n as [|n IH]; intros v.
  - exists (fun _ => n1). split; [exists 0%nat; split; auto; apply (one_neq_zero HO)|]. lia.
  - destruct (nz_dec' (fun k => v k n) (S (S n))) as [Hz|(p & Hp & Hnz)].
    + destruct (IH v) as (c & (k & Hk & Hc) & H). exists (fun k => if (k =? S n)%nat then n0 else c k).
      split; [exists k; split; [lia|]; bcase; auto; lia|].
      intros i Hi. change (bigsum (S (S n)) ?f) with (bigsum (S n) f + f (S n)). cbv beta. rewrite Nat.eqb_refl.
      destruct (Nat.eq_dec i n) as [->|Hne].
      * rewrite (bigsum_0 HF); [ring|]. intros j Hj. rewrite Hz by lia. ring.
      * rewrite (bigsum_ext (S n) _ (fun k => c k * v k i)); [rewrite H by lia; ring|].
        intros j Hj. bcase; auto; lia.
    + set (w := fun k i => v (skip p k) i - v (skip p k) n / v p n * v p i).
      destruct (IH w) as (c & (k & Hk & Hc) & H).
      exists (fun k => if (k =? p)%nat then - bigsum (S n) (fun k => c k * (v (skip p k) n / v p n)) else c (unskip p k)).
      split.
      * exists (skip p k). split; [pose proof (skip_lt p k (S n)); lia|]. pose proof (skip_ne p k). bcase; try congruence.
        now rewrite unskip_skip.
      * intros i Hi. rewrite (bigsum_skip p (S n)) by lia. cbv beta. rewrite Nat.eqb_refl.
        rewrite (bigsum_ext (S n) (fun k => _ * v (skip p k) i) (fun k => c k * w k i + c k * (v (skip p k) n / v p n) * v p i)).
        2:{ intros j Hj. pose proof (skip_ne p j). bcase; try congruence. rewrite unskip_skip. unfold w. ring. }
        rewrite (bigsum_plus HF), (bigsum_mul_r HF).
        assert (E : bigsum (S n) (fun k => c k * w k i) = n0).
        { destruct (Nat.eq_dec i n) as [->|Hne]; [|apply H; lia].
          apply (bigsum_0 HF). intros j Hj. unfold w. field. auto. }
        rewrite E. ring.
Qed.
End Dep.

Section Dot.
Context {N : Num} (HF : FieldLaws N).
Add Field dotfld : (fl_field N HF).
Open Scope num_scope.
Implicit Types f g h : nat -> N.

Lemma dot_ext n f f' g g' : (forall i, i < n -> f i = f' i)%nat -> (forall i, i < n -> g i = g' i)%nat -> dot n f g = dot n f' g'.
Proof. intros H1 H2. apply bigsum_ext. intros i Hi. now rewrite H1, H2. Qed.
Lemma dot_comm n f g : dot n f g = dot n g f.
Proof. apply bigsum_ext. intros. ring. Qed.
Lemma dot_comb_l n f h x g : dot n (fun i => f i + h i * x) g = dot n f g + x * dot n h g.
Proof. unfold dot. rewrite <- (bigsum_mul_l HF), <- (bigsum_plus HF). apply bigsum_ext. intros. ring. Qed.
Lemma dot_comb_r n f h x g : dot n g (fun i => f i + h i * x) = dot n g f + x * dot n g h.
Proof. now rewrite dot_comm, dot_comb_l, !(dot_comm n g). Qed.
Lemma dot_sub_l n f h x g : dot n (fun i => f i - h i * x) g = dot n f g - x * dot n h g.
Proof. unfold dot. rewrite <- (bigsum_mul_l HF), <- (bigsum_minus HF). apply bigsum_ext. intros. ring. Qed.
Lemma dot_sub_r n f h x g : dot n g (fun i => f i - h i * x) = dot n g f - x * dot n g h.
Proof. now rewrite dot_comm, dot_sub_l, !(dot_comm n g). Qed.
Lemma mulvec_comb n a f h x i : mulvec n a (fun i => f i + h i * x) i = mulvec n a f i + mulvec n a h i * x.
Proof. unfold mulvec. rewrite <- (bigsum_mul_r HF), <- (bigsum_plus HF). apply bigsum_ext. intros. ring. Qed.
Lemma mulvec_dot n a f i : mulvec n a f i = dot n (a i) f.
Proof. reflexivity. Qed.
Lemma mulvec_sym n a f g : symmetric2 n a -> dot n (mulvec n a f) g = dot n f (mulvec n a g).
Proof.
  intros Ha. unfold dot, mulvec.
  rewrite (bigsum_ext n (fun i => bigsum n _ * g i) (fun i => bigsum n (fun j => a i j * f j * g i)))
    by (intros; now rewrite (bigsum_mul_r HF)).
  rewrite (bigsum_swap HF). apply bigsum_ext. intros i Hi. rewrite <- (bigsum_mul_l HF). apply bigsum_ext. intros j Hj.
  rewrite (Ha j i) by auto. ring.
Qed.
Lemma dot_mulvec_form n a f : dot n (mulvec n a f) f = bigsum n (fun i => bigsum n (fun j => f i * a i j * f j)).
Proof.
  apply bigsum_ext. intros i Hi. unfold mulvec. rewrite <- (bigsum_mul_r HF). apply bigsum_ext. intros. ring.
Qed.
Lemma dot_0_l n f g : (forall i, i < n -> f i = n0)%nat -> dot n f g = n0.
Proof. intros H. apply (bigsum_0 HF). intros. rewrite H by auto. ring. Qed.
End Dot.

(** The state of the iterations: x, the residual r, the direction p, and the last r.z. *)
Record cgst (N : Num) := { sx : nat -> N; sr : nat -> N; sp : nat -> N; sl : N }.
Arguments sx {N}. Arguments sr {N}. Arguments sp {N}. Arguments sl {N}.

Section Steps.
Context {N : Num}.
Variables (n : nat) (a c : nat -> nat -> N).
Open Scope num_scope.
Definition pcg_alpha (s : cgst N) : N := sl s / dot n (mulvec n a (sp s)) (sp s).
Definition pcg_step (s : cgst N) : cgst N :=
  let ak := pcg_alpha s in
  let r := fun i => sr s i - mulvec n a (sp s) i * ak in
  let l2 := dot n r (mulvec n c r) in
  {| sx := fun i => sx s i + sp s i * ak; sr := r;
     sp := fun i => mulvec n c r i + sp s i * (l2 / sl s); sl := l2 |}.
Definition pcg_start (b x0 : nat -> N) : cgst N :=
  let r := fun i => b i - mulvec n a x0 i in
  {| sx := x0; sr := r; sp := mulvec n c r; sl := dot n r (mulvec n c r) |}.
(** cg: as the code has it, the new direction is built from the previous residual. *)
Definition cg_step (s : cgst N) : cgst N :=
  let ak := pcg_alpha s in
  let r := fun i => sr s i - mulvec n a (sp s) i * ak in
  let l2 := dot n r r in
  {| sx := fun i => sx s i + sp s i * ak; sr := r;
     sp := fun i => r i + sr s i * (l2 / sl s); sl := l2 |}.
Definition cg_start (b x0 : nat -> N) : cgst N :=
  let r := fun i => b i - mulvec n a x0 i in {| sx := x0; sr := r; sp := r; sl := dot n r r |}.
End Steps.

Section Inv.
Context {N : Num} (HF : FieldLaws N).
Add Field invfld : (fl_field N HF).
Open Scope num_scope.
(** r = b - A x is maintained whatever the step length. *)
Definition resid_ok n a b (s : cgst N) : Prop := forall i, (i < n)%nat -> sr s i = b i - mulvec n a (sx s) i.
Lemma resid_pcg n a c b s : resid_ok n a b s -> resid_ok n a b (pcg_step n a c s).
Proof. intros H i Hi. cbn. rewrite (mulvec_comb HF), H by auto. ring. Qed.
Lemma resid_cg n a b s : resid_ok n a b s -> resid_ok n a b (cg_step n a s).
Proof. intros H i Hi. cbn. rewrite (mulvec_comb HF), H by auto. ring. Qed.
Lemma resid_iter_pcg n a c b x0 k : resid_ok n a b (Nat.iter k (pcg_step n a c) (pcg_start n a c b x0)).
Proof. induction k as [|k IH]; [intros i Hi; reflexivity|]. cbn [Nat.iter]. apply resid_pcg, IH. Qed.
Lemma resid_iter_cg n a b x0 k : resid_ok n a b (Nat.iter k (cg_step n a) (cg_start n a b x0)).
Proof. induction k as [|k IH]; [intros i Hi; reflexivity|]. cbn [Nat.iter]. apply resid_cg, IH. Qed.
End Inv.

Section Conj.
Context {N : Num} (HO : OrdFieldLaws N).
Let HF : FieldLaws N := of_field N HO.
Add Field conjfld : (fl_field N HF).
Open Scope num_scope.
Variables (n : nat) (a c : nat -> nat -> N) (b x0 : nat -> N).
Hypotheses (Sa : symmetric2 n a) (Pa : pos_def n a) (Sc : symmetric2 n c) (Pc : pos_def n c).
Let s k := Nat.iter k (pcg_step n a c) (pcg_start n a c b x0).
Let r k := sr (s k).
Let p k := sp (s k).
Let l k := sl (s k).
Let z k := mulvec n c (r k).
Let d k := dot n (mulvec n a (p k)) (p k).
Definition nzv (f : nat -> N) : Prop := exists i, (i < n)%nat /\ f i <> n0.

Lemma l_eq k : l k = dot n (r k) (z k).
Proof. unfold l, z, r, s. destruct k; reflexivity. Qed.
Lemma p_0 : p 0 = z 0.
Proof. reflexivity. Qed.
Lemma p_S k : p (S k) = fun i => z (S k) i + p k i * (l (S k) / l k).
Proof. reflexivity. Qed.
Lemma r_S k : r (S k) = fun i => r k i - mulvec n a (p k) i * (l k / d k).
Proof. reflexivity. Qed.

Lemma pos_form m f : symmetric2 n m -> pos_def n m -> nzv f -> dot n f (mulvec n m f) <> n0.
Proof.
  intros Hs H Hf. rewrite <- (mulvec_sym HF) by auto. rewrite (dot_mulvec_form HF). apply not_eq_sym, (olt_ne HO). apply H, Hf.
Qed.
Lemma nz_of_dot f g : dot n f g <> n0 -> nzv g.
Proof.
  intros H. destruct (nz_dec' HO g n) as [Hz|(i & Hi & Hn)]; [|exists i; split; [lia|auto]].
  exfalso. apply H. rewrite (dot_comm HF). apply (dot_0_l HF). intros; apply Hz; lia.
Qed.

Record conj_inv (j : nat) : Prop := {
  ci_rz : forall i, (i < j)%nat -> dot n (r j) (z i) = n0;
  ci_rp : forall i, (i < j)%nat -> dot n (r j) (p i) = n0;
  ci_app : forall i, (i < j)%nat -> dot n (mulvec n a (p j)) (p i) = n0;
  ci_l : dot n (r j) (p j) = l j
}.
Lemma conj_step j : conj_inv j -> (forall i, (i <= j)%nat -> nzv (r i)) -> (forall i, (i < j)%nat -> conj_inv i) -> conj_inv (S j).
Proof.
  intros C Hnz Cprev.
  assert (Call : forall i, (i <= j)%nat -> conj_inv i).
  { intros i Hi. destruct (Nat.eq_dec i j) as [->|]; auto. apply Cprev. lia. }
  assert (Hl : forall i, (i <= j)%nat -> l i <> n0).
  { intros i Hi. rewrite l_eq. apply (pos_form c); auto. }
  assert (Hd : forall i, (i <= j)%nat -> d i <> n0).
  { intros i Hi. unfold d. rewrite (mulvec_sym HF) by auto. apply (pos_form a); auto.
    apply (nz_of_dot (r i)). rewrite (ci_l _ (Call i Hi)). auto. }
  assert (Hrp : forall i, (i < S j)%nat -> dot n (r (S j)) (p i) = n0).
  { intros i Hi. rewrite r_S, (dot_sub_l HF). destruct (Nat.eq_dec i j) as [->|Hne].
    - rewrite (ci_l _ C). fold (d j). field. apply Hd. lia.
    - rewrite (ci_rp _ C), (ci_app _ C) by lia. ring. }
  assert (Hrz : forall i, (i < S j)%nat -> dot n (r (S j)) (z i) = n0).
  { intros [|i] Hi.
    - rewrite <- p_0. apply Hrp. lia.
    - assert (E : dot n (r (S j)) (p (S i)) = n0) by (apply Hrp; lia).
      rewrite p_S, (dot_comb_r HF), (Hrp i) in E by lia.
      rewrite <- E. ring. }
  assert (Hll : dot n (r (S j)) (p (S j)) = l (S j)).
  { rewrite p_S, (dot_comb_r HF), (Hrp j), l_eq by lia. ring. }
  assert (Hap : forall i k, (i <= j)%nat -> dot n (mulvec n a (p i)) (z k) = (dot n (r i) (z k) - dot n (r (S i)) (z k)) * (d i / l i)).
  { intros i k Hi. rewrite (r_S i), (dot_sub_l HF). field. split; [apply Hl|apply Hd]; lia. }
  assert (Hzr : forall i k, dot n (r i) (z k) = dot n (r k) (z i)).
  { intros i k. unfold z. rewrite <- (mulvec_sym HF) by auto. apply (dot_comm HF). }
  split; auto.
  intros i Hi. rewrite (mulvec_sym HF), (dot_comm HF), p_S, (dot_comb_r HF), Hap by (auto; lia).
  rewrite (Hzr i (S j)), (Hrz i) by lia.
  destruct (Nat.eq_dec i j) as [->|Hne].
  - rewrite <- l_eq. fold (d j). field. apply Hl. lia.
  - rewrite (Hzr (S i) (S j)), (Hrz (S i)) by lia.
    rewrite (mulvec_sym HF), (dot_comm HF), (ci_app _ C) by (auto; lia). ring.
Qed.
Lemma conj_all j : (forall i, (i < j)%nat -> nzv (r i)) -> conj_inv j.
Proof.
  induction j as [j IH] using lt_wf_ind. intros H. destruct j as [|j].
  - split; try lia. rewrite p_0, l_eq. reflexivity.
  - apply conj_step; [apply IH; auto; lia|intros; apply H; lia|]. intros i Hi. apply IH; [lia|]. intros; apply H; lia.
Qed.

(** Some residual among the first n+1 is zero. *)
Theorem finite_termination : exists j, (j <= n)%nat /\ (forall i, (i < n)%nat -> r j i = n0) /\ forall i, (i < j)%nat -> nzv (r i).
Proof.
  assert (H : forall m, (forall i, (i < m)%nat -> nzv (r i)) \/
    exists j, (j < m)%nat /\ (forall i, (i < n)%nat -> r j i = n0) /\ forall i, (i < j)%nat -> nzv (r i)).
  { induction m as [|m [IH|(j & H1 & H2 & H3)]].
    - left. lia.
    - destruct (nz_dec' HO (r m) n) as [Hz|(i & Hi & Hn)].
      + right. exists m. split; [lia|]. split; auto.
      + left. intros k Hk. destruct (Nat.eq_dec k m) as [->|]; [exists i; split; [lia|auto]|apply IH; lia].
    - right. exists j. split; [lia|]. auto. }
  destruct (H (S n)) as [Hn|(j & H1 & H2)]; [|exists j; split; [lia|auto]].
  exfalso. destruct (lin_dep HO n r) as (w & (k & Hk & Hw) & E).
  assert (E2 : dot n (fun i => bigsum (S n) (fun k => w k * r k i)) (z k) = n0) by (now apply (dot_0_l HF)).
  unfold dot in E2.
  rewrite (bigsum_ext n _ (fun i => bigsum (S n) (fun m => w m * r m i * z k i))) in E2
    by (intros; now rewrite (bigsum_mul_r HF)).
  rewrite (bigsum_swap HF) in E2.
  rewrite (bigsum_ext (S n) _ (fun m => w m * dot n (r m) (z k))) in E2.
  2:{ intros m Hm. unfold dot. rewrite <- (bigsum_mul_l HF). apply bigsum_ext. intros. ring. }
  rewrite (bigsum_single HF (S n) k) in E2; [| lia|].
  - apply (mul_neq_0 HO (w k) (dot n (r k) (z k))); auto. apply (pos_form c); auto. apply Hn. lia.
  - intros i Hi Hne. destruct (Nat.lt_ge_cases k i).
    + rewrite (ci_rz i); [ring| |auto]. apply conj_all. intros; apply Hn; lia.
    + unfold z. rewrite <- (mulvec_sym HF), (dot_comm HF) by auto. fold (z i). rewrite (ci_rz k); [ring| |lia].
      apply conj_all. intros; apply Hn; lia.
Qed.
End Conj.
