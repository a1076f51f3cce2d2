(** Well-posedness of the finite element system, and the exactness of the element gradients. *)
From Coq Require Import List Arith Bool ZArith Field Ring Lia.
From Verif Require Import Base BaseProofs Num OrdField UtilsSpec Spec SpecProofs VectorModel MatI SimplexModel SimplexSpec MeshModel MeshSpec MeshPool MeshProofs MeshResult MeshDofSpec MeshDofResult QuadModel
  UtilsModel DetSpec ShapeProofs IterResult CholProofs LinAlg FemModel FemSpec FemProofs FemMesh FemResult FemMath FemSpd.
Import ListNotations.
Local Open Scope nat_scope.
Open Scope res_scope.

Section FemFacts.
Context {N : Num} (HO : OrdFieldLaws N) (HN : NatLaws N).
Let HF : FieldLaws N := of_field N HO.
Add Field ffcfld : (fl_field N HF).
Notation le x y := (nleb x y = true).
Notation lt x y := (nltb x y = true).

Lemma kept_0 (x : N) : kept n0 x = x.
Proof.
  unfold kept. destruct (nltb n0 (nabs x)) eqn:E; auto. symmetry. apply (oabs_0_iff HO). apply (ole_antisym HO); [|apply (oabs_nonneg HO)].
  rewrite (of_lt N HO) in E. now apply negb_false_iff in E.
Qed.
Lemma stiff_ext o (p r : nat -> nat -> N) k l : (forall i c, i < 3 -> p i c = r i c) -> stiff o p k l = stiff o r k l.
Proof.
  intros E. unfold stiff. assert (A : area2 p = area2 r) by (unfold area2; now rewrite !E by lia). rewrite A. f_equal.
  unfold rule. apply bigsum_ext. intros q _. unfold pull. rewrite A. now rewrite !E by lia.
Qed.
Lemma anchored_lift o P T (s s' : mst N) V D bd bd0 : low o -> discrete o P T s s' V D bd -> okT (length P) T -> (forall k, k < length P -> boundary_flag s k (bd0 k)) ->
  (forall k, k < length P -> anchored T bd0 k) -> forall k, k < length V -> anchored D bd k.
Proof.
  intros Ho HD HT Hb0 Ha.
  assert (Sub : forall e i, e < length T -> In i (nth e T []) -> In i (nth e D []) /\ i < length P).
  { intros e i He Hi. split.
    - destruct Ho as [-> | ->].
      + destruct (no_first _ _ _ _ _ (di_nodes _ _ _ _ _ _ _ _ HD) eq_refl) as (_ & ->). auto.
      + destruct (no_second _ _ _ _ _ (di_nodes _ _ _ _ _ _ _ _ HD) eq_refl e He) as (a & b & c & p & q & r & E1 & E2 & _). rewrite E1 in Hi. rewrite E2. cbn in *. tauto.
    - destruct (HT (nth e T [])) as (_ & _ & C); [now apply nth_In|]. auto. }
  assert (EL : length D = length T) by apply (no_count _ _ _ _ _ (di_nodes _ _ _ _ _ _ _ _ HD)).
  assert (Flag : forall k, k < length P -> bd0 k = bd k).
  { intros k Hk. pose proof (Hb0 k Hk) as A. pose proof (di_flags _ _ _ _ _ _ _ _ HD k Hk) as B. unfold boundary_flag in *. destruct A as (v & A1 & A2), B as (v' & B1 & B2). congruence. }
  assert (Old : forall k, anchored T bd0 k -> k < length P -> anchored D bd k).
  { intros k A. induction A as [i Hi|e i j He Hi Hj A IH]; intros Hk; [apply an_flag; rewrite <- Flag; auto|].
    destruct (Sub e i He Hi) as (Si & _), (Sub e j He Hj) as (Sj & Lj). apply (an_step D bd e i j); auto; try lia. }
  intros k Hk. destruct (Nat.lt_ge_cases k (length P)) as [L|L]; [auto|].
  destruct (di_used _ _ _ _ _ _ _ _ HD k (conj L Hk)) as (e & He & Hin). rewrite EL in He.
  destruct (HT (nth e T [])) as (A & _ & C); [now apply nth_In|]. destruct (nth e T []) as [|a t] eqn:Et; [cbn in A; lia|].
  assert (Ia : In a (nth e T [])) by (rewrite Et; cbn; auto). destruct (Sub e a He Ia) as (Sa & La).
  apply (an_step D bd e k a); auto; lia.
Qed.
Lemma pd_inj n (a : nat -> nat -> N) : pos_def n a -> forall x, (forall i, i < n -> mulvec n a x i = n0) -> forall j, j < n -> x j = n0.
Proof.
  intros Hp x Hx j Hj. destruct (neq_dec HO (x j) n0) as [E|Nz]; [exact E|exfalso].
  pose proof (Hp x (ex_intro _ j (conj Hj Nz))) as P. rewrite (bigsum_ext n _ (fun _ => n0)) in P.
  - rewrite (bigsum_0 HF) in P by auto. exact (olt_irrefl HO _ P).
  - intros i Hi. cbv beta. rewrite (bigsum_ext n _ (fun t => x i * (a i t * x t))%num) by (intros; ring). rewrite (bigsum_mul_l HF). fold (mulvec n a x i). rewrite Hx by auto. ring.
Qed.
Theorem system_unique drop o f g (ops : list (mop N)) s0 s bd0 : low o -> valid 0 ops -> ready ops s0 -> m_prepare s0 = Ok s -> tris ops <> [] ->
  (forall e, e < length (tris ops) -> proper (corner (points ops) (tris ops) e)) ->
  (forall e k l, e < length (tris ops) -> k < 3 * o -> l < 3 * o ->
    kept drop (stiff o (corner (points ops) (tris ops) e) k l) = stiff o (corner (points ops) (tris ops) e) k l) ->
  (forall k, k < length (points ops) -> boundary_flag s k (bd0 k)) -> (forall k, k < length (points ops) -> anchored (tris ops) bd0 k) ->
  returns (fem_system drop o f g s) (fun r => exists V D bd a b, discrete o (points ops) (tris ops) s (fst r) V D bd /\
    let n := length V in holds (fst (snd r)) n n a /\ reads (snd (snd r)) n b /\ symmetric2 n a /\ pos_def n a /\
    (forall x, (forall i, i < n -> mulvec n a x i = b i) <->
      (forall i, i < n -> bd i = true -> x i = g (nth i V [])) /\
      (forall i, i < n -> bd i = false -> mulvec n (fem_a drop o V D) x i = fem_b drop o f V D i)) /\
    (exists x, forall i, i < n -> mulvec n a x i = b i) /\
    (forall x y, (forall i, i < n -> mulvec n a x i = b i) -> (forall i, i < n -> mulvec n a y i = b i) -> forall i, i < n -> x i = y i)).
Proof.
  intros Ho Hv R Hp Hne Hpr Hk Hb0 Ha. pose proof (ready_connected HO ops s0 Hv R) as (HT & _).
  assert (HLT : 0 < length (tris ops)) by (destruct (tris ops); cbn; [congruence|lia]).
  assert (HPn : points ops <> []).
  { intros E. destruct (tris ops) as [|t l] eqn:Et; [congruence|]. destruct (HT t (or_introl eq_refl)) as (A & _ & C). rewrite E in C. destruct t as [|a t]; [cbn in A; lia|]. specialize (C a (or_introl eq_refl)). cbn in C. lia. }
  eapply returns_mono; [apply (system_ok HO HN drop o f g ops s0 s Ho Hv R Hp HPn Hpr)|]. intros r (V & D & bd & HD & HA & HB).
  assert (EL : length D = length (tris ops)) by apply (no_count _ _ _ _ _ (di_nodes _ _ _ _ _ _ _ _ HD)).
  assert (EC : forall e i c, e < length D -> i < 3 -> corner V D e i c = corner (points ops) (tris ops) e i c) by (intros; apply (di_corner _ _ _ _ _ _ _ _ HD); [rewrite <- EL|]; auto).
  assert (P3 : forall e, e < length D -> area2 (corner V D e) <> n0).
  { intros e He. assert (X : proper (corner V D e)) by (eapply proper_ext; [|apply (Hpr e); lia]; intros; symmetry; now apply EC). apply X. }
  assert (P4 : forall e k l, e < length D -> k < 3 * o -> l < 3 * o -> kept drop (stiff o (corner V D e) k l) = stiff o (corner V D e) k l).
  { intros e k l He H1 H2. rewrite (stiff_ext o _ (corner (points ops) (tris ops) e)) by (intros; now apply EC). apply Hk; auto. lia. }
  assert (P5 := anchored_lift o _ _ s (fst r) V D bd bd0 Ho HD HT Hb0 Ha).
  assert (Hm := mid_pos HO drop o V D Ho (di_len _ _ _ _ _ _ _ _ HD) (di_in _ _ _ _ _ _ _ _ HD) P3 P4 HN ltac:(lia)).
  assert (Hs := spd HO drop o V D Ho (di_len _ _ _ _ _ _ _ _ HD) (di_in _ _ _ _ _ _ _ _ HD) P3 P4 HN bd ltac:(lia) P5).
  exists V, D, bd. do 2 eexists. split; [exact HD|]. cbn zeta. split; [exact HA|]. split; [exact HB|].
  split; [apply fixed_sym; intros i j _ _; apply (fem_a_sym HO)|]. split; [exact Hs|]. split.
  - intros x. rewrite (fixed_solves HO) by (apply (pos_nz HO), Hm). reflexivity.
  - split; [apply (injective_solvable HF); now apply pd_inj|].
    intros x y Hx Hy i Hi. assert (Z : (x i - y i)%num = n0).
    { apply (pd_inj _ _ Hs (fun i => x i - y i)%num); auto. intros j Hj. unfold mulvec in *.
      rewrite (bigsum_ext _ _ (fun k => fixed_a bd (avg_diag (length V) (fem_a drop o V D)) (fem_a drop o V D) j k * x k - fixed_a bd (avg_diag (length V) (fem_a drop o V D)) (fem_a drop o V D) j k * y k)%num) by (intros; ring).
      rewrite (bigsum_minus HF), Hx, Hy by auto. ring. }
    replace (x i) with (x i - y i + y i)%num by ring. rewrite Z. ring.
Qed.

(** *** The gradients *)
(** pullT is the gradient: the combination of the hat functions with the values of an affine function has its slope. *)
Lemma pullT_affine (p : nat -> nat -> N) (c0 c1 c2 : N) c : area2 p <> n0 -> c < 2 ->
  bigsum 3 (fun k => (c0 + c1 * p k 0%nat + c2 * p k 1%nat) * pullT p (fun c => dbary k c) c)%num = match c with 0 => c1 | _ => c2 end.
Proof.
  intros Ha Hc. unfold area2 in Ha. cbn [bigsum]. destruct c as [|[|c]]; [| |lia]; unfold pullT, area2; cbn [dbary]; field; exact Ha.
Qed.
Lemma normal_same (p : nat -> nat -> N) (v u : nat -> N) : area2 p <> n0 -> normal_map p ->
  (pull p v 0 * pull p u 0 + pull p v 1 * pull p u 1 = pullT p v 0 * pullT p u 0 + pullT p v 1 * pullT p u 1)%num.
Proof.
  intros Ha (E1 & E2). unfold pull, pullT.
  generalize dependent (area2 p). intros D Ha. 
  set (a := (p 1 0 - p 0 0)%num) in *. set (b := (p 2 0 - p 0 0)%num) in *. set (c := (p 1 1 - p 0 1)%num) in *. set (d := (p 2 1 - p 0 1)%num) in *.
  transitivity (((d * d + c * c) * (v 0%nat * u 0%nat) - (a * c + b * d) * (v 0%nat * u 1%nat + v 1%nat * u 0%nat) + (a * a + b * b) * (v 1%nat * u 1%nat)) / (D * D))%num; [field; auto|].
  rewrite E2, E1. transitivity (((d * d + c * c) * (v 0%nat * u 0%nat) - (a * b + c * d) * (v 0%nat * u 1%nat + v 1%nat * u 0%nat) + (a * a + b * b) * (v 1%nat * u 1%nat)) / (D * D))%num; [rewrite <- E1; field; auto|].
  rewrite <- E1 at 1. rewrite E1 at 1. transitivity (((d * d + b * b) * (v 0%nat * u 0%nat) - (a * b + c * d) * (v 0%nat * u 1%nat + v 1%nat * u 0%nat) + (a * a + c * c) * (v 1%nat * u 1%nat)) / (D * D))%num; [rewrite E1; reflexivity|].
  field; auto.
Qed.
Lemma normal_exact o (p : nat -> nat -> N) k l : area2 p <> n0 -> normal_map p -> stiff o p k l = stiff_exact o p k l.
Proof. intros Ha Hn. unfold stiff, stiff_exact. f_equal. unfold rule. apply bigsum_ext. intros q _. f_equal. now apply normal_same. Qed.
Lemma exact_normal (p : nat -> nat -> N) : area2 p <> n0 -> (forall k l, k < 3 -> l < 3 -> stiff 1 p k l = stiff_exact 1 p k l) -> normal_map p.
Proof.
  intros Ha H. pose proof (H 1 1 ltac:(lia) ltac:(lia)) as E1. pose proof (H 1 2 ltac:(lia) ltac:(lia)) as E2. clear H.
  unfold stiff, stiff_exact in E1, E2. rewrite !(rule1_is HO) in E1, E2. unfold pull, pullT in E1, E2. cbn [dshape dbary] in E1, E2. unfold normal_map. cbn zeta.
  assert (Hw : (dec 333333333333333 15 / (n1 + n1) : N)%num <> n0) by (apply (pos_nz HO), (half_pos HO), (dec_pos HO)).
  assert (Hb : nabs (area2 p) <> n0) by (intros E; exact (Ha (proj1 (oabs_0_iff HO _) E))).
  assert (H3 : (n1 + n1 + n1 : N)%num <> n0) by (apply (pos_nz HO); apply (olt_0_add HO); [apply (two_pos HO)|apply (olt_le HO), (olt_0_1 HO)]).
  revert Ha Hw Hb E1 E2. generalize (dec 333333333333333 15 / (n1 + n1) : N)%num (nabs (area2 p)). generalize (area2 p). intros D w' m Ha Hw Hb.
  set (a := (p 1 0 - p 0 0)%num) in *. set (b := (p 2 0 - p 0 0)%num) in *. set (c := (p 1 1 - p 0 1)%num) in *. set (d := (p 2 1 - p 0 1)%num) in *.
  set (K := (m * w' * (n1 + n1 + n1) / (D * D))%num). assert (HK : K <> n0).
  { unfold K. clear - HF Ha Hw Hb H3. revert H3. generalize (n1 + n1 + n1 : N)%num. intros t H3 E. apply Hb.
    replace m with (m * w' * t / (D * D) * (D * D) / (w' * t))%num by (field; auto). rewrite E. field. auto. }
  assert (Can : forall x y, (K * x = K * y)%num -> x = y) by (intros x y E; replace x with (K * x / K)%num by (field; auto); rewrite E; field; auto).
  intros E1 E2. split.
  - assert (E : (K * (d * d + c * c) = K * (d * d + b * b))%num).
    { transitivity (m * (w' * ((d * n1 - b * n0) / D * ((d * n1 - b * n0) / D) + (a * n0 - c * n1) / D * ((a * n0 - c * n1) / D) + ((d * n1 - b * n0) / D * ((d * n1 - b * n0) / D) + (a * n0 - c * n1) / D * ((a * n0 - c * n1) / D)) + ((d * n1 - b * n0) / D * ((d * n1 - b * n0) / D) + (a * n0 - c * n1) / D * ((a * n0 - c * n1) / D)))))%num;
        [unfold K; field; auto|]. rewrite E1. unfold K. field. auto. }
    apply Can in E. replace (b * b)%num with (d * d + b * b - d * d)%num by ring. rewrite <- E. ring.
  - assert (E : (K * - (a * c + b * d) = K * - (a * b + c * d))%num).
    { transitivity (m * (w' * ((d * n1 - b * n0) / D * ((d * n0 - b * n1) / D) + (a * n0 - c * n1) / D * ((a * n1 - c * n0) / D) + ((d * n1 - b * n0) / D * ((d * n0 - b * n1) / D) + (a * n0 - c * n1) / D * ((a * n1 - c * n0) / D)) + ((d * n1 - b * n0) / D * ((d * n0 - b * n1) / D) + (a * n0 - c * n1) / D * ((a * n1 - c * n0) / D)))))%num;
        [unfold K; field; auto|]. rewrite E2. unfold K. field. auto. }
    apply Can in E. replace (a * c + b * d)%num with (- - (a * c + b * d))%num by ring. rewrite E. ring.
Qed.
End FemFacts.
