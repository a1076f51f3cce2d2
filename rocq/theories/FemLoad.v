(** The finite element example on the generated grid with square cells, order 1, for every source: the load of an interior node is
    the mean of the source over the midpoints of the six edges that meet there. *)
From Coq Require Import List Arith Bool ZArith Lia Ring Field.
From Verif Require Import Base BaseProofs Num OrdField UtilsModel UtilsSpec Spec SpecProofs VectorModel MatI SimplexModel SimplexSpec SimplexProofs SimplexResult
  MeshModel MeshSpec MeshPool MeshProofs MeshResult MeshHandle MeshHandleProofs MeshValid MeshDofSpec MeshDof MeshDofResult HyperSpec HyperProofs HyperGrid HyperGeo ShapeProofs
  QuadModel DetSpec CholProofs IterResult LUModel FemModel FemSpec FemProofs FemAssemble FemMesh FemResult FemMath FemSpd FemHyper GridMax SorConv.
Import ListNotations.
Local Open Scope nat_scope.

Section FemLoad.
Context {N : Num} (HO : OrdFieldLaws N) (HN : NatLaws N).
Let HF : FieldLaws N := of_field N HO.
Add Field flofld : (fl_field N HF).
Notation le x y := (nleb x y = true).
Notation lt x y := (nltb x y = true).
Let two_nz := two_nz' HO.
(** the edge midpoints of a triangle *)
Definition mid_of (p : nat -> nat -> N) (k l : nat) : list N := map (fun c => (p k c + p l c) / (n1 + n1))%num [0; 1].
Lemma half_is : (@dec N 5 1 = n1 / (n1 + n1))%num.
Proof.
  unfold dec. rewrite (ten_is HO). change (p10 1) with 10%positive. 
  assert (E : (@nofpos N 10 = nofpos 5 * (n1 + n1))%num) by (cbn; ring). rewrite E. assert (@nofpos N 5 <> n0) by apply (pos_nz HO), (nofpos_pos HO). field. auto.
Qed.
Lemma load_mids f (p : nat -> nat -> N) k : k < 3 ->
  loadv 1 f p k = (nabs (area2 p) * (dec 333333333333333 15 / (n1 + n1)) * ((f (mid_of p k ((k + 1) mod 3)) + f (mid_of p k ((k + 2) mod 3))) / (n1 + n1)))%num.
Proof.
  intros Hk. unfold loadv. rewrite (rule1_is HO). rewrite half_is. cbn [shape].
  assert (P : forall l m x y, (forall c, p 0 c + x * (p 1 c - p 0 c) + y * (p 2 c - p 0 c) = (p l c + p m c) / (n1 + n1))%num -> place p x y = mid_of p l m).
  { intros l m x y H. unfold place, mid_of. apply map_ext. exact H. }
  generalize (@dec N 333333333333333 15). intros d.
  destruct k as [|[|[|]]]; [| | |lia]; cbn [bary Nat.add Nat.modulo Nat.divmod fst snd Nat.sub].
  - rewrite (P 0 2 n0), (P 0 1 (n1 / (n1 + n1))%num n0) by (intros c; field; auto). field. auto.
  - rewrite (P 1 0 (n1 / (n1 + n1))%num n0), (P 1 2 (n1 / (n1 + n1))%num (n1 / (n1 + n1))%num) by (intros c; field; auto). field. auto.
  - rewrite (P 2 0 n0), (P 2 1 (n1 / (n1 + n1))%num (n1 / (n1 + n1))%num) by (intros c; field; auto). field. auto.
Qed.
Section Grid.
Variables (e0 e1 : nat) (h ox oy : N).
Hypothesis H0 : 1 <= e0.
Hypothesis H1 : 1 <= e1.
Hypothesis Hh : h <> n0.
Notation w := (e1 + 1).
Notation V := (map (gpos e1 h h ox oy) (seq 0 ((e0 + 1) * w))).
Notation T := (map (gtri e1) (seq 0 (2 * (e0 * e1)))).
Lemma asm_interior (v : nat -> nat -> N) r c : 1 <= r < e0 -> 1 <= c < e1 -> assembledv T 3 v (r * w + c) =
  (v (gel e1 r c Upper) 0 + v (gel e1 r c Lower) 0 + v (gel e1 (r - 1) c Upper) 1 + v (gel e1 (r - 1) (c - 1) Upper) 2 + v (gel e1 (r - 1) (c - 1) Lower) 1 + v (gel e1 r (c - 1) Lower) 2)%num.
Proof.
  intros Hr Hc. unfold assembledv. rewrite gT_length, (bigsum_cells HO).
  transitivity (bigsum e0 (fun i => bigsum e1 (fun j =>
    (if (i =? r) && (j =? c) then v (gel e1 i j Upper) 0 + v (gel e1 i j Lower) 0 else n0) + (if (i =? r - 1) && (j =? c) then v (gel e1 i j Upper) 1 else n0) +
    (if (i =? r - 1) && (j =? c - 1) then v (gel e1 i j Upper) 2 + v (gel e1 i j Lower) 1 else n0) + (if (i =? r) && (j =? c - 1) then v (gel e1 i j Lower) 2 else n0))))%num.
  { apply bigsum_ext. intros i Hi. apply bigsum_ext. intros j Hj.
    transitivity (bigsum 3 (fun k => if nth k (gvs e1 (i * w + j) Upper) 0 =? r * w + c then v (gel e1 i j Upper) k else n0) + bigsum 3 (fun k => if nth k (gvs e1 (i * w + j) Lower) 0 =? r * w + c then v (gel e1 i j Lower) k else n0))%num.
    { f_equal; apply bigsum_ext; intros k Hk3; rewrite (node_gel e0 e1) by auto; reflexivity. }
    cbn [bigsum gvs nth].
    replace (i * w + j + w + 1) with ((i + 1) * w + (j + 1)) by lia. replace (i * w + j + w) with ((i + 1) * w + j) by lia. replace (i * w + j + 1) with (i * w + (j + 1)) by lia.
    rewrite !(at_is e1) by lia. replace (i + 1 =? r) with (i =? r - 1) by (destruct (Nat.eqb_spec i (r - 1)), (Nat.eqb_spec (i + 1) r); auto; lia).
    replace (j + 1 =? c) with (j =? c - 1) by (destruct (Nat.eqb_spec j (c - 1)), (Nat.eqb_spec (j + 1) c); auto; lia).
    destruct ((i =? r) && (j =? c)), ((i =? r - 1) && (j =? c)), ((i =? r - 1) && (j =? c - 1)), ((i =? r) && (j =? c - 1)); ring. }
  assert (SP : forall f g k m : nat -> nat -> N, (bigsum e0 (fun i => bigsum e1 (fun j => f i j + g i j + k i j + m i j)) =
     bigsum e0 (fun i => bigsum e1 (f i)) + bigsum e0 (fun i => bigsum e1 (g i)) + bigsum e0 (fun i => bigsum e1 (k i)) + bigsum e0 (fun i => bigsum e1 (m i)))%num).
  { intros f g k m. rewrite <- !(bigsum_plus HF). apply bigsum_ext. intros i _. now rewrite <- !(bigsum_plus HF). }
  rewrite SP. clear SP.
  rewrite (pick2 HO e0 e1 r c (fun i j => v (gel e1 i j Upper) 0 + v (gel e1 i j Lower) 0)%num) by lia. rewrite (pick2 HO e0 e1 (r - 1) c (fun i j => v (gel e1 i j Upper) 1)) by lia.
  rewrite (pick2 HO e0 e1 (r - 1) (c - 1) (fun i j => v (gel e1 i j Upper) 2 + v (gel e1 i j Lower) 1)%num) by lia. rewrite (pick2 HO e0 e1 r (c - 1) (fun i j => v (gel e1 i j Lower) 2)) by lia. ring.
Qed.
Lemma mid_at i j hf k l x y : i < e0 -> j < e1 -> k < 3 -> l < 3 -> ((cx h ox j hf k + cx h ox j hf l) / (n1 + n1) = x)%num -> ((cy h oy i hf k + cy h oy i hf l) / (n1 + n1) = y)%num ->
  mid_of (corner V T (gel e1 i j hf)) k l = [x; y].
Proof.
  intros Hi Hj Hk Hl <- <-. unfold mid_of. cbn [map].
  destruct (corner_at e0 e1 h h ox oy H0 H1 i j hf k Hi Hj Hk) as (-> & ->). destruct (corner_at e0 e1 h h ox oy H0 H1 i j hf l Hi Hj Hl) as (-> & ->). reflexivity.
Qed.
Lemma load_cell f i j hf k : i < e0 -> j < e1 -> k < 3 -> loadv 1 f (corner V T (gel e1 i j hf)) k =
  (h * h * (dec 333333333333333 15 / (n1 + n1)) * ((f (mid_of (corner V T (gel e1 i j hf)) k ((k + 1) mod 3)) + f (mid_of (corner V T (gel e1 i j hf)) k ((k + 2) mod 3))) / (n1 + n1)))%num.
Proof.
  intros Hi Hj Hk. rewrite load_mids by auto. rewrite (area_gel HO HN) by auto.
  replace (nabs (match hf with Upper => - (h * h) | Lower => - (h * h) end)%num) with (h * h)%num by (destruct hf; symmetry; apply (abs_hh HO)). reflexivity.
Qed.
Lemma three_nz : (n1 + n1 + n1 <> @n0 N)%num.
Proof. apply (pos_nz HO), (olt_0_add HO); [apply (olt_0_add HO); [apply (olt_0_1 HO)|apply (olt_le HO), (olt_0_1 HO)]|apply (olt_le HO), (olt_0_1 HO)]. Qed.
Lemma six_nz : ((n1 + n1) * (n1 + n1 + n1) <> @n0 N)%num.
Proof. apply (mul_neq_0 HO); auto. exact three_nz. Qed.
Lemma load_all f r c : 1 <= r < e0 -> 1 <= c < e1 -> assembledv T 3 (fun e k => loadv 1 f (corner V T e) k) (r * w + c) = ((kap + kap) * (h * h * mean6 h ox oy f r c))%num.
Proof.
  intros Hr Hc. rewrite asm_interior by auto. rewrite !load_cell by lia. cbn [Nat.add Nat.modulo Nat.divmod fst snd Nat.sub].
  unfold mean6. cbn zeta.
  destruct r as [|r]; [lia|]. destruct c as [|c]; [lia|]. replace (S r - 1) with r by lia. replace (S c - 1) with c by lia.
  set (x := (ox + h * nofnat (S c))%num). set (y := (oy + h * nofnat (S r))%num). set (d := (h / (n1 + n1))%num).
  assert (S0 : forall k, nofnat (S k) = (nofnat k + n1)%num) by apply (nl_S N HN).
  rewrite (mid_at (S r) (S c) Upper 0 1 x (y + d)%num), (mid_at (S r) (S c) Upper 0 2 (x + d)%num (y + d)%num), (mid_at (S r) (S c) Lower 0 1 (x + d)%num (y + d)%num), (mid_at (S r) (S c) Lower 0 2 (x + d)%num y),
    (mid_at r (S c) Upper 1 2 (x + d)%num y), (mid_at r (S c) Upper 1 0 x (y - d)%num), (mid_at r c Upper 2 0 (x - d)%num (y - d)%num), (mid_at r c Upper 2 1 (x - d)%num y),
    (mid_at r c Lower 1 2 x (y - d)%num), (mid_at r c Lower 1 0 (x - d)%num (y - d)%num), (mid_at (S r) c Lower 2 0 (x - d)%num y), (mid_at (S r) c Lower 2 1 x (y + d)%num)
    by (try lia; cbn [cx cy]; unfold x, y, d; rewrite ?S0; field; auto).
  unfold kap. generalize (@dec N 333333333333333 15). intros z. pose proof six_nz as S6. 
  generalize (f [(x + d)%num; y]) (f [(x - d)%num; y]) (f [x; (y + d)%num]) (f [x; (y - d)%num]) (f [(x + d)%num; (y + d)%num]) (f [(x - d)%num; (y - d)%num]). intros.
  assert (D : forall s u : N, s <> n0 -> (s * (u / s) = u)%num) by (intros; field; auto).
  match goal with |- _ = (_ * (_ * (?u / ?s)))%num => specialize (D s u S6); revert D; generalize (u / s)%num; intros Q D end.
  transitivity (z / (n1 + n1) * (h * h) * ((n1 + n1) * (n1 + n1 + n1) * Q))%num; [rewrite D; field; auto|field; auto].
Qed.
(** dropping small entries changes each of the six contributions by at most drop *)
Variable drop : N.
Hypothesis Hd0 : le n0 drop.
Hypothesis Hd : lt drop kap.
Lemma kept_close x : le (nabs (kept drop x - x)%num) drop.
Proof.
  unfold kept. destruct (nltb drop (nabs x)) eqn:E.
  - replace (x - x)%num with (@n0 N) by ring. now rewrite (oabs_0 HO).
  - replace (n0 - x)%num with (- x)%num by ring. rewrite (oabs_opp HO). destruct (nleb (nabs x) drop) eqn:L; auto. exfalso.
    assert (lt drop (nabs x)) by (apply (olt_iff HO); congruence). congruence.
Qed.
Lemma add_close (x y a b : N) : le (nabs x) a -> le (nabs y) b -> le (nabs (x + y)%num) (a + b)%num.
Proof.
  intros Hx Hy. apply (oabs_le_iff HO) in Hx as [X1 X2]. apply (oabs_le_iff HO) in Hy as [Y1 Y2]. apply (oabs_le_iff HO). split; [now apply (ole_add HO)|].
  replace (- (x + y))%num with (- x + - y)%num by ring. now apply (ole_add HO).
Qed.
Lemma load_close f r c : 1 <= r < e0 -> 1 <= c < e1 ->
  le (nabs (fem_b drop 1 f V T (r * w + c) - (kap + kap) * (h * h * mean6 h ox oy f r c))%num) (drop + drop + drop + drop + drop + drop)%num.
Proof.
  intros Hr Hc. rewrite <- load_all by auto. unfold fem_b. change (3 * 1) with 3. rewrite !asm_interior by auto.
  set (l := fun i j hf k => loadv 1 f (corner V T (gel e1 i j hf)) k).
  assert (K : forall i j hf k, le (nabs (kept drop (l i j hf k) - l i j hf k)%num) drop) by (intros; apply kept_close).
  match goal with |- le (nabs ?t) _ => replace t with ((kept drop (l r c Upper 0) - l r c Upper 0) + (kept drop (l r c Lower 0) - l r c Lower 0) + (kept drop (l (r - 1)%nat c Upper 1) - l (r - 1)%nat c Upper 1) +
    (kept drop (l (r - 1)%nat (c - 1)%nat Upper 2) - l (r - 1)%nat (c - 1)%nat Upper 2) + (kept drop (l (r - 1)%nat (c - 1)%nat Lower 1) - l (r - 1)%nat (c - 1)%nat Lower 1) + (kept drop (l r (c - 1)%nat Lower 2) - l r (c - 1)%nat Lower 2))%num end.
  - repeat apply add_close; auto.
  - unfold l. ring.
Qed.
(** *** The diagonal *)
Notation a := (fem_a drop 1 V T).
Notation n := (length V).
Lemma tab_diag hf k : le n1 (tab hf k k : N).
Proof.
  assert (A : le (@n1 N) (n1 + n1)%num) by (apply (ole_sub HO); replace (n1 + n1 - n1)%num with (@n1 N) by ring; apply (olt_le HO), (olt_0_1 HO)).
  destruct hf, k as [|[|[|]]]; cbn [tab utab ltab]; auto using (ole_refl HO).
Qed.
Lemma diag_big i : i < n -> le kap (a i i).
Proof.
  intros Hi. assert (E : a i i = mulvec n a (fun j => if j =? i then n1 else n0) i).
  { unfold mulvec. rewrite (bigsum_single HF n i) by (auto; intros j _ Hj; apply Nat.eqb_neq in Hj; rewrite Hj; ring). rewrite Nat.eqb_refl. ring. }
  rewrite E, (row_form HO HN e0 e1 h ox oy H0 H1 Hh drop Hd) by auto. clear E. rewrite map_length, seq_length in Hi.
  set (t := fun (i0 j0 : nat) (hf : half) => bigsum (N := N) 3 (fun k => if nth k (gvs e1 (i0 * w + j0) hf) 0 =? i then (kap * tab hf k k : N)%num else n0)).
  assert (E : bigsum e0 (fun i0 => bigsum e1 (fun j0 => t i0 j0 Upper + t i0 j0 Lower))%num = bigsum e0 (fun i0 => bigsum e1 (fun j0 => bigsum 3 (fun k => bigsum 3 (fun l => (if nth k (gvs e1 (i0 * w + j0) Upper) 0 =? i then n1 else n0) * (kap * utab k l) * (if nth l (gvs e1 (i0 * w + j0) Upper) 0 =? i then n1 else n0))) +
     bigsum 3 (fun k => bigsum 3 (fun l => (if nth k (gvs e1 (i0 * w + j0) Lower) 0 =? i then n1 else n0) * (kap * ltab k l) * (if nth l (gvs e1 (i0 * w + j0) Lower) 0 =? i then n1 else n0)))))%num).
  { apply bigsum_ext. intros i0 _. apply bigsum_ext. intros j0 _. unfold t. f_equal; cbn [bigsum gvs nth tab];
    (destruct (Nat.eqb_spec (i0 * w + j0) i); [repeat match goal with |- context [?x =? i] => replace (x =? i) with false by (symmetry; apply Nat.eqb_neq; lia) end; cbn [utab ltab]; ring|]);
    (destruct (Nat.eqb_spec (i0 * w + j0 + w) i) + destruct (Nat.eqb_spec (i0 * w + j0 + w + 1) i)); try (repeat match goal with |- context [?x =? i] => replace (x =? i) with false by (symmetry; apply Nat.eqb_neq; lia) end; cbn [utab ltab]; ring);
    repeat match goal with |- context [?x =? i] => destruct (Nat.eqb_spec x i); try lia end; cbn [utab ltab]; ring. }
  rewrite <- E. clear E.
  assert (Tp : forall i0 j0 hf k, le n0 (if nth k (gvs e1 (i0 * w + j0) hf) 0 =? i then (kap * tab hf k k : N)%num else n0)).
  { intros i0 j0 hf k. destruct (_ =? i); [|apply (ole_refl HO)]. apply (ole_0_mul HO); [apply (olt_le HO), (kap_pos HO)|]. eapply (ole_trans HO); [apply (olt_le HO), (olt_0_1 HO)|apply tab_diag]. }
  assert (T0 : forall i0 j0 hf, le n0 (t i0 j0 hf)) by (intros; apply (bigsum_nonneg HO); intros; apply Tp).
  assert (T1 : forall i0 j0 hf k, k < 3 -> nth k (gvs e1 (i0 * w + j0) hf) 0 = i -> le kap (t i0 j0 hf)).
  { intros i0 j0 hf k Hk Ek. eapply (ole_trans HO); [|apply (term_le_sum HO 3 _ k Hk); intros; apply Tp]. cbn beta. rewrite Ek, Nat.eqb_refl.
    replace kap with (kap * n1 : N)%num at 1 by ring. apply (ole_mul_l HO); [apply (olt_le HO), (kap_pos HO)|apply tab_diag]. }
  assert (C : exists i0 j0 hf k, i0 < e0 /\ j0 < e1 /\ k < 3 /\ nth k (gvs e1 (i0 * w + j0) hf) 0 = i).
  { pose proof (Nat.div_mod i w ltac:(lia)) as Dm. pose proof (Nat.mod_upper_bound i w ltac:(lia)) as Mb. assert (Db : i / w < e0 + 1) by (apply Nat.div_lt_upper_bound; lia).
    set (r := i / w) in *. set (c := i mod w) in *. clearbody r c.
    destruct (Nat.eq_dec r e0) as [->|Hr].
    - destruct e0 as [|e]; [lia|]. destruct (Nat.eq_dec c e1) as [->|Hc].
      + exists e, (e1 - 1), Upper, 2. cbn [gvs nth]. repeat split; try lia.
      + exists e, c, Upper, 1. cbn [gvs nth]. repeat split; try lia; rewrite Dm; nia.
    - destruct (Nat.eq_dec c e1) as [->|Hc].
      + exists r, (e1 - 1), Lower, 2. cbn [gvs nth]. repeat split; try lia; rewrite Dm; nia.
      + exists r, c, Upper, 0. cbn [gvs nth]. repeat split; try lia. }
  destruct C as (i0 & j0 & hf & k & Hi0 & Hj0 & Hk & Ek). specialize (T1 i0 j0 hf k Hk Ek).
  eapply (ole_trans HO); [|apply (term_le_sum HO e0 _ i0 Hi0)].
  2: { intros. apply (bigsum_nonneg HO). intros. apply (ole_0_add HO); apply T0. }
  eapply (ole_trans HO); [|apply (term_le_sum HO e1 _ j0 Hj0)].
  2: { intros. apply (ole_0_add HO); apply T0. }
  cbn beta. destruct hf.
  - replace kap with (kap + n0 : N)%num by ring. now apply (ole_add HO).
  - replace kap with (n0 + kap : N)%num by ring. now apply (ole_add HO).
Qed.
Lemma mid_big : le kap (avg_diag n a).
Proof.
  assert (Hn : 0 < n) by (rewrite map_length, seq_length; nia). unfold avg_diag.
  assert (Pn : lt n0 (nofnat n : N)) by (destruct n; [lia|apply (nofnat_pos HO HN)]).
  assert (S : forall m, m <= n -> le (kap * nofnat m : N)%num (bigsum m (fun i => nabs (a i i)))).
  { induction m as [|m IH]; intros Hm; [rewrite (nl_0 N HN); replace (kap * n0 : N)%num with (@n0 N) by ring; apply (ole_refl HO)|].
    rewrite (nl_S N HN). cbn [bigsum]. replace (kap * (nofnat m + n1))%num with (kap * nofnat m + kap : N)%num by ring. apply (ole_add HO); [apply IH; lia|].
    eapply (ole_trans HO); [apply (diag_big m); lia|apply (oabs_le HO)]. }
  specialize (S n (le_n _)). apply (ole_mul_l HO _ _ (n1 / nofnat n)%num) in S; [|apply (olt_le HO), (olt_0_inv HO), Pn].
  assert (Nn : nofnat n <> @n0 N) by apply (pos_nz HO), Pn.
  match type of S with nleb ?x ?y = true => replace kap with x by (field; exact Nn); match goal with |- nleb _ ?z = true => replace z with y by (field; exact Nn) end end. exact S.
Qed.
End Grid.
(** *** The residual of the system *)
Lemma fixed_residual n bd (mid : N) g a b x i : i < n ->
  (mulvec n (fixed_a bd mid a) x i - fixed_b n bd mid g a b i =
   if bd i then mid * (x i - g i) else mulvec n a (fun j => if bd j then g j else x j) i - b i)%num.
Proof.
  intros Hi. unfold fixed_b. destruct (bd i) eqn:Hb; [rewrite (fixed_row_flag HO) by auto; ring|]. rewrite (fixed_row_free HO) by auto.
  rewrite (row_split HO n bd a (fun j => if bd j then g j else x j)).
  replace (bigsum n (fun j => if bd j then n0 else a i j * (if bd j then g j else x j))%num) with (bigsum n (fun j => if bd j then n0 else a i j * x j)%num) by (apply bigsum_ext; intros j _; now destruct (bd j)).
  replace (bigsum n (fun j => if bd j then a i j * (if bd j then g j else x j) else n0)%num) with (bigsum n (fun j => if bd j then a i j * g j else n0)%num) by (apply bigsum_ext; intros j _; now destruct (bd j)).
  ring.
Qed.
Section Square.
Variables (e0 e1 : nat) (s0 s1 ox oy h drop : N).
Hypothesis H0 : 1 <= e0.
Hypothesis H1 : 1 <= e1.
Hypothesis Hx : (s0 / nofnat e0)%num = h.
Hypothesis Hy : (s1 / nofnat e1)%num = h.
Hypothesis Ht : tiny h = false.
Hypothesis Hd0 : le n0 drop.
Hypothesis Hd : lt drop kap.
Notation w := (e1 + 1).
Notation V := (hcV e0 e1 s0 s1 ox oy).
Notation T := (hcT e0 e1).
Theorem hyper_residual f g sm s : hc_generate e0 e1 [s0; s1] [ox; oy] = Ok sm -> m_prepare sm = Ok s ->
  returns (fem_system drop 1 f g s) (fun r => let n := (e0 + 1) * w in exists a b q mid,
    MatI.holds (fst (snd r)) n n a /\ reads (snd (snd r)) n b /\ symmetric2 n a /\ pos_def n a /\ le kap mid /\ (forall i, i < n -> le kap (a i i)) /\
    (forall i j, 1 <= i < e0 -> 1 <= j < e1 -> le (kap * nabs (q i j - h * h * mean6 h ox oy f i j))%num (drop + drop + drop)%num) /\
    forall x i j, i <= e0 -> j <= e1 -> let y k l := if on_frame e0 e1 k l then g (site ox oy h k l) else x (k * w + l) in
      (mulvec n a x (i * w + j)%nat - b (i * w + j)%nat =
       if on_frame e0 e1 i j then mid * (x (i * w + j)%nat - g (site ox oy h i j))
       else (kap + kap) * ((n1 + n1 + n1 + n1) * y i j - y (i - 1)%nat j - y (i + 1)%nat j - y i (j - 1)%nat - y i (j + 1)%nat - q i j))%num).
Proof.
  intros Eg Ep. destruct (hyper_connected HO HN e0 e1 s0 s1 ox oy sm H0 H1 Eg) as (Hc & Hfl).
  assert (Hnz := h_nz HO h drop Ht Hd0 Hd). assert (VI := V_is e0 e1 s0 s1 ox oy h Hx Hy).
  assert (LV : length V = (e0 + 1) * w) by (unfold hcV; now rewrite map_length, seq_length).
  assert (Hne : V <> []) by (intros E; rewrite E in LV; cbn in LV; nia).
  eapply returns_mono; [apply (system_connected HO HN drop 1 f g V T sm s (or_introl eq_refl) Hc Ep Hne (hproper HO HN e0 e1 s0 s1 ox oy h drop H0 H1 Hx Hy Ht Hd0 Hd))|].
  intros r (V' & D & bd & HD & HA & HB). cbn zeta. destruct (no_first _ _ _ _ _ (di_nodes _ _ _ _ _ _ _ _ HD) eq_refl) as (-> & ->). rewrite LV in HA, HB.
  assert (Hbd : forall k, k < length V -> (bd k = true <-> rim e0 e1 k)).
  { intros k Hk. apply (Hfl k (bd k) Hk). unfold boundary_flag. rewrite <- (prepare_hv HO _ _ _ _ Hc Ep). apply (di_flags _ _ _ _ _ _ _ _ HD k Hk). }
  assert (HL : length T <> 0) by (unfold hcT; rewrite map_length, seq_length; nia).
  set (A0 := fem_a drop 1 V T) in *. set (mid := avg_diag ((e0 + 1) * w) A0) in *.
  assert (Kn : (kap + kap)%num <> @n0 N) by (apply (pos_nz HO), (olt_0_add HO); [apply (kap_pos HO)|apply (olt_le HO), (kap_pos HO)]).
  exists (fixed_a bd mid A0), (fixed_b ((e0 + 1) * w) bd mid (fun i => g (nth i V [])) A0 (fem_b drop 1 f V T)), (fun i j => fem_b drop 1 f V T (i * w + j) / (kap + kap))%num, mid.
  split; [exact HA|]. split; [exact HB|].
  assert (P1 := hlen e0 e1 H0 H1). assert (P2 := hin e0 e1 h ox oy H0 H1). assert (P3 := harea HO HN e0 e1 h ox oy H0 H1 Hnz). assert (P4 := hkept HO HN e0 e1 h ox oy H0 H1 Hnz drop Hd).
  rewrite <- VI in P2, P3, P4. fold (hcT e0 e1) in P1, P2, P3, P4.
  assert (P5 := hanchored e0 e1 h ox oy H0 H1 bd). rewrite <- VI in P5. fold (hcT e0 e1) in P5.
  split; [apply (fixed_sym); intros i j _ _; apply (fem_a_sym HO)|]. split.
  { unfold mid, A0. rewrite <- LV. apply (spd HO drop 1 V T (or_introl eq_refl) P1 P2 P3 P4 HN bd); [lia|]. now apply P5. }
  split.
  { unfold mid, A0. rewrite <- LV, VI. apply (mid_big e0 e1 h ox oy H0 H1 Hnz drop Hd). }
  split.
  { intros i Hi. unfold fixed_a. rewrite Nat.eqb_refl, orb_diag. destruct (bd i); unfold mid, A0; rewrite <- ?LV, VI; [apply (mid_big e0 e1 h ox oy H0 H1 Hnz drop Hd)|].
    apply (diag_big e0 e1 h ox oy H0 H1 Hnz drop Hd). rewrite <- VI, LV. exact Hi. }
  split.
  { intros i j Hi Hj. pose proof (load_close e0 e1 h ox oy H0 H1 drop Hd0 f i j Hi Hj) as LC. rewrite <- VI in LC. fold (hcT e0 e1) in LC.
    set (t := fem_b drop 1 f V T (i * w + j)) in *. clearbody t. set (m := mean6 h ox oy f i j) in *.
    replace (t - (kap + kap) * (h * h * m))%num with ((kap + kap) * (t / (kap + kap) - h * h * m))%num in LC by (field; auto).
    set (d := (t / (kap + kap) - h * h * m)%num) in *. rewrite (oabs_mul HO) in LC. rewrite (of_abs_pos N HO (kap + kap)%num) in LC by (apply (ole_0_add HO); apply (olt_le HO), (kap_pos HO)).
    apply (ole_mul_l HO _ _ (n1 / (n1 + n1))%num) in LC; [|apply (olt_le HO), (olt_0_inv HO), (olt_0_add HO); [apply (olt_0_1 HO)|apply (olt_le HO), (olt_0_1 HO)]].
    match type of LC with nleb ?a ?b = true => match goal with |- nleb ?c ?e = true => replace c with a by (field; auto); replace e with b by (field; auto) end end. exact LC. }
  intros x i j Hi Hj.
  assert (Pos : forall i j, i <= e0 -> j <= e1 -> nth (i * w + j) V [] = site ox oy h i j).
  { intros k l Hk Hl. rewrite VI, gV_nth by nia. apply (gpos_at e0); auto; lia. }
  assert (Rim : forall i j, i <= e0 -> j <= e1 -> bd (i * w + j) = on_frame e0 e1 i j).
  { intros k l Hk Hl. apply eq_true_iff_eq. rewrite Hbd by (rewrite LV; nia). rewrite (rim_at e0 e1) by auto. unfold on_frame. rewrite !orb_true_iff, !Nat.eqb_eq. tauto. }
  rewrite fixed_residual by nia. rewrite Rim, Pos by auto. destruct (on_frame e0 e1 i j) eqn:Eb; auto.
  assert (In : 1 <= i < e0 /\ 1 <= j < e1).
  { unfold on_frame in Eb. repeat apply orb_false_iff in Eb as (Eb & ?). repeat match goal with H : (_ =? _) = false |- _ => apply Nat.eqb_neq in H end. lia. }
  destruct In as (Ii & Ij).
  assert (RI := row_interior HO HN e0 e1 h ox oy H0 H1 Hnz drop Hd i j (fun k => if bd k then g (nth k V []) else x k) Ii Ij). rewrite <- VI in RI. fold (hcT e0 e1) in RI. rewrite LV in RI. fold A0 in RI.
  rewrite RI. clear RI. unfold gu. rewrite !Rim, !Pos by lia. rewrite ?Eb. field. auto.
Qed.
End Square.
End FemLoad.
