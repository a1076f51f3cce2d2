(** The finite element example on the generated grid with square cells, order 1: the five point scheme. *)
From Coq Require Import List Arith Bool ZArith Lia Ring Field.
From Verif Require Import Base BaseProofs Num OrdField UtilsModel UtilsSpec Spec SpecProofs VectorModel MatI SimplexModel SimplexSpec SimplexProofs SimplexResult
  MeshModel MeshSpec MeshPool MeshProofs MeshResult MeshHandle MeshHandleProofs MeshValid MeshDofSpec MeshDof MeshDofResult HyperSpec HyperProofs HyperGrid HyperGeo ShapeProofs
  QuadModel DetSpec CholProofs IterResult LUModel FemModel FemSpec FemProofs FemAssemble FemMesh FemResult FemMath FemSpd.
Import ListNotations.
Local Open Scope nat_scope.

Section FemHyper.
Context {N : Num} (HO : OrdFieldLaws N) (HN : NatLaws N).
Let HF : FieldLaws N := of_field N HO.
Add Field fhfld : (fl_field N HF).
Notation le x y := (nleb x y = true).
Notation lt x y := (nltb x y = true).
Let two_nz := two_nz' HO.
(** *** Sums over the elements of a grid *)
Lemma bigsum_pairs m (f : nat -> N) : bigsum (2 * m) f = bigsum m (fun c => f (2 * c)%nat + f (2 * c + 1)%nat)%num.
Proof.
  induction m as [|m IH]; [reflexivity|]. replace (2 * S m) with (S (S (2 * m))) by lia. cbn [bigsum]. rewrite IH. replace (2 * m + 1) with (S (2 * m)) by lia. ring.
Qed.
Lemma bigsum_rows a b (f : nat -> N) : bigsum (a * b) f = bigsum a (fun i => bigsum b (fun j => f (i * b + j))).
Proof.
  induction a as [|a IH]; [reflexivity|]. cbn [bigsum]. rewrite <- IH, (bigsum_split HF (S a * b) (a * b)) by lia. f_equal. replace (S a * b - a * b) with b by lia. reflexivity.
Qed.
Lemma bigsum_cells e0 e1 (f : nat -> N) : bigsum (2 * (e0 * e1)) f = bigsum e0 (fun i => bigsum e1 (fun j => f (gel e1 i j Upper) + f (gel e1 i j Lower)))%num.
Proof.
  rewrite bigsum_pairs, bigsum_rows. apply bigsum_ext. intros i _. apply bigsum_ext. intros j _. unfold gel. rewrite Nat.add_0_r. reflexivity.
Qed.
Lemma pick2 e0 e1 r c (f : nat -> nat -> N) : r < e0 -> c < e1 -> bigsum e0 (fun i => bigsum e1 (fun j => if (i =? r) && (j =? c) then f i j else n0)) = f r c.
Proof.
  intros Hr Hc. rewrite (bigsum_single HF e0 r) by (auto; intros i _ Hi; apply Nat.eqb_neq in Hi; rewrite Hi; apply (bigsum_0 HF); reflexivity).
  rewrite (bigsum_single HF e1 c) by (auto; intros j _ Hj; apply Nat.eqb_neq in Hj; rewrite Hj, andb_false_r; reflexivity). now rewrite !Nat.eqb_refl.
Qed.
(** *** The two element matrices *)
Local Notation kap := (@FemSpec.kap N).
Lemma kap_pos : lt n0 kap.
Proof. unfold kap. apply (olt_0_mul HO); [apply (half_pos HO), (dec_pos HO)|]. apply (olt_0_add HO); [apply (two_pos HO)|apply (olt_le HO), (olt_0_1 HO)]. Qed.
Lemma stiff1 (p : nat -> nat -> N) k l : stiff 1 p k l = (nabs (area2 p) * kap * (pull p (dbary k) 0 * pull p (dbary l) 0 + pull p (dbary k) 1 * pull p (dbary l) 1))%num.
Proof. unfold stiff. rewrite (rule1_is HO). cbn [dshape]. unfold kap. change (fun c => dbary k c : N) with (@dbary N k). change (fun c => dbary l c : N) with (@dbary N l). field. exact two_nz. Qed.
Lemma load1 F (p : nat -> nat -> N) k : k < 3 -> loadv 1 (fun _ => F) p k = (nabs (area2 p) * (dec 333333333333333 15 / (n1 + n1)) * F)%num.
Proof.
  intros Hk. unfold loadv. rewrite (rule1_is HO). cbn [shape].
  assert (E : (@dec N 5 1 + dec 5 1 = n1)%num).
  { rewrite (dec_add HO). unfold dec. rewrite (ten_is HO). change (p10 1) with 10%positive. change (5 + 5)%positive with 10%positive. field. apply (pos_nz HO), (nofpos_pos HO). }
  revert E. generalize (@dec N 333333333333333 15) (@dec N 5 1). intros w t E.
  transitivity (nabs (area2 p) * (w / (n1 + n1)) * F * (bary k n0 t + bary k t n0 + bary k t t))%num; [ring|].
  assert (X : (bary k n0 t + bary k t n0 + bary k t t = n1)%num).
  { destruct k as [|[|[|]]]; [| | |lia]; cbn [bary]; [transitivity (n1 + n1 + n1 - (t + t) - (t + t))%num; [ring|rewrite E; ring]|transitivity (t + t)%num; [ring|exact E]|transitivity (t + t)%num; [ring|exact E]]. }
  rewrite X. ring.
Qed.
Definition utab (k l : nat) : N := match k, l with 0, 0 => n1 | 0, 1 => - n1 | 0, _ => n0 | 1, 1 => n1 + n1 | 1, _ => - n1 | _, 0 => n0 | _, 1 => - n1 | _, _ => n1 end%num.
Definition ltab (k l : nat) : N := match k, l with 0, 0 => n1 | 0, 1 => n0 | 0, _ => - n1 | 1, 0 => n0 | 1, 1 => n1 | 1, _ => - n1 | _, 0 => - n1 | _, 1 => - n1 | _, _ => n1 + n1 end%num.
Definition tab (h : half) : nat -> nat -> N := match h with Upper => utab | Lower => ltab end.
Section Grid.
Variables (e0 e1 : nat) (h ox oy : N).
Hypothesis H0 : 1 <= e0.
Hypothesis H1 : 1 <= e1.
Hypothesis Hh : h <> n0.
Notation w := (e1 + 1).
Notation V := (map (gpos e1 h h ox oy) (seq 0 ((e0 + 1) * w))).
Notation T := (map (gtri e1) (seq 0 (2 * (e0 * e1)))).
Lemma abs_hh : nabs (- (h * h))%num = (h * h)%num.
Proof. rewrite (oabs_opp HO). apply (of_abs_pos N HO), (ole_0_sqr HO). Qed.
Lemma stiff_cell i j hf k l : i < e0 -> j < e1 -> k < 3 -> l < 3 -> stiff 1 (corner V T (gel e1 i j hf)) k l = (kap * tab hf k l)%num.
Proof.
  intros Hi Hj Hk Hl. assert (Hm : (- (h * h))%num <> n0) by (intros E; apply (mul_neq_0 HO h h Hh Hh); replace (h * h)%num with (- - (h * h))%num by ring; rewrite E; ring). rewrite stiff1. rewrite (area_gel HO HN) by auto.
  assert (EA : nabs (match hf with Upper => - (h * h) | Lower => - (h * h) end)%num = (h * h)%num) by (destruct hf; apply abs_hh). rewrite EA.
  unfold pull. rewrite (area_gel HO HN) by auto.
  destruct (corner_at e0 e1 h h ox oy H0 H1 i j hf 0 Hi Hj ltac:(lia)) as (-> & ->). destruct (corner_at e0 e1 h h ox oy H0 H1 i j hf 1 Hi Hj ltac:(lia)) as (-> & ->).
  destruct (corner_at e0 e1 h h ox oy H0 H1 i j hf 2 Hi Hj ltac:(lia)) as (-> & ->).
  destruct hf; cbn [cx cy tab]; rewrite ?(nl_S N HN); destruct k as [|[|[|]]]; try lia; destruct l as [|[|[|]]]; try lia; cbn [dbary utab ltab]; field; auto.
Qed.
Section Row.
Variables (drop : N).
Hypothesis Hd0 : le n0 drop.
Hypothesis Hd : lt drop kap.
Lemma kept_tab hf k l : kept drop (kap * tab hf k l)%num = (kap * tab hf k l)%num.
Proof.
  assert (Ak : nabs kap = kap) by (apply (of_abs_pos N HO), (olt_le HO), kap_pos).
  assert (A : forall x, x = n0 \/ x = n1 \/ x = (- n1)%num \/ x = (n1 + n1)%num -> kept drop (kap * x)%num = (kap * x)%num).
  { intros x [-> | [-> | [-> | ->]]]; unfold kept.
    - replace (kap * n0)%num with (@n0 N) by ring. now destruct (nltb drop (nabs n0)).
    - replace (kap * n1)%num with kap by ring. now rewrite Ak, Hd.
    - replace (kap * - n1)%num with (- kap)%num by ring. now rewrite (oabs_opp HO), Ak, Hd.
    - replace (kap * (n1 + n1))%num with (kap + kap)%num by ring. rewrite (of_abs_pos N HO) by (apply (ole_0_add HO); apply (olt_le HO), kap_pos).
      assert (X : lt drop (kap + kap)%num); [|now rewrite X]. eapply (olt_trans HO); [exact Hd|]. apply (olt_sub HO). replace (kap + kap - kap)%num with kap by ring. apply kap_pos. }
  apply A. destruct hf; cbn [tab]; destruct k as [|[|]], l as [|[|]]; cbn; auto.
Qed.
Lemma node_gel i j hf k : i < e0 -> j < e1 -> node T (gel e1 i j hf) k = nth k (gvs e1 (i * w + j) hf) 0.
Proof. intros Hi Hj. unfold node. rewrite gT_nth, (gel_tri e0) by (auto using gel_lt). reflexivity. Qed.
Lemma hlen e : e < length T -> length (nth e T []) = 3 * 1.
Proof. intros He. rewrite gT_length in He. apply gel_all in He as (i & j & hf & Hi & Hj & ->); auto. rewrite gT_nth, (gel_tri e0) by (auto using gel_lt). now destruct hf. Qed.
Lemma hin e k : e < length T -> k < 3 * 1 -> node T e k < length V.
Proof.
  intros He Hk. rewrite gT_length in He. apply gel_all in He as (i & j & hf & Hi & Hj & ->); auto. rewrite node_gel by auto. rewrite map_length, seq_length.
  assert ((i + 1) * w <= e0 * w) by nia. destruct hf, k as [|[|[|]]]; try lia; cbn [gvs nth]; nia.
Qed.
Lemma harea e : e < length T -> area2 (corner V T e) <> n0.
Proof. intros He. rewrite gT_length in He. rewrite (area_all HO HN) by auto. intros E. apply (mul_neq_0 HO h h Hh Hh). replace (h * h)%num with (- - (h * h))%num by ring. rewrite E. ring. Qed.
Lemma hkept e k l : e < length T -> k < 3 * 1 -> l < 3 * 1 -> kept drop (stiff 1 (corner V T e) k l) = stiff 1 (corner V T e) k l.
Proof. intros He Hk Hl. rewrite gT_length in He. apply gel_all in He as (i & j & hf & Hi & Hj & ->); auto. rewrite stiff_cell by (auto; lia). apply kept_tab. Qed.
(** every node hangs together with the rim *)
Lemma hanchored bd : (forall k, k < length V -> (bd k = true <-> rim e0 e1 k)) -> forall k, k < length V -> anchored T bd k.
Proof.
  intros Hb k Hk. rewrite map_length, seq_length in Hk.
  assert (A : forall c r, r <= e0 -> c <= e1 -> anchored T bd (r * w + c)).
  { induction c as [|c IH]; intros r Hr Hc; [apply an_flag, Hb; [rewrite map_length, seq_length; nia|]; apply (rim_at e0 e1); auto; lia|].
    destruct (Nat.eq_dec r e0) as [->|Hne]; [apply an_flag, Hb; [rewrite map_length, seq_length; nia|]; apply (rim_at e0 e1); auto; lia|].
    apply (an_step T bd (gel e1 r c Lower) _ (r * w + c)); [rewrite gT_length; apply gel_lt; lia| | |apply IH; lia];
      rewrite gT_nth, (gel_tri e0) by (try apply gel_lt; lia); cbn; [|auto]. right. right. left. lia. }
  rewrite (Nat.div_mod k w) by lia. rewrite (Nat.mul_comm w). pose proof (Nat.mod_upper_bound k w ltac:(lia)). apply A; [|lia].
  assert (k / w < e0 + 1) by (apply Nat.div_lt_upper_bound; lia). lia.
Qed.
(** *** Rows of interior nodes *)
Notation a := (fem_a drop 1 V T).
Notation n := (length V).
Lemma row_form i0 (u : nat -> N) : i0 < n -> mulvec n a u i0 =
  bigsum e0 (fun i => bigsum e1 (fun j => bigsum 3 (fun k => bigsum 3 (fun l => (if nth k (gvs e1 (i * w + j) Upper) 0 =? i0 then n1 else n0) * (kap * utab k l) * u (nth l (gvs e1 (i * w + j) Upper) 0))) +
     bigsum 3 (fun k => bigsum 3 (fun l => (if nth k (gvs e1 (i * w + j) Lower) 0 =? i0 then n1 else n0) * (kap * ltab k l) * u (nth l (gvs e1 (i * w + j) Lower) 0)))))%num.
Proof.
  intros Hi0. transitivity (bigsum n (fun i => bigsum n (fun j => (if i =? i0 then n1 else n0) * a i j * u j))%num).
  { rewrite (bigsum_single HF n i0) by (auto; intros i _ Hi; apply Nat.eqb_neq in Hi; rewrite Hi; apply (bigsum_0 HF); intros; ring). rewrite Nat.eqb_refl. unfold mulvec. apply bigsum_ext. intros; ring. }
  unfold fem_a. rewrite (assembled_form HO n T (3 * 1) _ (fun i => if i =? i0 then n1 else n0) u) by (intros; apply hin; auto). rewrite gT_length, bigsum_cells.
  apply bigsum_ext. intros i Hi. apply bigsum_ext. intros j Hj. change (3 * 1) with 3. f_equal; apply bigsum_ext; intros k Hk; apply bigsum_ext; intros l Hl.
  - rewrite !node_gel by auto. rewrite stiff_cell by auto. rewrite kept_tab. reflexivity.
  - rewrite !node_gel by auto. rewrite stiff_cell by auto. rewrite kept_tab. reflexivity.
Qed.
Lemma at_is i j r c : j < w -> c < w -> (i * w + j =? r * w + c) = (i =? r) && (j =? c).
Proof.
  intros Hj Hc. destruct (Nat.eqb_spec i r) as [->|Hi]; cbn [andb].
  - destruct (Nat.eqb_spec j c) as [->|Hn]; [apply Nat.eqb_refl|]. apply Nat.eqb_neq. lia.
  - apply Nat.eqb_neq. intros E. apply Hi. nia.
Qed.
Definition gu (u : nat -> N) (r c : nat) : N := u (r * w + c).
Lemma row_interior r c (u : nat -> N) : 1 <= r < e0 -> 1 <= c < e1 ->
  mulvec n a u (r * w + c) = ((kap + kap) * ((n1 + n1 + n1 + n1) * gu u r c - gu u (r - 1) c - gu u (r + 1) c - gu u r (c - 1) - gu u r (c + 1)))%num.
Proof.
  intros Hr Hc. rewrite row_form by (rewrite map_length, seq_length; nia).
  transitivity (bigsum e0 (fun i => bigsum e1 (fun j =>
    (if (i =? r) && (j =? c) then kap * (gu u i j + gu u i j - gu u (i + 1) j - gu u i (j + 1)) else n0) +
    (if (i =? r - 1) && (j =? c) then kap * (gu u (i + 1) j + gu u (i + 1) j - gu u i j - gu u (i + 1) (j + 1)) else n0) +
    (if (i =? r - 1) && (j =? c - 1) then kap * (gu u (i + 1) (j + 1) + gu u (i + 1) (j + 1) - gu u (i + 1) j - gu u i (j + 1)) else n0) +
    (if (i =? r) && (j =? c - 1) then kap * (gu u i (j + 1) + gu u i (j + 1) - gu u i j - gu u (i + 1) (j + 1)) else n0))))%num.
  { apply bigsum_ext. intros i Hi. apply bigsum_ext. intros j Hj. unfold gu. cbn [bigsum gvs nth].
    replace (i * w + j + w + 1) with ((i + 1) * w + (j + 1)) by lia. replace (i * w + j + w) with ((i + 1) * w + j) by lia. replace (i * w + j + 1) with (i * w + (j + 1)) by lia.
    rewrite !at_is by lia. replace (i + 1 =? r) with (i =? r - 1) by (destruct (Nat.eqb_spec i (r - 1)), (Nat.eqb_spec (i + 1) r); auto; lia).
    replace (j + 1 =? c) with (j =? c - 1) by (destruct (Nat.eqb_spec j (c - 1)), (Nat.eqb_spec (j + 1) c); auto; lia). cbn [utab ltab].
    destruct ((i =? r) && (j =? c)), ((i =? r - 1) && (j =? c)), ((i =? r - 1) && (j =? c - 1)), ((i =? r) && (j =? c - 1)); ring. }
  assert (SP : forall f g k m : nat -> nat -> N, (bigsum e0 (fun i => bigsum e1 (fun j => f i j + g i j + k i j + m i j)) =
     bigsum e0 (fun i => bigsum e1 (f i)) + bigsum e0 (fun i => bigsum e1 (g i)) + bigsum e0 (fun i => bigsum e1 (k i)) + bigsum e0 (fun i => bigsum e1 (m i)))%num).
  { intros f g k m. rewrite <- !(bigsum_plus HF). apply bigsum_ext. intros i _. now rewrite <- !(bigsum_plus HF). }
  rewrite SP. clear SP.
  rewrite (pick2 e0 e1 r c (fun i j => kap * (gu u i j + gu u i j - gu u (i + 1) j - gu u i (j + 1)))%num) by lia.
  rewrite (pick2 e0 e1 (r - 1) c (fun i j => kap * (gu u (i + 1) j + gu u (i + 1) j - gu u i j - gu u (i + 1) (j + 1)))%num) by lia.
  rewrite (pick2 e0 e1 (r - 1) (c - 1) (fun i j => kap * (gu u (i + 1) (j + 1) + gu u (i + 1) (j + 1) - gu u (i + 1) j - gu u i (j + 1)))%num) by lia.
  rewrite (pick2 e0 e1 r (c - 1) (fun i j => kap * (gu u i (j + 1) + gu u i (j + 1) - gu u i j - gu u (i + 1) (j + 1)))%num) by lia.
  replace (r - 1 + 1) with r by lia. replace (c - 1 + 1) with c by lia. unfold gu. ring.
Qed.
Lemma load_interior F r c : 1 <= r < e0 -> 1 <= c < e1 -> kept drop (h * h * (dec 333333333333333 15 / (n1 + n1)) * F)%num = (h * h * (dec 333333333333333 15 / (n1 + n1)) * F)%num ->
  fem_b drop 1 (fun _ => F) V T (r * w + c) = ((kap + kap) * (h * h * F))%num.
Proof.
  intros Hr Hc Hk. unfold fem_b, assembledv. rewrite gT_length, bigsum_cells. change (3 * 1) with 3. set (b := (h * h * (dec 333333333333333 15 / (n1 + n1)) * F)%num) in *.
  transitivity (bigsum e0 (fun i => bigsum e1 (fun j =>
    (if (i =? r) && (j =? c) then b + b else n0) + (if (i =? r - 1) && (j =? c) then b else n0) +
    (if (i =? r - 1) && (j =? c - 1) then b + b else n0) + (if (i =? r) && (j =? c - 1) then b else n0))))%num.
  { apply bigsum_ext. intros i Hi. apply bigsum_ext. intros j Hj.
    assert (L : forall hf k, k < 3 -> kept drop (loadv 1 (fun _ => F) (corner V T (gel e1 i j hf)) k) = b).
    { intros hf k Hk3. rewrite load1 by auto. rewrite (area_gel HO HN) by auto. replace (nabs (match hf with Upper => - (h * h) | Lower => - (h * h) end)%num) with (h * h)%num by (destruct hf; symmetry; apply abs_hh). exact Hk. }
    transitivity (bigsum 3 (fun k => if nth k (gvs e1 (i * w + j) Upper) 0 =? r * w + c then b else n0) + bigsum 3 (fun k => if nth k (gvs e1 (i * w + j) Lower) 0 =? r * w + c then b else n0))%num.
    { f_equal; apply bigsum_ext; intros k Hk3; rewrite node_gel by auto; rewrite L by auto; reflexivity. }
    cbn [bigsum gvs nth].
    replace (i * w + j + w + 1) with ((i + 1) * w + (j + 1)) by lia. replace (i * w + j + w) with ((i + 1) * w + j) by lia. replace (i * w + j + 1) with (i * w + (j + 1)) by lia.
    rewrite !at_is by lia. replace (i + 1 =? r) with (i =? r - 1) by (destruct (Nat.eqb_spec i (r - 1)), (Nat.eqb_spec (i + 1) r); auto; lia).
    replace (j + 1 =? c) with (j =? c - 1) by (destruct (Nat.eqb_spec j (c - 1)), (Nat.eqb_spec (j + 1) c); auto; lia).
    destruct ((i =? r) && (j =? c)), ((i =? r - 1) && (j =? c)), ((i =? r - 1) && (j =? c - 1)), ((i =? r) && (j =? c - 1)); ring. }
  assert (SP : forall f g k m : nat -> nat -> N, (bigsum e0 (fun i => bigsum e1 (fun j => f i j + g i j + k i j + m i j)) =
     bigsum e0 (fun i => bigsum e1 (f i)) + bigsum e0 (fun i => bigsum e1 (g i)) + bigsum e0 (fun i => bigsum e1 (k i)) + bigsum e0 (fun i => bigsum e1 (m i)))%num).
  { intros f g k m. rewrite <- !(bigsum_plus HF). apply bigsum_ext. intros i _. now rewrite <- !(bigsum_plus HF). }
  rewrite SP. clear SP.
  rewrite (pick2 e0 e1 r c (fun i j => b + b)%num) by lia. rewrite (pick2 e0 e1 (r - 1) c (fun i j => b)) by lia.
  rewrite (pick2 e0 e1 (r - 1) (c - 1) (fun i j => b + b)%num) by lia. rewrite (pick2 e0 e1 r (c - 1) (fun i j => b)) by lia. unfold b, kap. field. exact two_nz.
Qed.
End Row.
End Grid.

(** *** The generated mesh *)
Lemma prepare_hv P T (s0 s : mst N) : connected P T s0 -> m_prepare s0 = Ok s -> hv s = hv s0.
Proof.
  intros (HT & HP & fv & fs & nb & nd & xs & ow & q & [-> G H Hpos Hx]) Hp. rewrite (prepare_net HO _ _ _ _ _ _ _ _ _ _ Hx) in Hp. inversion Hp. reflexivity.
Qed.
Lemma hyper_connected e0 e1 (s0 s1 ox oy : N) (s : mst N) : 1 <= e0 -> 1 <= e1 -> hc_generate e0 e1 [s0; s1] [ox; oy] = Ok s ->
  connected (hcV e0 e1 s0 s1 ox oy) (hcT e0 e1) s /\
  forall k b, k < length (hcV e0 e1 s0 s1 ox oy) -> boundary_flag s k b -> (b = true <-> rim e0 e1 k).
Proof.
  intros H0 H1 E. destruct (generate_mesh HF HN e0 e1 _ _ ox oy H0 H1 s0 s1 eq_refl eq_refl) as (F & EF & HFr & HT).
  fold (hcV e0 e1 s0 s1 ox oy) in EF. fold (hcT e0 e1) in *. assert (LV : length (hcV e0 e1 s0 s1 ox oy) = (e0 + 1) * (e1 + 1)) by (unfold hcV; now rewrite map_length, seq_length).
  rewrite <- LV in HT. pose proof (setup_mesh (hcV e0 e1 s0 s1 ox oy) F (hcT e0 e1) HT) as P. rewrite <- EF, E in P. cbn [post] in P.
  destruct P as (nb & nd & xs & o & q & -> & G & Hs).
  assert (HP : forall p, In p (hcV e0 e1 s0 s1 ox oy) -> length p = 2) by (intros p Hp; unfold hcV in Hp; apply in_map_iff in Hp as (k & <- & _); reflexivity).
  split.
  - split; auto. split; auto. do 7 eexists. split; [reflexivity|auto|auto| |].
    + intros k Hk. cbn [vtx mv_pos mv_gi]. auto.
    + intros e He. apply (fresh_corners _ _ HT HP e He).
  - intros k b Hk (x & Ex & Eb). cbn [net hv] in Ex. rewrite deref_pool in Ex by auto. inversion Ex; subst x. cbn [vtx mv_bound] in Eb. rewrite <- Eb. apply HFr.
Qed.
Section Square.
Variables (e0 e1 : nat) (s0 s1 ox oy h drop : N).
Hypothesis H0 : 1 <= e0.
Hypothesis H1 : 1 <= e1.
Hypothesis Hx : (s0 / nofnat e0)%num = h.
Hypothesis Hy : (s1 / nofnat e1)%num = h.
Hypothesis Ht : tiny h = false.
Hypothesis Hd0 : le n0 drop.
Hypothesis Hd : lt drop kap.
Notation w := (e1 + 1).
Notation V := (hcV e0 e1 s0 s1 ox oy).
Notation T := (hcT e0 e1).
Lemma h_nz : h <> n0.
Proof. intros E. unfold tiny in Ht. rewrite E, (oabs_0 HO) in Ht. pose proof (of_eps N HO). congruence. Qed.
Lemma V_is : V = map (gpos e1 h h ox oy) (seq 0 ((e0 + 1) * w)).
Proof. unfold hcV. now rewrite Hx, Hy. Qed.
Lemma tiny_opp (x : N) : tiny (- x)%num = tiny x. Proof. unfold tiny. now rewrite (oabs_opp HO). Qed.
Lemma hproper e : e < length T -> proper (corner V T e).
Proof.
  intros He. split; [rewrite V_is; apply (harea e0 e1 h ox oy H0 H1 h_nz e He)|].
  unfold hcT in He. rewrite gT_length in He. apply gel_all in He as (i & j & hf & Hi & Hj & ->); auto. rewrite V_is. unfold flat, hcT.
  destruct (corner_at e0 e1 h h ox oy H0 H1 i j hf 0 Hi Hj ltac:(lia)) as (-> & ->). destruct (corner_at e0 e1 h h ox oy H0 H1 i j hf 1 Hi Hj ltac:(lia)) as (-> & ->).
  apply andb_false_iff. right. replace (cy h oy i hf 1 - cy h oy i hf 0)%num with h; [exact Ht|]. destruct hf; cbn [cy]; rewrite (nl_S N HN); ring.
Qed.
Theorem hyper_system F g sm s : hc_generate e0 e1 [s0; s1] [ox; oy] = Ok sm -> m_prepare sm = Ok s ->
  F = n0 \/ lt drop (nabs (h * h * (dec 333333333333333 15 / (n1 + n1)) * F))%num ->
  returns (fem_system drop 1 (fun _ => F) g s) (fun r => let n := (e0 + 1) * w in exists a b,
    MatI.holds (fst (snd r)) n n a /\ reads (snd (snd r)) n b /\ symmetric2 n a /\ pos_def n a /\
    forall x, (forall i, i < n -> mulvec n a x i = b i) <->
      forall i j, i <= e0 -> j <= e1 ->
        if (i =? 0) || (i =? e0) || (j =? 0) || (j =? e1) then x (i * w + j) = g [ox + h * nofnat j; oy + h * nofnat i]%num
        else ((n1 + n1 + n1 + n1) * x (i * w + j)%nat - x ((i - 1) * w + j)%nat - x ((i + 1) * w + j)%nat - x (i * w + (j - 1))%nat - x (i * w + (j + 1))%nat = h * h * F)%num).
Proof.
  intros Eg Ep HFd. destruct (hyper_connected e0 e1 s0 s1 ox oy sm H0 H1 Eg) as (Hc & Hfl).
  assert (LV : length V = (e0 + 1) * w) by (unfold hcV; now rewrite map_length, seq_length).
  assert (Hne : V <> []) by (intros E; rewrite E in LV; cbn in LV; nia).
  eapply returns_mono; [apply (system_connected HO HN drop 1 (fun _ => F) g V T sm s (or_introl eq_refl) Hc Ep Hne hproper)|].
  intros r (V' & D & bd & HD & HA & HB). cbn zeta. destruct (no_first _ _ _ _ _ (di_nodes _ _ _ _ _ _ _ _ HD) eq_refl) as (-> & ->). rewrite LV in HA, HB.
  assert (Hbd : forall k, k < length V -> (bd k = true <-> rim e0 e1 k)).
  { intros k Hk. apply (Hfl k (bd k) Hk). unfold boundary_flag. rewrite <- (prepare_hv _ _ _ _ Hc Ep). apply (di_flags _ _ _ _ _ _ _ _ HD k Hk). }
  assert (K : kept drop (h * h * (dec 333333333333333 15 / (n1 + n1)) * F)%num = (h * h * (dec 333333333333333 15 / (n1 + n1)) * F)%num).
  { unfold kept. destruct HFd as [-> | ->]; auto. replace (h * h * (dec 333333333333333 15 / (n1 + n1)) * n0)%num with (@n0 N) by ring. now destruct (nltb drop (nabs n0)). }
  assert (HL : length T <> 0) by (unfold hcT; rewrite map_length, seq_length; nia).
  exists (fixed_a bd (avg_diag ((e0 + 1) * w) (fem_a drop 1 V T)) (fem_a drop 1 V T)), (fixed_b ((e0 + 1) * w) bd (avg_diag ((e0 + 1) * w) (fem_a drop 1 V T)) (fun i => g (nth i V [])) (fem_a drop 1 V T) (fem_b drop 1 (fun _ => F) V T)).
  split; [exact HA|]. split; [exact HB|].
  assert (P1 := hlen e0 e1 H0 H1). assert (P2 := hin e0 e1 h ox oy H0 H1). assert (P3 := harea e0 e1 h ox oy H0 H1 h_nz). assert (P4 := hkept e0 e1 h ox oy H0 H1 h_nz drop Hd).
  rewrite <- V_is in P2, P3, P4. fold (hcT e0 e1) in P1, P2, P3, P4.
  assert (P5 := hanchored e0 e1 h ox oy H0 H1 bd). rewrite <- V_is in P5. fold (hcT e0 e1) in P5.
  split; [apply (fixed_sym); intros i j _ _; apply (fem_a_sym HO)|]. split.
  { rewrite <- LV. apply (spd HO drop 1 V T (or_introl eq_refl) P1 P2 P3 P4 HN bd); [lia|]. now apply P5. }
  intros x.
  assert (Hm : avg_diag ((e0 + 1) * w) (fem_a drop 1 V T) <> n0).
  { apply (pos_nz HO). rewrite <- LV. apply (mid_pos HO drop 1 V T (or_introl eq_refl) P1 P2 P3 P4 HN). lia. }
  rewrite (fixed_solves HO) by exact Hm.
  assert (RI := row_interior e0 e1 h ox oy H0 H1 h_nz drop Hd). rewrite <- V_is in RI. fold (hcT e0 e1) in RI. rewrite LV in RI.
  assert (LI := fun r c Hr Hc => load_interior e0 e1 h ox oy H0 H1 drop F r c Hr Hc K). rewrite <- V_is in LI. fold (hcT e0 e1) in LI.
  assert (Kn : (kap + kap)%num <> n0) by (apply (pos_nz HO), (olt_0_add HO); [apply kap_pos|apply (olt_le HO), kap_pos]).
  assert (Pos : forall i j, i <= e0 -> j <= e1 -> nth (i * w + j) V [] = [ox + h * nofnat j; oy + h * nofnat i]%num).
  { intros i j Hi Hj. rewrite V_is, gV_nth by nia. apply (gpos_at e0); auto; lia. }
  assert (Rim : forall i j, i <= e0 -> j <= e1 -> bd (i * w + j) = (i =? 0) || (i =? e0) || (j =? 0) || (j =? e1)).
  { intros i j Hi Hj. apply eq_true_iff_eq. rewrite Hbd by (rewrite LV; nia). rewrite (rim_at e0 e1) by auto. rewrite !orb_true_iff, !Nat.eqb_eq. tauto. }
  assert (Cancel : forall y z : N, ((kap + kap) * y = (kap + kap) * z)%num -> y = z).
  { intros y z E. replace y with ((kap + kap) * y / (kap + kap))%num by (field; auto). rewrite E. field; auto. }
  split.
  - intros (A & B) i j Hi Hj. rewrite <- Rim by auto. destruct (bd (i * w + j)) eqn:Eb.
    + rewrite A by (auto; nia). now rewrite Pos.
    + pose proof Eb as Eb'. rewrite Rim in Eb' by auto. repeat apply orb_false_iff in Eb' as (Eb' & ?). 
      repeat match goal with H : (_ =? _) = false |- _ => apply Nat.eqb_neq in H end.
      apply Cancel. rewrite <- (LI i j) by lia. rewrite <- B by (auto; nia). rewrite RI by lia. reflexivity.
  - intros H. assert (Idx : forall k, k < (e0 + 1) * w -> exists i j, i <= e0 /\ j <= e1 /\ k = i * w + j).
    { intros k Hk. exists (k / w), (k mod w). pose proof (Nat.mod_upper_bound k w ltac:(lia)). pose proof (Nat.div_mod k w ltac:(lia)).
      assert (k / w < e0 + 1) by (apply Nat.div_lt_upper_bound; lia). repeat split; lia. }
    split; intros k Hk Eb; destruct (Idx k Hk) as (i & j & Hi & Hj & ->); specialize (H i j Hi Hj); rewrite <- Rim, Eb in H by auto.
    + now rewrite Pos.
    + rewrite Rim in Eb by auto. repeat apply orb_false_iff in Eb as (Eb & ?). repeat match goal with H : (_ =? _) = false |- _ => apply Nat.eqb_neq in H end.
      rewrite RI, LI by lia. unfold gu. f_equal. exact H.
Qed.
End Square.
End FemHyper.
