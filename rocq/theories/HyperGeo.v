(** Geometry of the grid: areas and tiling. *)
From Coq Require Import List Arith Bool Lia Ring Field.
From Verif Require Import Base BaseProofs Num OrdField Spec SimplexSpec UtilsSpec MeshModel MeshSpec MeshPool MeshProofs MeshResult
  HyperSpec HyperProofs HyperGrid.
Import ListNotations.
Local Open Scope nat_scope.
Open Scope res_scope.

Section Geo.
Context {N : Num} (HO : OrdFieldLaws N) (HN : NatLaws N).
Let HF : FieldLaws N := of_field N HO.
Add Field gfld : (fl_field N HF).
Notation le x y := (nleb x y = true).
Notation lt x y := (nltb x y = true).

(** what a mesh holds is determined *)
Lemma holds_unique V F T V' F' T' (s : mst N) : holds V F T s -> holds V' F' T' s ->
  V = V' /\ T = T' /\ forall k, k < length V -> (F k <-> F' k).
Proof.
  intros A B. pose proof (ho_elements _ _ _ _ A) as NA. pose proof (ho_elements _ _ _ _ B) as NB.
  assert (LV : length V = length V') by (rewrite <- (ho_count _ _ _ _ A); apply (ho_count _ _ _ _ B)).
  assert (LT : length T = length T') by (rewrite <- (nh_count _ _ NA); apply (nh_count _ _ NB)).
  split; [|split].
  - apply (list_eq_nth _ _ []); auto. intros k Hk. destruct (ho_vertex _ _ _ _ A k Hk) as (_ & x & Hx & P & _).
    destruct (ho_vertex _ _ _ _ B k ltac:(lia)) as (_ & y & Hy & Q & _). congruence.
  - apply (list_eq_nth _ _ []); auto. intros k Hk. destruct (nh_elements _ _ NA k Hk) as (_ & x & Hx & P).
    destruct (nh_elements _ _ NB k ltac:(lia)) as (_ & y & Hy & Q). assert (x = y) by congruence. subst y. rewrite P in Q.
    assert (Inj : forall a b : list nat, map Some a = map Some b -> a = b).
    { induction a as [|u a IH]; intros [|v b] E; try discriminate; auto. cbn in E. inversion E. f_equal; auto. }
    now apply Inj.
  - intros k Hk. destruct (ho_vertex _ _ _ _ A k Hk) as (_ & x & Hx & _ & _ & P). destruct (ho_vertex _ _ _ _ B k ltac:(lia)) as (_ & y & Hy & _ & _ & Q).
    assert (x = y) by congruence. subst y. now rewrite <- P, Q.
Qed.

(** numerals *)
Lemma nat_nonneg n : le n0 (nofnat n : N).
Proof.
  induction n as [|n IH]; [rewrite (nl_0 N HN); apply (ole_refl HO)|]. rewrite (nl_S N HN).
  apply (ole_0_add HO); auto. apply (olt_le HO), (olt_0_1 HO).
Qed.
Lemma nat_pos n : 1 <= n -> lt n0 (nofnat n : N).
Proof.
  destruct n as [|n]; [lia|]. intros _. rewrite (nl_S N HN). replace (nofnat n + n1)%num with (n1 + nofnat n : N)%num by ring.
  apply (olt_0_add HO); [apply (olt_0_1 HO)|apply nat_nonneg].
Qed.
Lemma nat_nz n : 1 <= n -> nofnat n <> n0 :> N.
Proof. intros H E. apply (olt_irrefl HO (@n0 N)). rewrite <- E at 2. now apply nat_pos. Qed.

Section Grid.
Variables (e0 e1 : nat) (hx hy ox oy : N).
Hypothesis H0 : 1 <= e0.
Hypothesis H1 : 1 <= e1.
Notation w := (e1 + 1).
Notation gpos := (gpos e1 hx hy ox oy).
Notation V := (map gpos (seq 0 ((e0 + 1) * w))).
Notation T := (map (gtri e1) (seq 0 (2 * (e0 * e1)))).

Lemma gV_nth k : k < (e0 + 1) * w -> nth k V [] = gpos k.
Proof. intros H. rewrite (nth_indep _ [] (gpos 0)) by (rewrite map_length, seq_length; auto). rewrite map_nth, seq_nth by auto. reflexivity. Qed.
Lemma gpos_at i j : j < w -> gpos (i * w + j) = [ox + hx * nofnat j; oy + hy * nofnat i]%num.
Proof. intros H. unfold HyperProofs.gpos. rewrite (gdiv e0), (gmod e0) by auto. reflexivity. Qed.
(** corner coordinates of the two halves of cell (i, j) *)
Definition cx (j : nat) (h : half) (k : nat) : N :=
  match h, k with Upper, 2 => ox + hx * nofnat (S j) | Lower, S _ => ox + hx * nofnat (S j) | _, _ => ox + hx * nofnat j end%num.
Definition cy (i : nat) (h : half) (k : nat) : N :=
  match h, k with Upper, S _ => oy + hy * nofnat (S i) | Lower, 1 => oy + hy * nofnat (S i) | _, _ => oy + hy * nofnat i end%num.
Lemma corner_at i j h k : i < e0 -> j < e1 -> k < 3 -> corner V T (gel e1 i j h) k 0 = cx j h k /\ corner V T (gel e1 i j h) k 1 = cy i h k.
Proof.
  intros Hi Hj Hk. unfold corner. rewrite gT_nth, (gel_tri e0) by (auto using gel_lt).
  assert (G : forall r c, r <= e0 -> c <= e1 -> nth (r * w + c) V [] = [ox + hx * nofnat c; oy + hy * nofnat r]%num).
  { intros r c Hr Hc. rewrite gV_nth by nia. apply gpos_at. lia. }
  pose proof (G i j ltac:(lia) ltac:(lia)) as G00. pose proof (G (S i) j ltac:(lia) ltac:(lia)) as G10.
  pose proof (G i (S j) ltac:(lia) ltac:(lia)) as G01. pose proof (G (S i) (S j) ltac:(lia) ltac:(lia)) as G11.
  replace (S i * w + j) with (i * w + j + w) in G10 by lia. replace (i * w + S j) with (i * w + j + 1) in G01 by lia.
  replace (S i * w + S j) with (i * w + j + w + 1) in G11 by lia.
  destruct k as [|[|[|]]]; [..|lia]; destruct h; cbn [gvs nth cx cy]; rewrite ?G00, ?G10, ?G01, ?G11; split; reflexivity.
Qed.
Lemma area_gel i j h : i < e0 -> j < e1 -> area2 (corner V T (gel e1 i j h)) = match h with Upper => - (hx * hy) | Lower => - (hx * hy) end%num.
Proof.
  intros Hi Hj. unfold area2. destruct (corner_at i j h 0 Hi Hj ltac:(lia)) as (-> & ->). destruct (corner_at i j h 1 Hi Hj ltac:(lia)) as (-> & ->).
  destruct (corner_at i j h 2 Hi Hj ltac:(lia)) as (-> & ->). destruct h; cbn [cx cy]; rewrite ?(nl_S N HN); ring.
Qed.
Lemma area_all e : e < 2 * (e0 * e1) -> area2 (corner V T e) = (- (hx * hy))%num.
Proof. intros He. apply gel_all in He as (i & j & h & Hi & Hj & ->); auto. rewrite area_gel by auto. now destruct h. Qed.

(** barycentric coordinates in the halves of a cell; u, v are the coordinates in units of the cell *)
Lemma bary_gel i j h l1 l2 x : i < e0 -> j < e1 -> barycentric (corner V T (gel e1 i j h)) l1 l2 x <->
  x 0 = (ox + hx * (nofnat j + match h with Upper => l2 | Lower => l1 + l2 end))%num /\
  x 1 = (oy + hy * (nofnat i + match h with Upper => l1 + l2 | Lower => l1 end))%num.
Proof.
  intros Hi Hj. unfold barycentric.
  destruct (corner_at i j h 0 Hi Hj ltac:(lia)) as (A0 & B0). destruct (corner_at i j h 1 Hi Hj ltac:(lia)) as (A1 & B1).
  destruct (corner_at i j h 2 Hi Hj ltac:(lia)) as (A2 & B2). split.
  - intros H. rewrite (H 0), (H 1) by lia. rewrite A0, A1, A2, B0, B1, B2. destruct h; cbn [cx cy]; rewrite !(nl_S N HN); split; ring.
  - intros (X & Y) k Hk. destruct k as [|[|]]; [| |lia]; rewrite ?X, ?Y, ?A0, ?A1, ?A2, ?B0, ?B1, ?B2; destruct h; cbn [cx cy]; rewrite !(nl_S N HN); ring.
Qed.

(** order lemmas *)
Lemma lt_scale (a b c : N) : lt n0 c -> (lt (c * a) (c * b) <-> lt a b)%num.
Proof.
  intros Hc. split; [|apply (olt_mul_l HO); auto]. intros H. apply (olt_iff HO). intros L. apply (olt_iff HO) in H. apply H. apply (ole_mul_l HO); auto. now apply (olt_le HO).
Qed.
Lemma nat_le (m n : nat) : m <= n -> le (nofnat m) (nofnat n : N).
Proof.
  induction 1; [apply (ole_refl HO)|]. eapply (ole_trans HO); [exact IHle|]. rewrite (nl_S N HN). apply (ole_sub HO).
  replace (nofnat m0 + n1 - nofnat m0)%num with (n1 : N) by ring. apply (olt_le HO), (olt_0_1 HO).
Qed.
(** the integer part *)
Lemma floor n (u : N) : 1 <= n -> le n0 u -> le u (nofnat n) -> exists j, j < n /\ le (nofnat j) u /\ le u (nofnat (S j)).
Proof.
  induction n as [|n IH]; [lia|]. intros _ Hu Hn. destruct n as [|n].
  - exists 0. rewrite (nl_0 N HN). split; [lia|]. split; auto.
  - destruct (nleb u (nofnat (S n))) eqn:E.
    + destruct (IH ltac:(lia) Hu eq_refl) as (j & Hj & P). exists j. split; [lia|auto].
    + exists (S n). split; [lia|]. split; auto. apply (olt_le HO). now apply (onle_lt HO).
Qed.
Lemma floor_once j j' (u : N) : lt (nofnat j) u -> lt u (nofnat (S j)) -> lt (nofnat j') u -> lt u (nofnat (S j')) -> j = j'.
Proof.
  intros A B C D. destruct (lt_eq_lt_dec j j') as [[L|L]|L]; auto; exfalso.
  - apply (olt_irrefl HO u). eapply (olt_trans HO); [exact B|]. eapply (ole_lt_trans HO); [|exact C]. now apply nat_le.
  - apply (olt_irrefl HO u). eapply (olt_trans HO); [exact D|]. eapply (ole_lt_trans HO); [|exact A]. now apply nat_le.
Qed.

Section Positive.
Hypothesis Hx : lt n0 hx.
Hypothesis Hy : lt n0 hy.
Lemma hx_nz : hx <> n0. Proof. intros E. apply (olt_irrefl HO (@n0 N)). rewrite <- E at 2. exact Hx. Qed.
Lemma hy_nz : hy <> n0. Proof. intros E. apply (olt_irrefl HO (@n0 N)). rewrite <- E at 2. exact Hy. Qed.
Definition ux (x : nat -> N) : N := ((x 0 - ox) / hx)%num.
Definition uy (x : nat -> N) : N := ((x 1 - oy) / hy)%num.
Lemma ux_eq x : x 0 = (ox + hx * ux x)%num. Proof. unfold ux. pose proof hx_nz. field. auto. Qed.
Lemma uy_eq x : x 1 = (oy + hy * uy x)%num. Proof. unfold uy. pose proof hy_nz. field. auto. Qed.
Lemma scale_inj (a b c d : N) : c <> n0 -> (d + c * a = d + c * b)%num -> a = b.
Proof.
  intros Hc E. assert (Z : (c * (a - b) = n0)%num) by (replace (c * (a - b))%num with (d + c * a - (d + c * b))%num by ring; rewrite E; ring).
  apply (mul_0 HO) in Z as [Z|Z]; [contradiction|]. replace a with (a - b + b)%num by ring. rewrite Z. ring.
Qed.
Lemma bary_u i j h l1 l2 x : i < e0 -> j < e1 -> barycentric (corner V T (gel e1 i j h)) l1 l2 x <->
  ux x = (nofnat j + match h with Upper => l2 | Lower => l1 + l2 end)%num /\ uy x = (nofnat i + match h with Upper => l1 + l2 | Lower => l1 end)%num.
Proof.
  intros Hi Hj. rewrite bary_gel by auto. rewrite (ux_eq x), (uy_eq x). split.
  - intros (A & B). apply scale_inj in A; [|apply hx_nz]. apply scale_inj in B; [|apply hy_nz]. auto.
  - intros (-> & ->). auto.
Qed.
Notation bw := (hx * nofnat e1)%num.
Notation bh := (hy * nofnat e0)%num.
Lemma box_u x : in_box ox oy bw bh x <-> (le n0 (ux x) /\ le (ux x) (nofnat e1)) /\ (le n0 (uy x) /\ le (uy x) (nofnat e0)).
Proof.
  unfold in_box. rewrite (ux_eq x), (uy_eq x).
  assert (L : forall o h u v : N, lt n0 h -> (le (o + h * u)%num (o + h * v)%num <-> le u v)).
  { intros o h u v Hh. rewrite (ole_sub HO (o + h * u)%num), (ole_sub HO u). replace (o + h * v - (o + h * u))%num with (h * (v - u))%num by ring. split.
    - intros A. apply (onlt_le HO). apply not_true_iff_false. intros C. apply (onlt_le HO) in A.
      assert (D : lt (h * (v - u))%num n0) by (replace n0 with (h * n0)%num by ring; apply (olt_mul_l HO); auto). congruence.
    - intros A. apply (ole_0_mul HO); auto. now apply (olt_le HO). }
  rewrite <- (L ox hx n0 (ux x) Hx), <- (L ox hx (ux x) (nofnat e1) Hx), <- (L oy hy n0 (uy x) Hy), <- (L oy hy (uy x) (nofnat e0) Hy).
  replace (ox + hx * n0)%num with ox by ring. replace (oy + hy * n0)%num with oy by ring. tauto.
Qed.
(** every point of the box lies in some element *)
Lemma covered x : in_box ox oy bw bh x -> exists e, e < length T /\ in_element V T e x.
Proof.
  rewrite box_u. intros ((A & B) & (C & D)). destruct (floor e1 (ux x) H1 A B) as (j & Hj & J1 & J2). destruct (floor e0 (uy x) H0 C D) as (i & Hi & I1 & I2).
  rewrite (nl_S N HN) in J2, I2. apply (ole_sub HO) in J1, J2, I1, I2.
  set (a := (ux x - nofnat j)%num) in *. set (b := (uy x - nofnat i)%num) in *.
  replace (nofnat j + n1 - ux x)%num with (n1 - a)%num in J2 by (unfold a; ring). replace (nofnat i + n1 - uy x)%num with (n1 - b)%num in I2 by (unfold b; ring).
  assert (Ea : ux x = (nofnat j + a)%num) by (unfold a; ring). assert (Eb : uy x = (nofnat i + b)%num) by (unfold b; ring). clearbody a b.
  destruct (nleb a b) eqn:E.
  - exists (gel e1 i j Upper). split; [rewrite gT_length; now apply gel_lt|]. exists (b - a)%num, a. split; [now apply -> (ole_sub HO)|]. split; auto. split.
    + replace (n1 - (b - a) - a)%num with (n1 - b)%num by ring. auto.
    + apply bary_u; auto. rewrite Ea, Eb. split; ring.
  - apply (onle_lt HO), (olt_le HO) in E. exists (gel e1 i j Lower). split; [rewrite gT_length; now apply gel_lt|]. exists b, (a - b)%num. split; auto. split; [now apply -> (ole_sub HO)|]. split.
    + replace (n1 - b - (a - b))%num with (n1 - a)%num by ring. auto.
    + apply bary_u; auto. rewrite Ea, Eb. split; ring.
Qed.
Lemma in_range (n j : nat) (l : N) : j < n -> le n0 l -> le n0 (n1 - l)%num -> le n0 (nofnat j + l)%num /\ le (nofnat j + l)%num (nofnat n).
Proof.
  intros Hj A B. split; [apply (ole_0_add HO); auto; apply nat_nonneg|]. eapply (ole_trans HO); [|apply (nat_le (S j)); lia]. rewrite (nl_S N HN).
  apply (ole_sub HO). replace (nofnat j + n1 - (nofnat j + l))%num with (n1 - l)%num by ring. auto.
Qed.
(** and nothing else is covered *)
Lemma stays e x : e < length T -> in_element V T e x -> in_box ox oy bw bh x.
Proof.
  rewrite gT_length. intros He (l1 & l2 & A & B & C & D). apply gel_all in He as (i & j & h & Hi & Hj & ->); auto. apply bary_u in D as (X & Y); auto.
  apply box_u. rewrite X, Y.
  assert (S1 : le n0 (n1 - l1)%num) by (replace (n1 - l1)%num with (n1 - l1 - l2 + l2)%num by ring; now apply (ole_0_add HO)).
  assert (S2 : le n0 (n1 - l2)%num) by (replace (n1 - l2)%num with (n1 - l1 - l2 + l1)%num by ring; now apply (ole_0_add HO)).
  assert (S3 : le n0 (n1 - (l1 + l2))%num) by (replace (n1 - (l1 + l2))%num with (n1 - l1 - l2)%num by ring; auto).
  assert (S4 : le n0 (l1 + l2)%num) by now apply (ole_0_add HO).
  destruct h; split; apply in_range; auto.
Qed.
Lemma in_open (j : nat) (l : N) : lt n0 l -> lt n0 (n1 - l)%num -> lt (nofnat j) (nofnat j + l)%num /\ lt (nofnat j + l)%num (nofnat (S j)).
Proof.
  intros A B. split; apply (olt_sub HO); rewrite ?(nl_S N HN).
  - replace (nofnat j + l - nofnat j)%num with l by ring. auto.
  - replace (nofnat j + n1 - (nofnat j + l))%num with (n1 - l)%num by ring. auto.
Qed.
Lemma disjoint e f x : e < length T -> f < length T -> inside_element V T e x -> inside_element V T f x -> e = f.
Proof.
  rewrite gT_length. intros He Hf (l1 & l2 & A & B & C & D) (m1 & m2 & A' & B' & C' & D').
  apply gel_all in He as (i & j & h & Hi & Hj & ->); auto. apply gel_all in Hf as (i' & j' & h' & Hi' & Hj' & ->); auto.
  apply bary_u in D as (X & Y); auto. apply bary_u in D' as (X' & Y'); auto.
  assert (P : forall a b : N, lt n0 a -> lt n0 b -> lt n0 (n1 - a - b)%num ->
     lt n0 (n1 - a)%num /\ lt n0 (n1 - b)%num /\ lt n0 (n1 - (a + b))%num /\ lt n0 (a + b)%num).
  { intros a b Pa Pb Pc. split; [|split; [|split]].
    - replace (n1 - a)%num with (n1 - a - b + b)%num by ring. apply (olt_0_add HO); auto. now apply (olt_le HO).
    - replace (n1 - b)%num with (n1 - a - b + a)%num by ring. apply (olt_0_add HO); auto. now apply (olt_le HO).
    - replace (n1 - (a + b))%num with (n1 - a - b)%num by ring. auto.
    - apply (olt_0_add HO); auto. now apply (olt_le HO). }
  destruct (P l1 l2 A B C) as (P1 & P2 & P3 & P4). destruct (P m1 m2 A' B' C') as (Q1 & Q2 & Q3 & Q4). clear P.
  assert (Ej : j = j').
  { apply (floor_once j j' (ux x)); [rewrite X|rewrite X|rewrite X'|rewrite X']; destruct h, h'; apply in_open; auto. }
  assert (Ei : i = i').
  { apply (floor_once i i' (uy x)); [rewrite Y|rewrite Y|rewrite Y'|rewrite Y']; destruct h, h'; apply in_open; auto. }
  subst i' j'. rewrite X in X'. rewrite Y in Y'.
  assert (Cn : forall a b c : N, (a + b = a + c)%num -> b = c) by (intros a b c E; replace b with (a + b - a)%num by ring; rewrite E; ring).
  apply Cn in X', Y'. destruct h, h'; auto; exfalso.
  - assert (Z : (l1 + m2 = n0)%num) by (replace (l1 + m2)%num with (l1 + l2 - m1 + m2 - l2 + m1)%num by ring; rewrite Y', X'; ring).
    apply (olt_irrefl HO (@n0 N)). rewrite <- Z at 2. apply (olt_0_add HO); auto. now apply (olt_le HO).
  - assert (Z : (m1 + l2 = n0)%num) by (replace (m1 + l2)%num with (m1 + m2 - l1 + l1 + l2 - m2)%num by ring; rewrite <- Y', <- X'; ring).
    apply (olt_irrefl HO (@n0 N)). rewrite <- Z at 2. apply (olt_0_add HO); auto. now apply (olt_le HO).
Qed.
End Positive.
End Grid.

(** the generated mesh *)
Definition hcV (e0 e1 : nat) (s0 s1 ox oy : N) : list (list N) :=
  map (gpos e1 (s0 / nofnat e0)%num (s1 / nofnat e1)%num ox oy) (seq 0 ((e0 + 1) * (e1 + 1))).
Definition hcT (e0 e1 : nat) : list (list nat) := map (gtri e1) (seq 0 (2 * (e0 * e1))).
Lemma generate_holds e0 e1 s0 s1 ox oy : 1 <= e0 -> 1 <= e1 ->
  returns (hc_generate e0 e1 [s0; s1] [ox; oy]) (holds (hcV e0 e1 s0 s1 ox oy) (rim e0 e1) (hcT e0 e1)).
Proof.
  intros H0 H1. destruct (generate_mesh HF HN e0 e1 _ _ ox oy H0 H1 s0 s1 eq_refl eq_refl) as (F & -> & HFr & HT).
  fold (hcV e0 e1 s0 s1 ox oy). fold (hcT e0 e1) in *. assert (LV : length (hcV e0 e1 s0 s1 ox oy) = (e0 + 1) * (e1 + 1)) by (unfold hcV; now rewrite map_length, seq_length).
  rewrite <- LV in HT. pose proof (setup_mesh (hcV e0 e1 s0 s1 ox oy) F (hcT e0 e1) HT) as P.
  destruct (m_setupNeighbors _) as [s| e | | | |]; cbn [post] in P; try contradiction.
  2: { destruct P as (_ & P). exfalso. now apply (no_three e0 e1 H0 H1) in P. }
  destruct P as (nb & nd & xs & o & q & -> & G & Hs). eexists. split; [reflexivity|]. constructor.
  - cbn [net mV]. apply seq_length.
  - intros k Hk. split; [unfold m_vertex; cbn [net mV]; apply vget_seq; auto|]. cbn [net hv]. rewrite deref_pool by auto. eexists. split; [reflexivity|].
    unfold vtx. cbn [mv_pos mv_impl mv_bound]. split; auto.
  - eapply graph_neighbourhood; eauto.
Qed.
Lemma generated e0 e1 s0 s1 ox oy s V F T : 1 <= e0 -> 1 <= e1 -> hc_generate e0 e1 [s0; s1] [ox; oy] = Ok s -> holds V F T s ->
  V = hcV e0 e1 s0 s1 ox oy /\ T = hcT e0 e1 /\ forall k, k < length V -> (F k <-> rim e0 e1 k).
Proof.
  intros H0 H1 E A. destruct (generate_holds e0 e1 s0 s1 ox oy H0 H1) as (s' & E' & B). rewrite E in E'. inversion E'; subst s'. eapply holds_unique; eauto.
Qed.
Lemma step_pos s n : 1 <= n -> lt n0 s -> lt n0 (s / nofnat n : N)%num.
Proof.
  intros Hn Hs. replace (s / nofnat n)%num with (s * (n1 / nofnat n))%num by (pose proof (nat_nz n Hn); field; auto).
  apply (olt_0_mul HO); auto. apply (olt_0_inv HO). now apply nat_pos.
Qed.
End Geo.
