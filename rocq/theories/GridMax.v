(** Discrete maximum principle and its consequences for the two schemes. *)
From Coq Require Import List Arith Bool Lia Ring Field.
From Verif Require Import Base BaseProofs Num OrdField Spec SpecProofs UtilsSpec UtilsProofs GridModel GridSpec GridProofs GridPoisson.
Import ListNotations.
Local Open Scope nat_scope.

Section Max.
Context {N : Num} (HO : OrdFieldLaws N).
Let HF : FieldLaws N := of_field N HO.
Add Field gmfld : (fl_field N HF).
Notation le x y := (nleb x y = true).
Notation lt x y := (nltb x y = true).
Implicit Types (w : nat -> N).

Lemma olt_dec (x y : N) : lt x y \/ le y x.
Proof. destruct (nleb y x) eqn:E; auto. left. rewrite (of_lt N HO), E. reflexivity. Qed.
Lemma first_max n w : 0 < n -> exists p, p < n /\ (forall q, q < n -> le (w q) (w p)) /\ (forall q, q < p -> lt (w q) (w p)).
Proof.
  induction n as [|n IH]; [lia|]. intros _. destruct n as [|n].
  - exists 0. split; [lia|]. split; [|lia]. intros q Hq. replace q with 0 by lia. apply (of_le_refl N HO).
  - destruct IH as (p & Hp & H1 & H2); [lia|]. destruct (olt_dec (w p) (w (S n))) as [Hl|Hl].
    + exists (S n). split; [lia|]. split.
      * intros q Hq. destruct (Nat.eq_dec q (S n)) as [->|]; [apply (of_le_refl N HO)|].
        apply (of_le_trans N HO) with (w p); [apply H1; lia|now apply (olt_le HO)].
      * intros q Hq. apply (ole_lt_trans HO) with (w p); [apply H1; lia|exact Hl].
    + exists p. split; [lia|]. split; auto. intros q Hq. destruct (Nat.eq_dec q (S n)) as [->|]; auto. apply H1. lia.
Qed.
Lemma ole_0_opp (x : N) : le n0 (- x)%num -> le x n0.
Proof. intros H. now apply (ole_opp HO). Qed.
Lemma ole_neg_sum (x y : N) : le x n0 -> le y n0 -> le (x + y)%num n0.
Proof. intros H1 H2. replace (@n0 N) with (n0 + n0 : N)%num by ring. now apply (ole_add HO). Qed.

Lemma rowsum_le (row : list (nat * N)) (g : nat -> N) : (forall q c, In (q, c) row -> le n0 c /\ le (g q) n0) -> le (rowsum row g) n0.
Proof.
  induction row as [|[q c] row IH]; cbn [rowsum fold_right fst snd]; intros H; [apply (of_le_refl N HO)|].
  apply ole_neg_sum; [|apply IH; intros; apply H; now right].
  destruct (H q c (or_introl eq_refl)) as [Hc Hg]. apply ole_0_opp. replace (- (c * g q))%num with (c * (- g q))%num by ring.
  apply (ole_0_mul HO); auto. now apply (ole_opp HO).
Qed.
Lemma rowsum_lt (row : list (nat * N)) (g : nat -> N) : (forall q c, In (q, c) row -> le n0 c /\ le (g q) n0) ->
  (exists q c, In (q, c) row /\ lt n0 c /\ lt (g q) n0) -> lt (rowsum row g) n0.
Proof.
  induction row as [|[q c] row IH]; intros H (q' & c' & Hi & Hc & Hg); [destruct Hi|].
  change (rowsum ((q, c) :: row) g) with (c * g q + rowsum row g)%num. apply (olt_sub HO). destruct Hi as [E|Hi].
  - injection E as -> ->. replace (n0 - (c' * g q' + rowsum row g))%num with (c' * (n0 - g q') + - rowsum row g)%num by ring.
    apply (olt_0_add HO); [apply (olt_0_mul HO); auto; now apply (olt_sub HO) in Hg|].
    apply (ole_opp HO). apply rowsum_le. intros; apply H; now right.
  - replace (n0 - (c * g q + rowsum row g))%num with ((n0 - rowsum row g) + c * (- g q))%num by ring.
    apply (olt_0_add HO).
    + apply -> (olt_sub HO). apply IH; [intros; apply H; now right|eauto].
    + destruct (H q c (or_introl eq_refl)) as [Hc' Hg']. apply (ole_0_mul HO); auto. now apply (ole_opp HO).
Qed.

(** At an inner index the weighted differences to the neighbours are not all negative; some neighbour with positive weight
    has a smaller index.  Then the maximum is attained outside. *)
Lemma max_principle n (inner : nat -> bool) (off : nat -> list (nat * N)) w (B : N) :
  (forall i, i < n -> inner i = true ->
     (forall q c, In (q, c) (off i) -> q < n /\ le n0 c) /\ (exists q c, In (q, c) (off i) /\ q < i /\ lt n0 c) /\
     le n0 (rowsum (off i) (fun q => w q - w i)%num)) ->
  (forall i, i < n -> inner i = false -> le (w i) B) -> forall i, i < n -> le (w i) B.
Proof.
  intros Hin Hout i Hi. destruct (first_max n w) as (p & Hp & H1 & H2); [lia|].
  apply (of_le_trans N HO) with (w p); [now apply H1|]. destruct (inner p) eqn:E; [|now apply Hout].
  exfalso. destruct (Hin p Hp E) as (Ho & (q & c & Hq & Hqp & Hc) & Hs).
  assert (L : lt (rowsum (off p) (fun q => w q - w p)%num) n0).
  { apply rowsum_lt.
    - intros q' c' Hi'. destruct (Ho q' c' Hi') as [Hn Hc']. split; auto. apply ole_0_opp. replace (- (w q' - w p))%num with (w p - w q')%num by ring.
      apply -> (ole_sub HO). now apply H1.
    - exists q, c. repeat split; auto. apply (olt_sub HO). replace (n0 - (w q - w p))%num with (w p - w q)%num by ring. apply -> (olt_sub HO). now apply H2. }
  apply (olt_iff HO) in L. contradiction.
Qed.

Lemma oabs_le_iff (x B : N) : le (nabs x) B <-> le x B /\ le (- x)%num B.
Proof.
  split.
  - intros H. split; apply (of_le_trans N HO) with (nabs x); auto; [|rewrite <- (oabs_opp HO)]; apply (oabs_le HO).
  - intros [H1 H2]. destruct (of_le_total N HO n0 x) as [P|P]; [now rewrite (of_abs_pos N HO)|now rewrite (of_abs_neg N HO)].
Qed.
Context (HN : NatLaws N).
Lemma nat_nonneg k : le (@n0 N) (nofnat k).
Proof.
  induction k as [|k IH]; [rewrite (nl_0 N HN); apply (of_le_refl N HO)|].
  rewrite (nl_S N HN). apply (ole_0_add HO); auto. apply (olt_le HO), (olt_0_1 HO).
Qed.
Lemma nat_le a b : a <= b -> le (@nofnat N a) (nofnat b).
Proof. intros H. apply (ole_sub HO). rewrite <- (nat_sub HF HN) by auto. apply nat_nonneg. Qed.
Lemma two_pos : lt (@n0 N) (n1 + n1)%num.
Proof. apply (olt_0_add HO); [|apply (olt_le HO)]; apply (olt_0_1 HO). Qed.
Lemma two_ne : (n1 + n1)%num <> @n0 N.
Proof. intros E. pose proof two_pos as H. rewrite E in H. now apply (olt_irrefl HO) in H. Qed.
Lemma inv_sq_pos (h : N) : h <> n0 -> lt n0 (n1 / (h * h))%num.
Proof. intros H. apply (olt_0_inv HO). now apply (olt_0_sqr HO). Qed.

Section Poisson.
Variables (XC YC : nat) (H K : N).
Hypothesis (HH : H <> n0) (HK : K <> n0).
Local Notation lin := (lin2 XC).

Local Notation bubble := (bubble XC H).
Lemma bubble_nonneg x : x < XC -> le n0 (bubble x).
Proof.
  intros Hx. unfold bubble.
  replace (nofnat x * H * (nofnat (XC - 1) * H - nofnat x * H) / (n1 + n1))%num
    with ((nofnat x * (nofnat (XC - 1) - nofnat x)) * ((H * H) * (n1 / (n1 + n1))))%num by (field; apply two_ne).
  apply (ole_0_mul HO).
  - apply (ole_0_mul HO); [apply nat_nonneg|]. apply -> (ole_sub HO). apply nat_le. lia.
  - apply (ole_0_mul HO); [apply (ole_0_sqr HO)|]. apply (olt_le HO), (olt_0_inv HO), two_pos.
Qed.
Lemma bubble_diff2 x : 0 < x -> diff2 H (bubble (x - 1)) (bubble x) (bubble (x + 1)) = (- n1)%num.
Proof.
  intros Hx. unfold diff2, bubble. rewrite (nat_plus HF HN). rewrite (nat_sub HF HN x 1) by lia.
  assert (E1 : @nofnat N 1 = n1) by (rewrite (nl_S N HN), (nl_0 N HN); ring). rewrite E1. field. split; auto. apply two_ne.
Qed.

Lemma poisson_upper (e : nat -> nat -> N) (B r : N) :
  (forall x y, x < XC -> y < YC -> on_rim XC YC x y -> le (e x y) B) ->
  (forall x y, x < XC -> y < YC -> ~ on_rim XC YC x y -> le (- r)%num (laplace H K e x y)) -> le n0 r ->
  forall x y, x < XC -> y < YC -> le (e x y) (B + r * bubble x)%num.
Proof.
  intros Hrim Hin Hr x y Hx Hy.
  set (g := fun x y => (e x y - r * bubble x)%num).
  set (w := fun i => g (i mod XC) (i / XC)).
  assert (Ew : forall x y, x < XC -> w (lin x y) = g x y) by (intros x' y' Hx'; unfold w; now rewrite lin2_x, lin2_y).
  set (off := fun i => let x := i mod XC in let y := i / XC in
    [(lin (x - 1) y, n1 / (H * H)); (lin (x + 1) y, n1 / (H * H)); (lin x (y - 1), n1 / (K * K)); (lin x (y + 1), n1 / (K * K))]%num).
  assert (G : le (w (lin x y)) B).
  { apply (max_principle (XC * YC) (fun i => negb (rimb XC YC (i mod XC) (i / XC))) off).
    - intros i Hi Hb. destruct (lin2_of XC YC i Hi) as (x' & y' & Hx' & Hy' & ->). unfold off. cbn zeta.
      rewrite lin2_x, lin2_y in * by auto. apply negb_true_iff, rimb_false in Hb. pose proof Hb as Hn. unfold on_rim in Hb. split; [|split].
      + pose proof (olt_le HO _ _ (inv_sq_pos H HH)). pose proof (olt_le HO _ _ (inv_sq_pos K HK)).
        intros q c Hq. cbn [In] in Hq. destruct Hq as [E|[E|[E|[E|[]]]]]; injection E as <- <-; (split; [apply lin2_lt; lia|auto]).
      + exists (lin (x' - 1) y'), (n1 / (H * H))%num. split; [now left|]. split; [unfold lin2; lia|]. now apply inv_sq_pos.
      + unfold rowsum. cbn [fold_right fst snd]. rewrite !Ew by lia.
        match goal with |- le n0 ?t => replace t with (laplace H K e x' y' - (- r))%num end; [apply -> (ole_sub HO); auto|].
        transitivity (laplace H K e x' y' - r * diff2 H (bubble (x' - 1)) (bubble x') (bubble (x' + 1)))%num;
          [rewrite bubble_diff2 by lia; ring|].
        unfold laplace, diff2, g. field. auto.
    - intros i Hi Hb. destruct (lin2_of XC YC i Hi) as (x' & y' & Hx' & Hy' & ->).
      rewrite lin2_x, lin2_y in Hb by auto. apply negb_false_iff, rimb_spec in Hb. rewrite Ew by auto. unfold g.
      apply (of_le_trans N HO) with (e x' y'); [|auto]. apply (ole_sub HO).
      replace (e x' y' - (e x' y' - r * bubble x'))%num with (r * bubble x')%num by ring. apply (ole_0_mul HO); auto. now apply bubble_nonneg.
    - now apply lin2_lt. }
  rewrite Ew in G by auto. unfold g in G. apply (ole_sub HO).
  replace (B + r * bubble x - e x y)%num with (B - (e x y - r * bubble x))%num by ring. now apply -> (ole_sub HO).
Qed.
Lemma laplace_sub u v x y : laplace H K (fun x y => u x y - v x y)%num x y = (laplace H K u x y - laplace H K v x y)%num.
Proof. unfold laplace, diff2. field. auto. Qed.
(** Stability: the error is bounded by the error on the rim plus the defect times X (W - X) / 2. *)
Lemma poisson_stable (u v : nat -> nat -> N) (B r : N) :
  (forall x y, x < XC -> y < YC -> on_rim XC YC x y -> le (nabs (u x y - v x y)%num) B) ->
  (forall x y, x < XC -> y < YC -> ~ on_rim XC YC x y -> le (nabs (laplace H K u x y - laplace H K v x y)%num) r) -> le n0 r ->
  forall x y, x < XC -> y < YC -> le (nabs (u x y - v x y)%num) (B + r * bubble x)%num.
Proof.
  intros H1 H2 Hr x y Hx Hy. apply oabs_le_iff. split.
  - apply (poisson_upper (fun x y => u x y - v x y)%num); auto.
    + intros x' y' Hx' Hy' Hb. now apply oabs_le_iff, H1.
    + intros x' y' Hx' Hy' Hb. rewrite laplace_sub. specialize (H2 x' y' Hx' Hy' Hb). apply oabs_le_iff in H2 as [_ H2].
      apply (ole_sub HO). apply (ole_sub HO) in H2.
      match goal with |- le n0 ?t => replace t with (r - - (laplace H K u x' y' - laplace H K v x' y'))%num by ring end. exact H2.
  - replace (- (u x y - v x y))%num with (v x y - u x y)%num by ring.
    apply (poisson_upper (fun x y => v x y - u x y)%num); auto.
    + intros x' y' Hx' Hy' Hb. specialize (H1 x' y' Hx' Hy' Hb). apply oabs_le_iff in H1 as [_ H1].
      now replace (v x' y' - u x' y')%num with (- (u x' y' - v x' y'))%num by ring.
    + intros x' y' Hx' Hy' Hb. rewrite laplace_sub. specialize (H2 x' y' Hx' Hy' Hb). apply oabs_le_iff in H2 as [H2 _].
      apply (ole_sub HO). apply (ole_sub HO) in H2.
      match goal with |- le n0 ?t => replace t with (r - (laplace H K u x' y' - laplace H K v x' y'))%num by ring end. exact H2.
Qed.
End Poisson.
End Max.
