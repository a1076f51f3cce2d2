(** Error bound at a stop by tolerance and number of sweeps, for iterations that contract towards the solution. *)
From Coq Require Import List Arith Bool Lia Ring Field.
From Verif Require Import Base BaseProofs Num OrdField Spec SpecProofs VectorModel MatI MatIProofs MatOps DetSpec LUModel LUSolve CholProofs CGMath
  IterModel CGProofs CGResult IterProofs IterResult UtilsSpec SorConv SorBlock.
Import ListNotations.
Local Open Scope nat_scope.
Open Scope res_scope.

Section Contract.
Context {N : Num} (HO : OrdFieldLaws N).
Let HF : FieldLaws N := of_field N HO.
Add Field jcfld : (fl_field N HF).
Notation le x y := (nleb x y = true).
Notation lt x y := (nltb x y = true).

Lemma sqr_le_abs (x e : N) : le (x * x)%num (e * e)%num -> le (nabs x) (nabs e).
Proof.
  intros H. destruct (of_le_total N HO (nabs x) (nabs e)) as [|H1]; auto.
  assert (E : forall y : N, (nabs y * nabs y)%num = (y * y)%num).
  { intros y. rewrite <- (oabs_mul HO). apply (of_abs_pos N HO), (ole_0_sqr HO). }
  assert (H2 : (nabs x * nabs x)%num = (nabs e * nabs e)%num).
  { apply (ole_antisym HO); [now rewrite !E|]. apply (ole_trans HO) with (nabs e * nabs x)%num.
    - apply (ole_mul_l HO); auto. apply (oabs_nonneg HO).
    - replace (nabs e * nabs x)%num with (nabs x * nabs e)%num by ring. apply (ole_mul_l HO); auto. apply (oabs_nonneg HO). }
  rewrite (nonneg_sqr_inj HO (nabs x) (nabs e)); auto using (oabs_nonneg HO). apply (ole_refl HO).
Qed.
Lemma bigsum_term_le n (g : nat -> N) k : k < n -> (forall i, i < n -> le n0 (g i)) -> le (g k) (bigsum n g).
Proof.
  induction n as [|n IH]; [lia|]. intros Hk Hg. cbn [bigsum].
  destruct (Nat.eq_dec k n) as [->|Hne].
  - apply (ole_sub HO). replace (bigsum n g + g n - g n)%num with (bigsum n g) by ring. apply (bigsum_nonneg HO). auto.
  - replace (g k) with (g k + n0)%num by ring. apply (ole_add HO); [apply IH; auto; lia|auto].
Qed.
Lemma largest n (f : nat -> N) : 0 < n -> exists k, k < n /\ forall i, i < n -> le (f i) (f k).
Proof.
  induction n as [|n IH]; intros Hn; [lia|]. destruct (Nat.eq_dec n 0) as [->|Hne].
  - exists 0. split; [lia|]. intros i Hi. replace i with 0 by lia. apply (ole_refl HO).
  - destruct IH as (k & Hk & H); [lia|]. destruct (of_le_total N HO (f k) (f n)) as [Hle|Hle].
    + exists n. split; [lia|]. intros i Hi. destruct (Nat.eq_dec i n) as [->|]; [apply (ole_refl HO)|].
      eapply (ole_trans HO); [apply H; lia|auto].
    + exists k. split; [lia|]. intros i Hi. destruct (Nat.eq_dec i n) as [->|]; auto. apply H. lia.
Qed.

Variables (n : nat) (X : nat -> nat -> N) (s : nat -> N) (q : N).
Hypothesis Hq0 : le n0 q.
Hypothesis Hq1 : lt q n1.
Hypothesis HC : forall k d, le n0 d -> (forall i, i < n -> le (nabs (X k i - s i)%num) d) -> forall i, i < n -> le (nabs (X (S k) i - s i)%num) (q * d)%num.

(** The stopping test bounds the error of the result. *)
Lemma stop_error eps maxIter it : run_ends n X maxIter (eps * eps)%num it -> it < maxIter ->
  forall i, i < n -> le ((n1 - q) * nabs (X it i - s i))%num (q * nabs eps)%num.
Proof.
  intros (_ & _ & He & _) Hit i Hi. destruct (He Hit) as (k & -> & Hd).
  destruct (largest n (fun j => nabs (X k j - s j)%num)) as (m & Hm & HM); [lia|].
  set (D := nabs (X k m - s m)%num) in *. assert (HD : le n0 D) by apply (oabs_nonneg HO).
  assert (HU : forall j, j < n -> le (nabs (X (S k) j - X k j)%num) (nabs eps)).
  { intros j Hj. apply sqr_le_abs. eapply (ole_trans HO); [|exact Hd]. unfold dist2.
    apply (bigsum_term_le n (fun j => (X (S k) j - X k j) * (X (S k) j - X k j))%num j Hj). intros; apply (ole_0_sqr HO). }
  pose proof (HC k D HD HM) as HS.
  assert (H1 : le D (q * D + nabs eps)%num).
  { unfold D at 1. replace (X k m - s m)%num with ((X (S k) m - s m) + - (X (S k) m - X k m))%num by ring.
    eapply (ole_trans HO); [apply (oabs_add HO)|]. rewrite (oabs_opp HO). apply (ole_add HO); auto. }
  assert (H2 : le ((n1 - q) * D)%num (nabs eps)).
  { apply (proj2 (ole_sub HO _ _)). replace (nabs eps - (n1 - q) * D)%num with ((q * D + nabs eps) - D)%num by ring. apply (proj1 (ole_sub HO _ _)); exact H1. }
  assert (Hq : le n0 (n1 - q)%num) by (apply (olt_le HO); apply (proj1 (olt_sub HO q n1)); exact Hq1).
  apply (ole_trans HO) with ((n1 - q) * (q * D))%num; [apply (ole_mul_l HO); auto|].
  replace ((n1 - q) * (q * D))%num with (q * ((n1 - q) * D))%num by ring. apply (ole_mul_l HO); auto.
Qed.
(** The sweeps needed: when the differences allowed by the contraction are within the tolerance, the iteration has stopped. *)
Lemma stop_count d eps maxIter it K : le n0 d -> (forall i, i < n -> le (nabs (X 0 i - s i)%num) d) ->
  run_ends n X maxIter (eps * eps)%num it ->
  le (bigsum n (fun _ => n1) * ((n1 + n1) * (qpow q K * d) * ((n1 + n1) * (qpow q K * d))))%num (eps * eps)%num -> it <= S K.
Proof.
  intros Hd H0 (Hmax & He & _ & _) HK. destruct (le_lt_dec it (S K)) as [|Hgt]; auto. exfalso.
  assert (Hk : forall k i, i < n -> le (nabs (X k i - s i)%num) (qpow q k * d)%num).
  { induction k as [|k IH]; intros i Hi; cbn [qpow].
    - replace (n1 * d)%num with d by ring. auto.
    - replace (q * qpow q k * d)%num with (q * (qpow q k * d))%num by ring. apply HC; auto.
      apply (ole_0_mul HO); auto. now apply (qpow_nonneg HO). }
  assert (T : le (dist2 n (X K) (X (S K))) (eps * eps)%num).
  { eapply (ole_trans HO); [|exact HK]. unfold dist2. rewrite <- (bigsum_mul_r HF). apply (bigsum_le HO). intros i Hi.
    replace (n1 * ((n1 + n1) * (qpow q K * d) * ((n1 + n1) * (qpow q K * d))))%num with ((n1 + n1) * (qpow q K * d) * ((n1 + n1) * (qpow q K * d)))%num by ring.
    set (B := (qpow q K * d)%num) in *. assert (HB : le n0 B) by (apply (ole_0_mul HO); auto; now apply (qpow_nonneg HO)).
    assert (Ha : le (nabs (X (S K) i - X K i)%num) ((n1 + n1) * B)%num).
    { replace (X (S K) i - X K i)%num with ((X (S K) i - s i) + - (X K i - s i))%num by ring. eapply (ole_trans HO); [apply (oabs_add HO)|].
      rewrite (oabs_opp HO). replace ((n1 + n1) * B)%num with (B + B)%num by ring. apply (ole_add HO); [|apply Hk; auto].
      eapply (ole_trans HO); [apply (HC K B HB (Hk K)); auto|]. replace B with (n1 * B)%num at 2 by ring.
      replace (q * B)%num with (B * q)%num by ring. replace (n1 * B)%num with (B * n1)%num by ring. apply (ole_mul_l HO); auto. now apply (olt_le HO). }
    assert (E : forall y : N, (nabs y * nabs y)%num = (y * y)%num).
    { intros y. rewrite <- (oabs_mul HO). apply (of_abs_pos N HO), (ole_0_sqr HO). }
    rewrite <- E. set (u := nabs (X (S K) i - X K i)%num) in *. assert (Hu : le n0 u) by apply (oabs_nonneg HO).
    apply (ole_trans HO) with (u * ((n1 + n1) * B))%num; [now apply (ole_mul_l HO)|].
    replace (u * ((n1 + n1) * B))%num with (((n1 + n1) * B) * u)%num by ring. apply (ole_mul_l HO); auto.
    eapply (ole_trans HO); [exact Hu|exact Ha]. }
  rewrite (He K ltac:(lia) Hgt) in T. discriminate.
Qed.
(** Such a number of sweeps exists in an archimedean field. *)
Lemma count_exists (HN : NatLaws N) (HA : archimedean N) d (eps : N) : le n0 d -> eps <> n0 ->
  exists K, le (bigsum n (fun _ => n1) * ((n1 + n1) * (qpow q K * d) * ((n1 + n1) * (qpow q K * d))))%num (eps * eps)%num.
Proof.
  intros Hd He. pose proof (olt_0_sqr HO eps He) as Hp.
  set (c := (bigsum n (fun _ => n1) * ((n1 + n1) * d * ((n1 + n1) * d)))%num).
  assert (Hc : le n0 c).
  { apply (ole_0_mul HO); [apply (bigsum_nonneg HO); intros; apply (olt_le HO), (olt_0_1 HO)|apply (ole_0_sqr HO)]. }
  destruct (geometric_small HO HN HA q c (eps * eps)%num Hq0 Hq1 Hp) as (K & HK). exists K. apply (olt_le HO).
  eapply (ole_lt_trans HO); [|exact HK].
  match goal with |- le ?e _ => replace e with (c * qpow q K * qpow q K)%num by (unfold c; ring) end.
  replace (c * qpow q K)%num with (c * qpow q K * n1)%num at 2 by ring. apply (ole_mul_l HO).
  - apply (ole_0_mul HO); auto. now apply (qpow_nonneg HO).
  - apply (qpow_mono HO q 0 K); auto; [now apply (olt_le HO)|lia].
Qed.
End Contract.

Section Run.
Context {N : Num} (HO : OrdFieldLaws N) {M : RowMat N} (HR : RowLaws M).
Variables (A : M) (n : nat) (a : nat -> nat -> N) (b x0 : list N).
Hypotheses (HA : holds A n n a) (Hb : length b = n) (Hx : length x0 = n).
Notation le x y := (nleb x y = true).

Lemma jac_steps q s maxIter eps : nz_diag n a -> dominant n a q -> le n0 q -> solves n a s b -> exists X it,
  it_jacobi A b x0 maxIter eps = Ok (V n (X it), it) /\ (forall i, i < n -> X 0 i = nth i x0 n0) /\ run_ends n X maxIter (eps * eps)%num it /\
  forall k d, le n0 d -> (forall i, i < n -> le (nabs (X k i - nth i s n0)%num) d) -> forall i, i < n -> le (nabs (X (S k) i - nth i s n0)%num) (q * d)%num.
Proof.
  intros Hd Hq Hq0 Hs. destruct (jacobi_run HO HR A n a b x0 HA Hb Hx maxIter eps) as (X & it & E & H0 & H1 & He).
  exists X, it. split; auto. split; auto. split; auto. intros k d Hd0 H i Hi. rewrite H1 by auto.
  apply (jac_contract HO n a (fun i => nth i b n0) (X k) (fun j => nth j s n0)); auto.
Qed.
Lemma gs_steps q s maxIter eps : nz_diag n a -> dominant n a q -> le n0 q -> le q n1 -> solves n a s b -> exists X it,
  it_sor A b x0 n1 maxIter eps = Ok (V n (X it), it) /\ (forall i, i < n -> X 0 i = nth i x0 n0) /\ run_ends n X maxIter (eps * eps)%num it /\
  forall k d, le n0 d -> (forall i, i < n -> le (nabs (X k i - nth i s n0)%num) d) -> forall i, i < n -> le (nabs (X (S k) i - nth i s n0)%num) (q * d)%num.
Proof.
  intros Hd Hq Hq0 Hq1 Hs. destruct (sor_run HO HR A n a b x0 HA Hb Hx n1 maxIter eps) as (X & it & E & H0 & H1 & H2 & He).
  exists X, it. split; auto. split; auto. split; auto. intros k d Hd0 H i Hi.
  assert (Ho : exists old, sor_eq n a (fun i => nth i b n0) n1 old (X k) (X (S k))).
  { destruct k; [exists (fun _ => n0); auto|exists (X (S k)); apply H2; lia]. }
  destruct Ho as (old & Ho).
  apply (gs_contract HO n a (fun i => nth i b n0) old (X k) (X (S k)) (fun j => nth j s n0)); auto.
Qed.
(** Whatever the iteration: error at the stop, number of sweeps. *)
Definition stops_well (q d : N) s eps maxIter (r : res (list N * nat)) : Prop :=
  exists y it, r = Ok (y, it) /\ length y = n /\ it <= maxIter /\
    (it < maxIter -> forall i, i < n -> le ((n1 - q) * nabs (nth i y n0 - nth i s n0))%num (q * nabs eps)%num) /\
    (forall K, le (bigsum n (fun _ => n1) * ((n1 + n1) * (qpow q K * d) * ((n1 + n1) * (qpow q K * d))))%num (eps * eps)%num -> it <= S K).
Lemma stops_gen q d s eps maxIter X it r : r = Ok (V n (X it), it) -> (forall i, i < n -> X 0 i = nth i x0 n0) -> run_ends n X maxIter (eps * eps)%num it ->
  (forall k d, le n0 d -> (forall i, i < n -> le (nabs (X k i - nth i s n0)%num) d) -> forall i, i < n -> le (nabs (X (S k) i - nth i s n0)%num) (q * d)%num) ->
  le n0 q -> nltb q n1 = true -> le n0 d -> (forall i, i < n -> le (nabs (nth i x0 n0 - nth i s n0)%num) d) -> stops_well q d s eps maxIter r.
Proof.
  intros E H0 He HC Hq0 Hq1 Hd H. exists (V n (X it)), it. split; auto. split; [unfold V; now rewrite map_length, seq_length|]. split; [apply He|]. split.
  - intros Hit i Hi. rewrite (V_nth n _ _ _ Hi). exact (stop_error HO n X (fun i => nth i s n0) q Hq0 Hq1 HC eps maxIter it He Hit i Hi).
  - intros K HK. apply (stop_count HO n X (fun i => nth i s n0) q Hq0 Hq1 HC d eps maxIter it K); auto. intros i Hi. rewrite H0 by auto. auto.
Qed.
Lemma jac_stops q d s eps maxIter : nz_diag n a -> dominant n a q -> le n0 q -> nltb q n1 = true -> solves n a s b -> le n0 d ->
  (forall i, i < n -> le (nabs (nth i x0 n0 - nth i s n0)%num) d) -> stops_well q d s eps maxIter (it_jacobi A b x0 maxIter eps).
Proof.
  intros Hz Hq Hq0 Hq1 Hs Hd H. destruct (jac_steps q s maxIter eps Hz Hq Hq0 Hs) as (X & it & E & H0 & He & HC).
  exact (stops_gen q d s eps maxIter X it _ E H0 He HC Hq0 Hq1 Hd H).
Qed.
Lemma gs_stops q d s eps maxIter : nz_diag n a -> dominant n a q -> le n0 q -> nltb q n1 = true -> solves n a s b -> le n0 d ->
  (forall i, i < n -> le (nabs (nth i x0 n0 - nth i s n0)%num) d) -> stops_well q d s eps maxIter (it_sor A b x0 n1 maxIter eps).
Proof.
  intros Hz Hq Hq0 Hq1 Hs Hd H. destruct (gs_steps q s maxIter eps Hz Hq Hq0 (olt_le HO _ _ Hq1) Hs) as (X & it & E & H0 & He & HC).
  exact (stops_gen q d s eps maxIter X it _ E H0 He HC Hq0 Hq1 Hd H).
Qed.
(** With enough sweeps allowed, the tolerance is what stops it. *)
Lemma both_terminate (HN : NatLaws N) (HAr : archimedean N) q s eps : nz_diag n a -> dominant n a q -> le n0 q -> nltb q n1 = true -> solves n a s b -> eps <> n0 ->
  exists K, forall maxIter, K < maxIter ->
    (exists y it, it_jacobi A b x0 maxIter eps = Ok (y, it) /\ it <= K /\ forall i, i < n -> le ((n1 - q) * nabs (nth i y n0 - nth i s n0))%num (q * nabs eps)%num) /\
    (exists y it, it_sor A b x0 n1 maxIter eps = Ok (y, it) /\ it <= K /\ forall i, i < n -> le ((n1 - q) * nabs (nth i y n0 - nth i s n0))%num (q * nabs eps)%num).
Proof.
  intros Hz Hq Hq0 Hq1 Hs He.
  assert (HD : exists d, le n0 d /\ forall i, i < n -> le (nabs (nth i x0 n0 - nth i s n0)%num) d).
  { destruct (Nat.eq_dec n 0) as [Hn|Hn]; [exists n0; split; [apply (ole_refl HO)|intros i Hi; exfalso; revert Hi; rewrite Hn; apply Nat.nlt_0_r]|].
    destruct (largest HO n (fun i => nabs (nth i x0 n0 - nth i s n0)%num)) as (k & _ & Hk); [lia|]. eexists. split; [|exact Hk]. apply (oabs_nonneg HO). }
  destruct HD as (d & Hd & H). destruct (count_exists HO n q Hq0 Hq1 HN HAr d eps Hd He) as (K & HK). exists (S K). intros maxIter Hm. split.
  - destruct (jac_stops q d s eps maxIter Hz Hq Hq0 Hq1 Hs Hd H) as (y & it & E & _ & _ & H1 & H2). exists y, it. split; auto. specialize (H2 K HK). split; auto. apply H1. lia.
  - destruct (gs_stops q d s eps maxIter Hz Hq Hq0 Hq1 Hs Hd H) as (y & it & E & _ & _ & H1 & H2). exists y, it. split; auto. specialize (H2 K HK). split; auto. apply H1. lia.
Qed.
End Run.
