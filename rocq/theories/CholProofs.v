(** Proofs about cholesky. *)
From Coq Require Import List Arith Bool Lia Ring Field.
From Verif Require Import Base BaseProofs Num OrdField Spec SpecProofs MatI MatIProofs DenseSpec DetSpec DetProofs DetMult LUModel LUProofs.
Import ListNotations.
Local Open Scope nat_scope.
Open Scope res_scope.

Section Chol.
Context {N : Num} {I : MatI N} (HL : MatLaws I) (HO : OrdFieldLaws N) (HS : SqrtLaws N).
Let HF : FieldLaws N := of_field N HO.
Add Field cholfld : (fl_field N HF).
Implicit Types (a l : nat -> nat -> N).

Definition symmetric2 n a : Prop := forall i j, i < n -> j < n -> a i j = a j i.
(** x^T A x > 0 for every x <> 0 *)
Definition pos_def n a : Prop := forall x : nat -> N, (exists i, i < n /\ x i <> n0) ->
  nltb n0 (bigsum n (fun i => bigsum n (fun j => x i * a i j * x j)))%num = true.

Lemma sum_ok (L : I) n l i j m : holds L n n l -> i < n -> j < n -> m <= n ->
  chol_sum L i j m = Ok (bigsum m (fun k => l i k * l j k)%num).
Proof.
  intros H Hi Hj Hm. unfold chol_sum.
  destruct (for_returns (fun k s => s = bigsum k (fun k => l i k * l j k)%num) 0 m
    (fun k s => let* x := mi_at L i k in let* y := mi_at L j k in Ok (s + x * y)%num) n0) as (s & -> & ->); auto; try lia.
  intros k s Hk ->. rewrite !(holds_at _ _ _ _ _ _ H) by lia. cbn [bind]. eexists. split; reflexivity.
Qed.

(** The first j columns are done. *)
Definition chol_inv n a j l : Prop :=
  (forall i k, i < n -> k < n -> i < k \/ j <= k -> l i k = n0) /\
  (forall i k, i < n -> k <= i -> k < j -> bigsum (S k) (fun t => l i t * l k t)%num = a i k) /\
  (forall k, k < j -> nltb n0 (l k k) = true).

(** Some x with x_j = 1 makes the first j squares vanish. *)
Lemma null_vec n a j l : j < n -> chol_inv n a j l -> exists x : nat -> N, x j = n1 /\ (forall i, j < i -> x i = n0) /\
  forall t, t < j -> bigsum (S j) (fun i => x i * l i t)%num = n0.
Proof.
  intros Hj (H1 & H2 & H3).
  assert (H : forall m, m <= j -> exists x : nat -> N, x j = n1 /\ (forall i, j < i -> x i = n0) /\
    forall t, j - m <= t -> t < j -> bigsum (S j) (fun i => x i * l i t)%num = n0).
  { induction m as [|m IH]; intros Hm.
    - exists (fun i => if i =? j then n1 else n0). split; [now rewrite Nat.eqb_refl|]. split; [intros; bcase; auto|lia].
    - destruct IH as (x & X1 & X2 & X3); [lia|]. set (t0 := j - S m).
      set (s := bigsum (S j) (fun i => (if i =? t0 then n0 else x i) * l i t0)%num).
      assert (Hnz : l t0 t0 <> n0).
      { intros E. specialize (H3 t0). rewrite E in H3. apply (olt_irrefl HO n0). apply H3. lia. }
      exists (fun i => if i =? t0 then (- s / l t0 t0)%num else x i). split; [bcase; auto|]. split; [intros; bcase; auto|].
      intros t Ht Htj. destruct (Nat.eq_dec t t0) as [->|Hne].
      + rewrite (bigsum_ext (S j) _ (fun i => (if i =? t0 then n0 else x i) * l i t0 + (if i =? t0 then - s else n0))%num).
        * rewrite (bigsum_plus HF). fold s. rewrite (bigsum_single HF (S j) t0); [rewrite Nat.eqb_refl; ring|lia|].
          intros k Hk Hne. bcase. auto.
        * intros i Hi. bcase; subst; [field; auto|ring].
      + rewrite <- (X3 t) by lia. apply bigsum_ext. intros i Hi. bcase; auto. subst i. rewrite (H1 t0 t) by lia. ring. }
  destruct (H j) as (x & X1 & X2 & X3); auto. exists x. split; auto. split; auto. intros t Ht. apply X3; lia.
Qed.

(** The j-th pivot is a value of the quadratic form. *)
Lemma pivot_form n a j l : j < n -> symmetric2 n a -> chol_inv n a j l -> exists x : nat -> N, x j = n1 /\
  bigsum n (fun i => bigsum n (fun k => x i * a i k * x k))%num = (a j j - bigsum j (fun t => l j t * l j t))%num.
Proof.
  intros Hj Hs Hi. destruct (null_vec n a j l Hj Hi) as (x & X1 & X2 & X3). destruct Hi as (H1 & H2 & H3).
  exists x. split; auto.
  set (s := (a j j - bigsum j (fun t => l j t * l j t))%num).
  (* entries of the leading block *)
  assert (E : forall i k, i <= j -> k <= j -> a i k = (bigsum j (fun t => l i t * l k t) + (if (i =? j) && (k =? j) then s else n0))%num).
  { assert (E1 : forall i k, i <= j -> k < j -> k <= i -> a i k = bigsum j (fun t => l i t * l k t)%num).
    { intros i k Hi Hk Hki. rewrite <- H2 by lia. symmetry. apply (bigsum_trunc HF); [lia|].
      intros t Ht. rewrite (H1 k t) by lia. ring. }
    intros i k Hi Hk. destruct (Nat.eq_dec i j) as [->|Hij]; destruct (Nat.eq_dec k j) as [->|Hkj]; bcase.
    - unfold s. ring.
    - rewrite (E1 j k) by lia. ring.
    - rewrite (Hs i j) by lia. rewrite (E1 j i) by lia. rewrite (bigsum_ext j (fun t => l j t * l i t)%num (fun t => l i t * l j t)%num) by (intros; ring). ring.
    - destruct (Nat.le_gt_cases k i).
      + rewrite (E1 i k) by lia. ring.
      + rewrite (Hs i k) by lia. rewrite (E1 k i) by lia. rewrite (bigsum_ext j (fun t => l k t * l i t)%num (fun t => l i t * l k t)%num) by (intros; ring). ring. }
  rewrite (bigsum_trunc HF n (S j)) by (try lia; intros i Hi; apply (bigsum_0 HF); intros k Hk; rewrite (X2 i) by lia; ring).
  rewrite (bigsum_ext (S j) _ (fun i => bigsum j (fun t => (x i * l i t) * bigsum (S j) (fun k => x k * l k t)) + (if i =? j then s else n0))%num).
  - rewrite (bigsum_plus HF). rewrite (bigsum_0 HF (S j)).
    + rewrite (bigsum_single HF (S j) j); [rewrite Nat.eqb_refl; unfold s; ring|lia|intros k Hk Hne; bcase; auto].
    + intros i Hi. apply (bigsum_0 HF). intros t Ht. rewrite X3 by auto. ring.
  - intros i Hi. rewrite (bigsum_trunc HF n (S j)) by (try lia; intros k Hk; rewrite (X2 k) by lia; ring).
    rewrite (bigsum_ext (S j) _ (fun k => bigsum j (fun t => (x i * l i t) * (x k * l k t)) + x i * (if (i =? j) && (k =? j) then s else n0) * x k)%num).
    + rewrite (bigsum_plus HF). rewrite (bigsum_swap HF). f_equal.
      * apply bigsum_ext. intros t Ht. now rewrite (bigsum_mul_l HF).
      * rewrite (bigsum_single HF (S j) j); [|lia|intros k Hk Hne; bcase; ring]. rewrite Nat.eqb_refl.
        destruct (Nat.eqb_spec i j); cbn [andb]; subst; rewrite ?X1; ring.
    + intros k Hk. rewrite (E i k) by lia.
      rewrite (bigsum_ext j (fun t => x i * l i t * (x k * l k t))%num (fun t => x i * x k * (l i t * l k t))%num) by (intros; ring).
      rewrite (bigsum_mul_l HF). ring.
Qed.

Lemma inner_ok (m L : I) n a l j : j < n -> holds m n n a -> holds L n n l -> 
  (forall i k, i < n -> k < n -> i < k \/ j < k -> l i k = n0) ->
  (forall i, j < i -> i < n -> l i j = n0) ->
  l j j <> n0 -> (l j j * l j j + bigsum j (fun t => l j t * l j t) = a j j)%num ->
  returns (for_ j n (fun i L =>
          let* s := chol_sum L i j i in
          let* mij := mi_at m i j in
          let* d := mi_at L j j in
          mi_set L i j ((mij - s) / d)%num) L)
    (fun L' => holds L' n n (fun i k => if (k =? j) && (j <? i) then ((a i j - bigsum j (fun t => l i t * l j t)) / l j j)%num else l i k)).
Proof.
  intros Hj Hm HLl Hz Hz2 Hd Hdj.
  eapply returns_mono; [apply (for_returns (fun h L' => holds L' n n (fun i k => if (k =? j) && (j <? i) && (i <? h)
    then ((a i j - bigsum j (fun t => l i t * l j t)) / l j j)%num else l i k))); try lia| ].
  - eapply holds_ext; [exact HLl|]. intros i k Hi Hk. cbn beta. bcase; auto.
  - intros i L' Hi HL'. rewrite (sum_ok L' n _ i j i HL') by lia. cbn [bind].
    rewrite (holds_at _ _ _ _ _ _ Hm) by lia. cbn [bind]. rewrite (holds_at _ _ _ _ _ _ HL') by lia. cbn [bind].
    match goal with |- returns (mi_set L' i j ?v) _ => destruct (holds_set HL L' n n _ i j v HL') as (L2 & E & H2); [lia|lia|] end.
    exists L2. split; [exact E|]. eapply holds_ext; [exact H2|]. intros i' k' Hi' Hk'. unfold put2. cbn beta.
    assert (S0 : bigsum i (fun k => (if (k =? j) && (j <? i) && (i <? i) then (a i j - bigsum j (fun t => l i t * l j t)) / l j j else l i k) *
                                  (if (k =? j) && (j <? j) && (j <? i) then (a j j - bigsum j (fun t => l j t * l j t)) / l j j else l j k))%num
                 = bigsum j (fun t => l i t * l j t)%num).
    { rewrite (bigsum_trunc HF i j); [|lia|].
      - apply bigsum_ext. intros t Ht. bcase. auto.
      - intros t Ht. rewrite !Nat.ltb_irrefl, !andb_false_r. cbn [andb].
        destruct (Nat.eq_dec t j) as [->|]; [rewrite (Hz2 i) by lia|rewrite (Hz j t) by lia]; ring. }
    rewrite S0. rewrite !Nat.ltb_irrefl, andb_false_r. cbn [andb].
    destruct (Nat.eqb_spec i' i); [subst i'|bcase; subst; auto].
    destruct (Nat.eqb_spec k' j); [subst k'|bcase; auto]. cbn [andb].
    destruct (Nat.ltb_spec i (S i)); [|lia]. destruct (Nat.ltb_spec j i); cbn [andb]; [reflexivity|].
    replace i with j by lia. rewrite <- Hdj. field. auto.
  - intros L' HL'. eapply holds_ext; [exact HL'|]. intros i k Hi Hk. cbn beta. bcase; auto.
Qed.

(** x^T A x *)
Definition form n a (x : nat -> N) : N := bigsum n (fun i => bigsum n (fun j => x i * a i j * x j))%num.
Definition pivot l a j : N := (a j j - bigsum j (fun t => l j t * l j t))%num.
Definition chol_done n a (L : I) : Prop := exists l, holds L n n l /\ (forall i j, i < j -> j < n -> l i j = n0) /\
    (forall i, i < n -> nltb n0 (l i i) = true) /\
    forall i j, i < n -> j < n -> bigsum n (fun k => l i k * l j k)%num = a i j.
Definition chol_fail n a (e : exn) : Prop := e = NotPositiveDefinite /\
  exists x, (exists i, i < n /\ x i <> n0) /\ nltb (form n a x) n0 = true.
Lemma cholesky_gen (m L0 : I) n a : holds m n n a -> holds L0 n n (fun _ _ => n0) -> symmetric2 n a ->
  (forall j l, j < n -> chol_inv n a j l -> pivot l a j <> n0) ->
  post (cholesky m L0) (chol_done n a) (chol_fail n a).
Proof.
  intros Hm H0 Hs Hp. unfold cholesky.
  rewrite (holds_rows _ _ _ _ Hm), (holds_cols _ _ _ _ Hm), (holds_rows _ _ _ _ H0), (holds_cols _ _ _ _ H0), !Nat.eqb_refl. cbn [negb orb].
  eapply post_mono; [apply (for_post (fun j L => exists l, holds L n n l /\ chol_inv n a j l) (chol_fail n a)); try lia| |auto].
  - eexists. split; [exact H0|]. split; auto. split; intros; lia.
  - intros j L Hj (l & HLl & Hi). rewrite (sum_ok L n l j j j HLl) by lia. cbn [bind].
    rewrite (holds_at _ _ _ _ _ _ Hm) by lia. cbn [bind].
    destruct (pivot_form n a j l) as (x & Hx & Eq); auto; [lia|].
    assert (Hpne := Hp j l ltac:(lia) Hi). unfold pivot in Hpne.
    set (s := (a j j - bigsum j (fun t => l j t * l j t))%num) in *.
    unfold sqrt_allowed. destruct (nleb n0 s) eqn:Hle; cbn [negb].
    2: { cbn [post]. split; auto. exists x. split.
         - exists j. split; [lia|]. rewrite Hx. exact (F_1_neq_0 (fl_field N HF)).
         - unfold form. rewrite Eq. rewrite (of_lt N HO), Hle. reflexivity. }
    assert (Hpos : nltb n0 s = true) by (apply (olt_iff_ne HO); auto).
    pose proof (sq_sqr N HS s Hle) as Hsq. pose proof (sq_nonneg N HS s Hle) as Hsn.
    assert (Hsnz : nsqrt s <> n0). { intros E. rewrite E in Hsq. apply (olt_ne HO _ _ Hpos). rewrite <- Hsq. ring. }
    assert (Hsp : nltb n0 (nsqrt s) = true) by (apply (olt_iff_ne HO); auto).
    destruct (holds_set HL L n n l j j (nsqrt s) HLl) as (L1 & E1 & HL1); [lia|lia|]. rewrite E1. cbn [bind].
    destruct Hi as (I1 & I2 & I3).
    destruct (inner_ok m L1 n a (put2 l j j (nsqrt s)) j) as (L2 & E2 & HL2); auto; try lia.
    + intros i k Hi Hk Hc. unfold put2. bcase; apply I1; lia.
    + intros i Hi Hn. unfold put2. bcase. apply I1; lia.
    + unfold put2. rewrite Nat.eqb_refl. cbn [andb]. auto.
    + unfold put2. rewrite Nat.eqb_refl. cbn [andb]. rewrite Hsq. unfold s.
      rewrite (bigsum_ext j (fun t => (if t =? j then nsqrt (a j j - bigsum j (fun t => l j t * l j t)) else l j t) * (if t =? j then nsqrt (a j j - bigsum j (fun t => l j t * l j t)) else l j t))%num (fun t => l j t * l j t)%num).
      * ring.
      * intros t Ht. bcase. auto.
    + rewrite E2. cbn [post]. exists (fun i k => if k =? j then if j <? i then ((a i j - bigsum j (fun t => l i t * l j t)) / nsqrt s)%num
                                        else if i =? j then nsqrt s else n0 else l i k).
      assert (P1 : forall i, put2 l j j (nsqrt s) i j = if i =? j then nsqrt s else l i j) by (intros i; unfold put2; bcase; auto).
      assert (P2 : forall i k, k <> j -> put2 l j j (nsqrt s) i k = l i k)
        by (intros i k Hk; unfold put2; destruct (Nat.eqb_spec k j); [lia|]; rewrite andb_false_r; auto).
      split; [|split; [|split]].
      * eapply holds_ext; [exact HL2|]. intros i k Hi Hk. cbn beta.
        destruct (Nat.eqb_spec k j); cbn [andb]; [subst k|now apply P2].
        destruct (Nat.ltb_spec j i).
        -- rewrite (P1 j), Nat.eqb_refl. do 2 f_equal. apply bigsum_ext. intros t Ht. now rewrite !P2 by lia.
        -- rewrite P1. destruct (Nat.eqb_spec i j); [auto|apply I1; lia].
      * intros i k Hi Hk Hc. bcase; auto. apply I1; lia.
      * intros i k Hi Hk Hkj. destruct (Nat.eq_dec k j) as [->|Hne].
        -- cbn [bigsum]. rewrite Nat.eqb_refl, Nat.ltb_irrefl.
           rewrite (bigsum_ext j _ (fun t => l i t * l j t)%num) by (intros t Ht; bcase; auto).
           destruct (Nat.ltb_spec j i).
           ++ field. auto.
           ++ replace i with j by lia. rewrite Nat.eqb_refl, Hsq. unfold s. ring.
        -- rewrite <- (I2 i k) by lia. apply bigsum_ext. intros t Ht. bcase. auto.
      * intros k Hk. destruct (Nat.eqb_spec k j) as [->|Hne].
        -- rewrite Nat.ltb_irrefl. auto.
        -- apply I3. lia.
  - intros L (l & HLl & I1 & I2 & I3). exists l. split; auto. split; [intros; apply I1; lia|]. split; auto.
    assert (E1 : forall i j, i < n -> j <= i -> bigsum n (fun k => l i k * l j k)%num = a i j).
    { intros i j Hi Hj. rewrite <- I2 by lia. apply (bigsum_trunc HF); [lia|]. intros t Ht. rewrite (I1 j t) by lia. ring. }
    intros i j Hi Hj. destruct (Nat.le_gt_cases j i); auto.
    rewrite Hs by auto. rewrite <- (E1 j i) by lia. apply bigsum_ext. intros; ring.
Qed.
Theorem cholesky_ok (m L0 : I) n a : holds m n n a -> holds L0 n n (fun _ _ => n0) -> symmetric2 n a -> pos_def n a ->
  returns (cholesky m L0) (chol_done n a).
Proof.
  intros Hm H0 Hs Hp. apply returns_post.
  eapply post_mono; [apply (cholesky_gen m L0 n a Hm H0 Hs)|auto|].
  - intros j l Hj Hi. destruct (pivot_form n a j l) as (x & Hx & Eq); auto.
    assert (nltb n0 (pivot l a j) = true) as Hlt.
    { unfold pivot. rewrite <- Eq. apply Hp. exists j. split; auto. rewrite Hx. exact (F_1_neq_0 (fl_field N HF)). }
    intros E. rewrite E in Hlt. rewrite (of_lt N HO), (of_le_refl N HO) in Hlt. discriminate.
  - intros e [_ (x & Hx & Hlt)]. specialize (Hp x Hx). fold (form n a x) in Hp.
    rewrite (of_lt N HO) in Hp, Hlt. destruct (of_le_total N HO n0 (form n a x)) as [E|E]; rewrite E in *; discriminate.
Qed.

(** The j-th pivot times the squares of the earlier diagonal entries is the leading minor of size j+1. *)
Lemma minor_pivot n a j l : j < n -> symmetric2 n a -> chol_inv n a j l ->
  det (S j) a = (bigprod j (fun t => l t t) * bigprod j (fun t => l t t) * pivot l a j)%num.
Proof.
  intros Hj Hs (H1 & H2 & _). set (s := pivot l a j).
  set (b := fun i k => if (i =? j) && (k =? j) then n1 else if k <=? i then l i k else n0 : N).
  set (c := fun k i => if (i =? j) && (k =? j) then s else if k <=? i then l i k else n0 : N).
  transitivity (det (S j) (prod2 (S j) b c)).
  - apply det_ext. intros i k Hi Hk. unfold prod2. cbn [bigsum].
    assert (E : bigsum j (fun t => b i t * c t k)%num = bigsum j (fun t => l i t * l k t)%num).
    { apply bigsum_ext. intros t Ht. unfold b, c. rewrite (proj2 (Nat.eqb_neq t j)) by lia. rewrite !andb_false_r.
      destruct (Nat.leb_spec t i); [destruct (Nat.leb_spec t k); auto|].
      - rewrite (H1 k t) by lia. auto.
      - rewrite (H1 i t) by lia. bcase; auto. rewrite (H1 k t) by lia. ring. }
    rewrite E.
    assert (E1 : forall i k, i <= j -> k < j -> k <= i -> a i k = bigsum j (fun t => l i t * l k t)%num).
    { intros i' k' Hi' Hk' Hki. rewrite <- H2 by lia. symmetry. apply (bigsum_trunc HF); [lia|].
      intros t Ht. rewrite (H1 k' t) by lia. ring. }
    assert (E2 : forall i k, bigsum j (fun t => l i t * l k t)%num = bigsum j (fun t => l k t * l i t)%num) by (intros; apply bigsum_ext; intros; ring).
    unfold b, c. destruct (Nat.eqb_spec i j) as [->|], (Nat.eqb_spec k j) as [->|]; rewrite ?Nat.eqb_refl; cbn [andb].
    + unfold s, pivot. ring.
    + rewrite (E1 j k) by lia. bcase; ring.
    + rewrite (Hs i j), (E1 j i), E2 by lia. bcase; ring.
    + bcase. destruct (Nat.le_gt_cases k i); [rewrite (E1 i k) by lia|rewrite (Hs i k), (E1 k i), E2 by lia]; ring.
  - rewrite (det_mult HF). rewrite (det_lower HF (S j) b), (det_upper HF (S j) c).
    + cbn [bigprod]. unfold b, c at 2. rewrite !Nat.eqb_refl. cbn [andb].
      assert (X1 : bigprod j (fun i => b i i) = bigprod j (fun t => l t t)) by (apply bigprod_ext; intros; unfold b; bcase; auto).
      assert (X2 : bigprod j (fun i => c i i) = bigprod j (fun t => l t t)) by (apply bigprod_ext; intros; unfold c; bcase; auto).
      unfold b in X1. unfold c in X2. rewrite X1. unfold c. rewrite X2. ring.
    + intros i k Hi Hk. unfold c. bcase; auto.
    + intros i k Hi Hk. unfold b. bcase; auto.
Qed.
Theorem cholesky_minors (m L0 : I) n a : holds m n n a -> holds L0 n n (fun _ _ => n0) -> symmetric2 n a ->
  (forall j, 0 < j <= n -> det j a <> n0) ->
  post (cholesky m L0) (chol_done n a) (chol_fail n a).
Proof.
  intros Hm H0 Hs Hd. apply cholesky_gen; auto. intros j l Hj Hi E. apply (Hd (S j)); [lia|].
  rewrite (minor_pivot n a j l Hj Hs Hi), E. ring.
Qed.

(** A matrix with such a factor is positive definite. *)
Lemma last_nz (x : nat -> N) : forall n, (exists i, i < n /\ x i <> n0) -> exists i, i < n /\ x i <> n0 /\ forall k, i < k -> k < n -> x k = n0.
Proof.
  induction n; intros (i & Hi & Hx); [lia|]. destruct (neq_dec HO (x n) n0) as [E|E].
  - destruct IHn as (q & Hq & Hn & Hk). { exists i. split; auto. destruct (Nat.eq_dec i n); [subst; contradiction|lia]. }
    exists q. split; [lia|]. split; auto. intros k H1 H2. destruct (Nat.eq_dec k n); [subst; auto|apply Hk; lia].
  - exists n. split; [lia|]. split; auto. lia.
Qed.
Theorem done_pos_def (L : I) n a : chol_done n a L -> symmetric2 n a /\ pos_def n a.
Proof.
  intros (l & _ & Hl & Hd & Hp). split.
  - intros i j Hi Hj. rewrite <- !Hp by auto. apply bigsum_ext. intros; ring.
  - intros x Hx. set (y := fun k => bigsum n (fun i => x i * l i k)%num).
    assert (E : bigsum n (fun i => bigsum n (fun j => x i * a i j * x j))%num = bigsum n (fun k => y k * y k)%num).
    { transitivity (bigsum n (fun i => bigsum n (fun k => bigsum n (fun j => (x i * l i k) * (x j * l j k))))%num).
      - apply bigsum_ext. intros i Hi. rewrite (bigsum_swap HF). apply bigsum_ext. intros j Hj. rewrite <- (Hp i j) by auto.
        rewrite (bigsum_ext n (fun t => x i * l i t * (x j * l j t))%num (fun t => x i * x j * (l i t * l j t))%num) by (intros; ring).
        rewrite (bigsum_mul_l HF). ring.
      - rewrite (bigsum_swap HF). apply bigsum_ext. intros k Hk. unfold y at 1. rewrite <- (bigsum_mul_r HF).
        apply bigsum_ext. intros i Hi. rewrite (bigsum_mul_l HF). reflexivity. }
    rewrite E. destruct (last_nz x n Hx) as (q & Hq & Hnz & Hz).
    assert (Hy : y q = (x q * l q q)%num).
    { unfold y. rewrite (bigsum_single HF n q); auto. intros k Hk Hne. destruct (Nat.lt_ge_cases k q).
      - rewrite (Hl k q) by lia. ring.
      - rewrite (Hz k) by lia. ring. }
    assert (Hyn : y q <> n0).
    { rewrite Hy. intros E0. apply Hnz. specialize (Hd q Hq). pose proof (olt_ne HO _ _ Hd) as Hlq.
      transitivity (x q * l q q / l q q)%num; [field; auto|]. rewrite E0. field. auto. }
    apply (bigsum_pos_term HO n (fun k => y k * y k)%num q); auto.
    + intros k Hk. apply (ole_0_sqr HO).
    + now apply (olt_0_sqr HO).
Qed.
Lemma cholesky_bad (m L0 : I) : (mi_rows m <> mi_cols m -> cholesky m L0 = Throw NotSquare) /\
  (mi_rows m = mi_cols m -> mi_rows m <> mi_rows L0 \/ mi_cols m <> mi_cols L0 -> cholesky m L0 = Throw InvalidOutputMatrix).
Proof.
  unfold cholesky. split.
  - intros H. destruct (Nat.eqb_spec (mi_rows m) (mi_cols m)); [contradiction|]. reflexivity.
  - intros -> H. rewrite Nat.eqb_refl. cbn [negb].
    destruct (Nat.eqb_spec (mi_cols m) (mi_rows L0)), (Nat.eqb_spec (mi_cols m) (mi_cols L0)); cbn [negb orb]; auto. lia.
Qed.
End Chol.

