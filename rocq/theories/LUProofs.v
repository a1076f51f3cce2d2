(** Proofs about the pivoted LU decomposition. *)
From Coq Require Import List Arith Bool Lia Ring Field Permutation.
From Verif Require Import Base BaseProofs Num OrdField Spec SpecProofs VectorModel VectorProofs SparseModel DenseModel DenseSpec
  MatI MatIProofs MatOps MatOpsProofs OrderProofs ConstructProofs DetSpec DetProofs LUModel.
Import ListNotations.
Local Open Scope nat_scope.
Open Scope res_scope.

Ltac bcase := repeat (match goal with
  | |- context [Nat.eqb ?x ?y] => destruct (Nat.eqb_spec x y)
  | |- context [Nat.ltb ?x ?y] => destruct (Nat.ltb_spec x y)
  | |- context [Nat.leb ?x ?y] => destruct (Nat.leb_spec x y)
  end; cbn [andb orb negb] in *; try lia).

(** rowTable after exchanging entries i and k *)
Definition swap_at (rt : list nat) (i k : nat) : list nat := upd (upd rt i (nth k rt 0)) k (nth i rt 0).
Lemma swap_at_length rt i k : length (swap_at rt i k) = length rt.
Proof. unfold swap_at. now rewrite !upd_length. Qed.
Lemma swap_at_nth rt i k r : i < length rt -> k < length rt -> i <> k ->
  nth r (swap_at rt i k) 0 = if r =? i then nth k rt 0 else if r =? k then nth i rt 0 else nth r rt 0.
Proof.
  intros Hi Hk Hne. unfold swap_at.
  destruct (Nat.eqb_spec r k).
  - subst. rewrite nth_upd_eq by (rewrite upd_length; lia). bcase; auto.
  - rewrite nth_upd_ne by auto. destruct (Nat.eqb_spec r i).
    + subst. now rewrite nth_upd_eq.
    + now rewrite nth_upd_ne by auto.
Qed.
Lemma swap_at_perm rt i k n : Permutation rt (seq 0 n) -> i < n -> k < n -> i <> k -> Permutation (swap_at rt i k) (seq 0 n).
Proof.
  intros Hp Hi Hk Hne. pose proof (perm_length _ _ Hp) as Hl. apply perm_intro.
  - now rewrite swap_at_length.
  - intros r Hr. rewrite swap_at_nth by lia. bcase; apply perm_lt; auto.
  - assert (J : forall x y, x < n -> y < n -> nth x rt 0 = nth y rt 0 -> x = y) by (intros; now apply (perm_inj rt n)).
    intros r s Hr Hs E. rewrite !swap_at_nth in E by lia.
    destruct (Nat.eqb_spec r i), (Nat.eqb_spec s i), (Nat.eqb_spec r k), (Nat.eqb_spec s k); subst; auto;
      apply J in E; auto; congruence.
Qed.

Section LUProofs.
Context {N : Num} {I : MatI N} (HL : MatLaws I) (HF : FieldLaws N).
Add Field lufld : (fl_field N HF).
Implicit Types (a l u : nat -> nat -> N).

Lemma pivot_ok (U : I) n k u : holds U n n u -> k < n ->
  returns (lu_pivot U n k) (fun i => k <= i < n /\
    (OrdFieldLaws N -> forall j, k <= j < n -> nleb (nabs (u j k)) (nabs (u i k)) = true)).
Proof.
  intros HU Hk. unfold lu_pivot. rewrite (holds_at _ _ _ _ _ _ HU) by lia. cbn [bind].
  assert (R : returns (for_ (k + 1) n (fun j st => let* v := mi_at U j k in Ok (if nleb (fst st) (nabs v) then (nabs v, j) else st)) (nabs (u k k), k))
    (fun st => fst st = nabs (u (snd st) k) /\ k <= snd st < n /\
      (OrdFieldLaws N -> forall j, k <= j < n -> nleb (nabs (u j k)) (fst st) = true))).
  { apply (for_returns (fun m st => fst st = nabs (u (snd st) k) /\ k <= snd st < n /\
      (OrdFieldLaws N -> forall j, k <= j < m -> nleb (nabs (u j k)) (fst st) = true))); [lia| |].
    - cbn [fst snd]. split; auto. split; [lia|]. intros HO j Hj. replace j with k by lia. apply (of_le_refl N HO).
    - intros j (m, i) Hj (H1 & H2 & H3). cbn [fst snd] in *. rewrite (holds_at _ _ _ _ _ _ HU) by lia. cbn [bind].
      destruct (nleb m (nabs (u j k))) eqn:E; eexists; (split; [reflexivity|]); cbn [fst snd]; (split; [auto|]); (split; [lia|]); intros HO j' Hj';
        (destruct (Nat.eq_dec j' j) as [->|Hne]; [|]).
      + apply (of_le_refl N HO).
      + apply (of_le_trans N HO) with m; auto. apply H3; auto. lia.
      + destruct (of_le_total N HO m (nabs (u j k))); congruence.
      + apply H3; auto. lia. }
  destruct R as ((m, i) & -> & H1 & H2 & H3). cbn [bind fst snd] in *. exists i. split; auto. split; auto.
  intros HO j Hj. rewrite <- H1. auto.
Qed.

Lemma swap_ok (M : I) n a i k lo hi : holds M n n a -> i < n -> k < n -> i <> k -> lo <= hi -> hi <= n ->
  returns (lu_swap M i k lo hi) (fun M' => holds M' n n (fun r c => if (lo <=? c) && (c <? hi) then swap_rows i k a r c else a r c)).
Proof.
  intros HM Hi Hk Hne Hlo Hhi. unfold lu_swap.
  apply (for_returns (fun m M' => holds M' n n (fun r c => if (lo <=? c) && (c <? m) then swap_rows i k a r c else a r c))); auto.
  - eapply holds_ext; [exact HM|]. intros r c Hr Hc. cbn beta. bcase; auto.
  - intros j s Hj Hs. rewrite !(holds_at _ _ _ _ _ _ Hs) by lia. cbn [bind].
    destruct (holds_set HL _ _ _ _ k j (if (lo <=? j) && (j <? j) then swap_rows i k a i j else a i j) Hs) as (s1 & E1 & Hs1); try lia.
    rewrite E1. cbn [bind].
    destruct (holds_set HL _ _ _ _ i j (if (lo <=? j) && (j <? j) then swap_rows i k a k j else a k j) Hs1) as (s2 & E2 & Hs2); try lia.
    rewrite E2. exists s2. split; auto. eapply holds_ext; [exact Hs2|]. intros r c Hr Hc. unfold put2, swap_rows. cbn beta.
    bcase; subst; auto.
Qed.

Definition elim_l l u k r c : N := if (k <? r) && (c =? k) then (u r k * (n1 / u k k))%num else l r c.
Definition elim_u u k r c : N := if (k <? r) && (k <=? c) then (u r c - u r k * (n1 / u k k) * u k c)%num else u r c.
Lemma elim_ok (L U : I) n k l u : holds L n n l -> holds U n n u -> k < n ->
  returns (lu_elim L U n k) (fun LU => holds (fst LU) n n (elim_l l u k) /\ holds (snd LU) n n (elim_u u k)).
Proof.
  intros HLl HU Hk. unfold lu_elim. rewrite (holds_at _ _ _ _ _ _ HU) by lia. cbn [bind].
  apply returns_mono with (fun LU => holds (fst LU) n n (fun r c => if r <? n then elim_l l u k r c else l r c) /\
      holds (snd LU) n n (fun r c => if r <? n then elim_u u k r c else u r c)).
  - apply (for_returns (fun m LU => holds (fst LU) n n (fun r c => if r <? m then elim_l l u k r c else l r c) /\
      holds (snd LU) n n (fun r c => if r <? m then elim_u u k r c else u r c))); try lia.
    + cbn [fst snd]. split; (eapply holds_ext; [eassumption|]); intros r c Hr Hc; unfold elim_l, elim_u; bcase; auto.
    + intros j (L1, U1) Hj (H1 & H2). cbn [fst snd] in *.
      rewrite (holds_at _ _ _ _ _ _ H2) by lia. cbn [bind].
      set (lv := ((if j <? j then elim_u u k j k else u j k) * (n1 / u k k))%num) in *.
      destruct (holds_set HL _ _ _ _ j k lv H1) as (L2 & -> & HL2); try lia. cbn [bind].
      assert (R : returns (for_ k n (fun t U => let* x := mi_at U j t in let* lx := mi_at L2 j k in let* y := mi_at U k t in
          mi_set U j t (x - lx * y)%num) U1)
        (fun U' => holds U' n n (fun r c => if r <? S j then elim_u u k r c else u r c))).
      { apply returns_mono with (fun U' => holds U' n n (fun r c => if (r <? j) || ((r =? j) && (c <? n)) then elim_u u k r c else u r c));
          [|intros U' HU'; eapply holds_ext; [exact HU'|]; intros r c Hr Hc; cbn beta; bcase; auto].
        apply (for_returns (fun m U' => holds U' n n (fun r c => if (r <? j) || ((r =? j) && (c <? m)) then elim_u u k r c else u r c))); try lia.
        - eapply holds_ext; [exact H2|]. intros r c Hr Hc. unfold elim_u. bcase; auto.
        - intros t Ut Ht HUt. rewrite !(holds_at _ _ _ _ _ _ HUt), (holds_at _ _ _ _ _ _ HL2) by lia. cbn [bind].
          match goal with |- context [mi_set Ut j t ?v] => destruct (holds_set HL _ _ _ _ j t v HUt) as (s1 & E1 & Hs1); try lia end.
          exists s1. split; auto. eapply holds_ext; [exact Hs1|]. intros r c Hr Hc. unfold put2, elim_u, lv. unfold elim_u. cbn beta.
          bcase; subst; auto.
        }
      destruct R as (U2 & -> & HU2). cbn [bind]. eexists. split; [reflexivity|]. cbn [fst snd]. split; auto.
      eapply holds_ext; [exact HL2|]. intros r c Hr Hc. unfold put2, elim_l, lv. cbn beta. bcase; subst; auto.
  - intros (L1, U1) (H1 & H2). cbn [fst snd] in *. split; (eapply holds_ext; [eassumption|]); intros r c Hr Hc; cbn beta; bcase; auto.
Qed.

Definition lu_inv n a l0 k l u (rt : list nat) cnt : Prop :=
  exchanges n rt cnt /\ Permutation rt (seq 0 n) /\ cnt <= k /\
  (forall i j, i < n -> j < n -> a (nth i rt 0) j = (bigsum (min i k) (fun t => l i t * u t j) + u i j)%num) /\
  (forall i j, i < n -> j < min i k -> u i j = n0) /\
  (forall i j, i < n -> j < n -> i <= j \/ k <= j -> l i j = l0 i j) /\
  det n u = (sgn cnt * det n a)%num /\
  (OrdFieldLaws N -> forall i j, i < n -> j < min i k -> nleb (nabs (l i j)) n1 = true).

Lemma lu_inv_ext n a l0 k l u l' u' rt cnt : lu_inv n a l0 k l u rt cnt -> k <= n ->
  (forall i j, i < n -> j < n -> l' i j = l i j) -> (forall i j, i < n -> j < n -> u' i j = u i j) ->
  lu_inv n a l0 k l' u' rt cnt.
Proof.
  intros (H1 & H2 & H3 & H4 & H5 & H6 & H7 & H8) Hk El Eu. repeat split; auto.
  - intros i j Hi Hj. rewrite H4, Eu by auto. f_equal. apply bigsum_ext. intros t Ht. rewrite El, Eu by lia. auto.
  - intros i j Hi Hj. rewrite Eu by lia. auto.
  - intros i j Hi Hj Hc. rewrite El by lia. auto.
  - rewrite <- H7. apply det_ext. auto.
  - intros HO i j Hi Hj. rewrite El by lia. auto.
Qed.

Lemma inv_swap n a l0 k l u rt cnt i : lu_inv n a l0 k l u rt cnt -> k < i -> i < n ->
  exchanges n (swap_at rt i k) (S cnt) /\ Permutation (swap_at rt i k) (seq 0 n) /\ S cnt <= S k /\
  let l1 := fun r c => if (0 <=? c) && (c <? k) then swap_rows i k l r c else l r c in
  let u1 := fun r c => if (k <=? c) && (c <? n) then swap_rows i k u r c else u r c in
  (forall i' j, i' < n -> j < n -> a (nth i' (swap_at rt i k) 0) j = (bigsum (min i' k) (fun t => l1 i' t * u1 t j) + u1 i' j)%num) /\
  (forall i' j, i' < n -> j < min i' k -> u1 i' j = n0) /\
  (forall i' j, i' < n -> j < n -> i' <= j \/ k <= j -> l1 i' j = l0 i' j) /\
  det n u1 = (sgn (S cnt) * det n a)%num /\
  (OrdFieldLaws N -> forall i' j, i' < n -> j < min i' k -> nleb (nabs (l1 i' j)) n1 = true) /\
  (forall r c, r < n -> c < n -> u1 r c = swap_rows i k u r c).
Proof.
  intros (H1 & H2 & H3 & H4 & H5 & H6 & H7 & H8) Hk Hi.
  pose proof (perm_length _ _ H2) as Hlen.
  split; [|split; [now apply swap_at_perm; auto; lia|split; [lia|]]].
  { apply (ex_one n rt cnt _ i k); auto; try lia. now rewrite swap_at_length. intros; apply swap_at_nth; lia. }
  cbn zeta.
  assert (EU : forall r c, r < n -> c < n ->
    (if (k <=? c) && (c <? n) then swap_rows i k u r c else u r c) = swap_rows i k u r c).
  { intros r c Hr Hc. destruct (Nat.leb_spec k c); cbn [andb]; [destruct (Nat.ltb_spec c n); auto; lia|].
    unfold swap_rows. destruct (Nat.eqb_spec r i); [subst; rewrite !H5 by lia; auto|].
    destruct (Nat.eqb_spec r k); [subst; rewrite !H5 by lia; auto|auto]. }
  split; [|split; [|split; [|split; [|split]]]].
  - intros r j Hr Hj. rewrite EU by auto. rewrite swap_at_nth by lia.
    transitivity ((bigsum (min r k) (fun t => swap_rows i k l r t * u t j) + swap_rows i k u r j)%num).
    + unfold swap_rows. destruct (Nat.eqb_spec r i).
      { subst. rewrite H4 by lia. now rewrite !Nat.min_r by lia. }
      destruct (Nat.eqb_spec r k).
      { subst. rewrite H4 by lia. now rewrite !Nat.min_r by lia. }
      now apply H4.
    + f_equal. apply bigsum_ext. intros t Ht. rewrite EU by lia. unfold swap_rows at 3. bcase. auto.
  - intros r j Hr Hj. rewrite EU by lia. unfold swap_rows. bcase; apply H5; lia.
  - intros r j Hr Hj Hc. cbn beta. unfold swap_rows. bcase; apply H6; lia.
  - rewrite (det_ext n _ (swap_rows i k u)) by (intros; now apply EU). rewrite (det_swap_rows HF) by lia. rewrite H7.
    cbn [sgn]. ring.
  - intros HO r j Hr Hj. cbn beta. unfold swap_rows. bcase; apply H8; auto; lia.
  - auto.
Qed.

Lemma det_elim n u k (f : nat -> N) : k < n -> forall m, m <= n ->
  det n (fun r c => if (k <? r) && (r <? m) then (u r c - f r * u k c)%num else u r c) = det n u.
Proof.
  intros Hk. induction m as [|m IH]; intros Hm.
  - apply det_ext. intros r c _ _. bcase; auto.
  - rewrite <- IH by lia. destruct (le_lt_dec m k) as [Hle|Hgt].
    + apply det_ext. intros r c _ _. bcase; auto.
    + symmetry. rewrite <- (det_add_row HF n _ m k (- f m)%num) by lia. apply det_ext. intros r c _ _. unfold setrow.
      bcase; subst; auto. ring.
Qed.

Lemma inv_elim n a l0 k l u rt cnt cnt' : k < n -> cnt' = cnt -> exchanges n rt cnt -> Permutation rt (seq 0 n) -> cnt <= S k ->
  (forall i j, i < n -> j < n -> a (nth i rt 0) j = (bigsum (min i k) (fun t => l i t * u t j) + u i j)%num) ->
  (forall i j, i < n -> j < min i k -> u i j = n0) ->
  (forall i j, i < n -> j < n -> i <= j \/ k <= j -> l i j = l0 i j) ->
  det n u = (sgn cnt * det n a)%num ->
  (OrdFieldLaws N -> forall i j, i < n -> j < min i k -> nleb (nabs (l i j)) n1 = true) ->
  u k k <> n0 ->
  (OrdFieldLaws N -> forall j, k <= j < n -> nleb (nabs (u j k)) (nabs (u k k)) = true) ->
  lu_inv n a l0 (S k) (elim_l l u k) (elim_u u k) rt cnt'.
Proof.
  intros Hk -> H1 H2 H3 H4 H5 H6 H7 H8 Hz Hmax. repeat split; auto.
  - intros r j Hr Hj. rewrite H4 by auto. destruct (le_lt_dec r k) as [Hle|Hgt].
    + rewrite !Nat.min_l by lia. f_equal.
      * apply bigsum_ext. intros t Ht. unfold elim_l, elim_u. bcase; auto.
      * unfold elim_u. bcase; auto.
    + rewrite !Nat.min_r by lia. cbn [bigsum].
      rewrite (bigsum_ext k (fun t => elim_l l u k r t * elim_u u k t j)%num (fun t => l r t * u t j)%num)
        by (intros t Ht; unfold elim_l, elim_u; bcase; auto).
      unfold elim_l, elim_u. bcase.
      * ring.
      * rewrite (H5 k j) by lia. ring.
  - intros r j Hr Hj. unfold elim_u. destruct (Nat.eq_dec j k) as [->|Hne].
    + bcase. field. auto.
    + bcase; apply H5; lia.
  - intros r j Hr Hj Hc. unfold elim_l. bcase; apply H6; lia.
  - rewrite <- H7. rewrite <- (det_elim n u k (fun r => u r k * (n1 / u k k))%num Hk n) by lia. apply det_ext. intros r c Hr Hc.
    unfold elim_u. bcase; auto. rewrite (H5 k c) by lia. ring.
  - intros HO r j Hr Hj. unfold elim_l. bcase; try (apply H8; auto; lia). subst.
    replace (u r k * (n1 / u k k))%num with (u r k / u k k)%num by (field; auto).
    apply (oabs_div_le1 HO); auto. apply Hmax; auto. lia.
Qed.

Hypothesis Htiny : tiny (@n0 N) = true.
Lemma not_tiny x : tiny x = false -> x <> n0 :> N.
Proof. intros H ->. congruence. Qed.
(** The situation in which the elimination stops in column k: rows permuted, the first k columns eliminated and every remaining
    entry of column k tiny. *)
Definition stuck n a : Prop := exists rt cnt k l u, exchanges n rt cnt /\ Permutation rt (seq 0 n) /\ k < n /\
  (forall i j, i < n -> j < n -> a (nth i rt 0) j = (bigsum (min i k) (fun t => l i t * u t j) + u i j)%num) /\
  (forall i j, i < n -> j < min i k -> u i j = n0) /\
  (forall r, k <= r < n -> tiny (u r k) = true).
Definition lu_fail n a (e : exn) : Prop := e = Singular /\ (OrdFieldLaws N -> stuck n a).

Lemma tiny_exact (x : N) : OrdFieldLaws N -> @neps N = n0 -> tiny x = true -> x = n0.
Proof.
  intros HO He H. unfold tiny in H. rewrite He in H. apply (oabs_0_iff HO). apply (of_le_antisym N HO); auto. apply (oabs_nonneg HO).
Qed.
Lemma sgn_nz k : @sgn N k <> n0.
Proof.
  assert (H1 : (n1 : N) <> n0) by exact (F_1_neq_0 (fl_field N HF)).
  induction k as [|k IH]; cbn [sgn]; auto. intros E. apply IH. transitivity (- - sgn k : N)%num; [ring|]. rewrite E. ring.
Qed.
Lemma sgn_sqr k : (sgn k * sgn k = n1 :> N)%num.
Proof. induction k as [|k IH]; cbn [sgn]; [ring|]. rewrite <- IH. ring. Qed.

Lemma column_ok n a l0 k (L U : I) l u rt cnt : S k < n -> holds L n n l -> holds U n n u -> lu_inv n a l0 k l u rt cnt ->
  post (lu_column n k (L, U, rt, cnt)) (fun st => let '(L', U', rt', cnt') := st in
      exists l' u', holds L' n n l' /\ holds U' n n u' /\ lu_inv n a l0 (S k) l' u' rt' cnt') (lu_fail n a).
Proof.
  intros Hk HLl HU Hinv. unfold lu_column.
  destruct (pivot_ok U n k u HU) as (i & -> & Hi & Hmax); [lia|]. cbn [bind].
  (* the state after the optional exchange *)
  match goal with |- context [if negb (i =? k) then ?x else ?y] => set (step := if negb (i =? k) then x else y) end.
  assert (R : returns step
    (fun st => let '(L1, U1, rt1, cnt1) := st in exists l1 u1, holds L1 n n l1 /\ holds U1 n n u1 /\
       exchanges n rt1 cnt1 /\ Permutation rt1 (seq 0 n) /\ cnt1 <= S k /\
       (forall i j, i < n -> j < n -> a (nth i rt1 0) j = (bigsum (min i k) (fun t => l1 i t * u1 t j) + u1 i j)%num) /\
       (forall i j, i < n -> j < min i k -> u1 i j = n0) /\
       (forall i j, i < n -> j < n -> i <= j \/ k <= j -> l1 i j = l0 i j) /\
       det n u1 = (sgn cnt1 * det n a)%num /\
       (OrdFieldLaws N -> forall i j, i < n -> j < min i k -> nleb (nabs (l1 i j)) n1 = true) /\
       (OrdFieldLaws N -> forall j, k <= j < n -> nleb (nabs (u1 j k)) (nabs (u1 k k)) = true))).
  { pose proof Hinv as (H1 & H2 & H3 & H4 & H5 & H6 & H7 & H8). pose proof (perm_length _ _ H2) as Hlen. unfold step.
    destruct (Nat.eqb_spec i k) as [->|Hne]; cbn [negb].
    - eexists. split; [reflexivity|]. cbn beta iota. exists l, u. do 4 (split; [assumption|]). split; [lia|]. repeat (split; [assumption|]). exact Hmax.
    - destruct (swap_ok U n u i k k n HU) as (U1 & -> & HU1); try lia. cbn [bind].
      destruct (swap_ok L n l i k 0 k HLl) as (L1 & -> & HL1); try lia. cbn [bind].
      rewrite !vget_ok with (d := 0) by lia. cbn [bind]. rewrite vset_ok by lia. cbn [bind]. rewrite vset_ok by (rewrite upd_length; lia). cbn [bind].
      eexists. split; [reflexivity|]. cbn beta iota. do 2 eexists. split; [exact HL1|]. split; [exact HU1|].
      destruct (inv_swap n a l0 k l u rt cnt i Hinv) as (I1 & I2 & I3 & I4 & I5 & I6 & I7 & I8 & I9); try lia.
      replace (cnt + 1) with (S cnt) by lia. repeat (split; [assumption|]).
      intros HO j Hj. rewrite !I9 by lia. unfold swap_rows. rewrite Nat.eqb_refl.
      replace (k =? i) with false by (symmetry; apply Nat.eqb_neq; lia).
      destruct (Nat.eqb_spec j i); [apply Hmax; auto; lia|]. destruct (Nat.eqb_spec j k); apply Hmax; auto; lia. }
  destruct R as ((((L1, U1), rt1), cnt1) & -> & l1 & u1 & HL1 & HU1 & I1 & I2 & I3 & I4 & I5 & I6 & I7 & I8 & I9). cbn [bind].
  rewrite (holds_at _ _ _ _ _ _ HU1) by lia. cbn [bind].
  destruct (tiny (u1 k k)) eqn:Et.
  - cbn [post]. split; auto. intros HO. exists rt1, cnt1, k, l1, u1. repeat (split; [first [assumption|lia]|]).
    intros r Hr. unfold tiny in *. eapply (of_le_trans N HO); [apply (I9 HO r Hr)|exact Et].
  - destruct (elim_ok L1 U1 n k l1 u1 HL1 HU1) as ((L2, U2) & -> & HL2 & HU2); [lia|]. cbn [bind fst snd post].
    exists (elim_l l1 u1 k), (elim_u u1 k). split; auto. split; auto.
    apply inv_elim with cnt1; auto; try lia. now apply not_tiny.
Qed.

Lemma main_ok n a l0 p0 (A L0 : I) newP : 0 < n -> holds A n n a -> holds L0 n n l0 ->
  returns newP (fun P0 => holds P0 n n p0) ->
  post (lu_main A L0 newP) (fun r => let '(L, U, P, cnt) := r in exists l u rt,
      holds L n n l /\ holds U n n u /\ holds P n n (fun i j => if j =? nth i rt 0 then n1 else p0 i j) /\
      lu_inv n a (fun i j => if i =? j then n1 else l0 i j) (n - 1) l u rt cnt) (lu_fail n a).
Proof.
  intros Hn HA HL0 (P0 & EP & HP0). unfold lu_main. rewrite (holds_rows _ _ _ _ HA).
  destruct (diag_loop HL (fun _ => n1) (fun _ => Ok n1) L0 n n l0 n HL0) as (L1 & EL1 & HL1); auto.
  match goal with |- context [for_ 0 n ?f L0] => replace (for_ 0 n f L0) with (Ok L1) by (symmetry; exact EL1) end. cbn [bind].
  unfold usub. replace (1 <=? n) with true by (symmetry; apply Nat.leb_le; lia). cbn [bind].
  apply post_bind.
  eapply post_mono; [apply (for_post (fun k st => let '(L', U', rt', cnt') := st in
      exists l' u', holds L' n n l' /\ holds U' n n u' /\
        lu_inv n a (fun i j => if i =? j then n1 else l0 i j) k l' u' rt' cnt') (lu_fail n a)); try lia| |auto].
  - do 2 eexists. split; [exact HL1|]. split; [exact HA|]. repeat split; auto.
    + apply ex_none.
    + intros i j Hi Hj. rewrite seq_nth by auto. rewrite Nat.min_0_r. cbn [bigsum plus]. ring.
    + intros i j Hi Hj. lia.
    + intros i j Hi Hj _. cbn beta. bcase; auto.
    + cbn [sgn]. ring.
    + intros _ i j Hi Hj. lia.
  - intros k (((L', U'), rt'), cnt') Hk (l' & u' & HL' & HU' & Hi). apply column_ok with l' u'; auto. lia.
  - intros (((L', U'), rt'), cnt') (l' & u' & HL' & HU' & Hi). rewrite EP. cbn [bind].
    pose proof Hi as (_ & HP & _). pose proof (perm_length _ _ HP) as Hlen.
    assert (R : returns (for_ 0 n (fun i P => let* r := vget rt' i in mi_set P i r n1) P0)
      (fun P => holds P n n (fun i j => if (i <? n) && (j =? nth i rt' 0) then n1 else p0 i j))).
    { apply (for_returns (fun k P => holds P n n (fun i j => if (i <? k) && (j =? nth i rt' 0) then n1 else p0 i j))); try lia.
      - exact HP0.
      - intros k s Hk Hs. rewrite vget_ok with (d := 0) by lia. cbn [bind].
        destruct (holds_set HL s n n _ k (nth k rt' 0) n1 Hs) as (s' & E & Hs'); try lia; [apply perm_lt; auto; lia|].
        exists s'. split; auto. eapply holds_ext; [exact Hs'|]. intros i j Hi' Hj'. unfold put2. cbn beta. bcase; subst; auto; congruence. }
    destruct R as (P & -> & HPm). cbn [bind post]. exists l', u', rt'. repeat (split; [assumption|]).
    split; auto. eapply holds_ext; [exact HPm|]. intros i j Hi' Hj'. cbn beta. bcase; auto.
Qed.
End LUProofs.
