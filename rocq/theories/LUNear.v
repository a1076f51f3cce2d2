(** Why the pivoted elimination gives up: the matrix is within epsilon of a singular one. *)
From Coq Require Import List Arith Bool Lia Ring Field Permutation.
From Verif Require Import Base BaseProofs Num OrdField Spec SpecProofs DenseSpec OrderProofs DetSpec DetProofs LUModel LUProofs DetMult.
Import ListNotations.
Local Open Scope nat_scope.

Section LUNear.
Context {N : Num} (HF : FieldLaws N).
Add Field lunfld : (fl_field N HF).
Implicit Types (a l u : nat -> nat -> N).

Lemma exchanges_perm n rt c : exchanges n rt c -> Permutation rt (seq 0 n).
Proof.
  induction 1 as [|rt c rt' i k H IH Hi Hk Hne Hl Hn]; [reflexivity|].
  pose proof (perm_length _ _ IH) as Hlen. replace rt' with (swap_at rt i k); [now apply swap_at_perm|].
  apply nth_ext with 0 0; [rewrite swap_at_length; lia|]. intros r Hr. rewrite swap_at_length in Hr.
  rewrite swap_at_nth by lia. rewrite Hn by lia. auto.
Qed.
Lemma det_perm_rows n b rt cnt : exchanges n rt cnt -> det n (fun i j => b (nth i rt 0) j) = (sgn cnt * det n b)%num :> N.
Proof.
  induction 1 as [|rt c rt' i k H IH Hi Hk Hne Hl Hn].
  - cbn [sgn]. transitivity (det n b); [|ring]. apply det_ext. intros i j Hi Hj. now rewrite seq_nth by auto.
  - cbn [sgn]. transitivity (- (sgn c * det n b) : N)%num; [|ring]. rewrite <- IH.
    rewrite <- (det_swap_rows HF n (fun i j => b (nth i rt 0) j) i k) by auto. apply det_ext. intros r s Hr Hs. rewrite Hn by auto.
    unfold swap_rows. bcase; auto.
Qed.

(** A matrix that is (up to the row order) L*U, where changing column k of U makes U singular and changes L*U little. *)
Lemma near_gen n a rt cnt l u u' k : exchanges n rt cnt -> k < n ->
  (forall i j, i < n -> j < n -> a (nth i rt 0) j = bigsum n (fun t => l i t * u t j)%num) ->
  (forall i j, i < n -> j < n -> j <> k -> u' i j = u i j) -> det n u' = n0 ->
  (forall i, i < n -> nleb (nabs (bigsum n (fun t => l i t * (u' t k - u t k)))%num) neps = true) ->
  near_singular n a.
Proof.
  intros He Hk Ha Hu Hd Hb. pose proof (exchanges_perm _ _ _ He) as Hp.
  set (e := fun i => bigsum n (fun t => l i t * (u' t k - u t k))%num) in *.
  set (d := fun i0 => bigsum n (fun i => if nth i rt 0 =? i0 then e i else n0)).
  assert (Ed : forall i, i < n -> d (nth i rt 0) = e i).
  { intros i Hi. unfold d. rewrite (bigsum_single HF n i); auto; [now rewrite Nat.eqb_refl|].
    intros t Ht Hne. destruct (Nat.eqb_spec (nth t rt 0) (nth i rt 0)) as [E|]; auto. apply (perm_inj rt n) in E; auto. congruence. }
  exists k, d. split; auto. split.
  - intros i0 Hi0. destruct (perm_surj rt n i0 Hp Hi0) as (i & Hi & <-). rewrite Ed by auto. now apply Hb.
  - set (b := fun i j => if j =? k then (a i j + d i)%num else a i j).
    assert (D : det n (fun i j => b (nth i rt 0) j) = n0).
    { transitivity (det n (prod2 n l u')).
      - apply det_ext. intros i j Hi Hj. unfold b, prod2. destruct (Nat.eqb_spec j k) as [->|Hne].
        + rewrite Ha, Ed by auto. unfold e. rewrite <- (bigsum_plus HF). apply bigsum_ext. intros t Ht. ring.
        + rewrite Ha by auto. apply bigsum_ext. intros t Ht. now rewrite Hu by auto.
      - rewrite (det_mult HF), Hd. ring. }
    rewrite (det_perm_rows n b rt cnt He) in D. fold b.
    transitivity ((sgn cnt * sgn cnt) * det n b)%num; [rewrite (sgn_sqr HF); ring|].
    transitivity (sgn cnt * (sgn cnt * det n b))%num; [ring|]. rewrite D. ring.
Qed.

Hypothesis Htiny : tiny (@n0 N) = true.
Lemma stuck_near n a : OrdFieldLaws N -> stuck n a -> near_singular n a.
Proof.
  intros HO (rt & cnt & k & l & u & He & Hp & Hk & Ha & Hz & Ht).
  set (l' := fun i t => if t <? min i k then l i t else if t =? i then n1 else n0).
  set (u' := fun i j => if (j =? k) && (k <=? i) then n0 else u i j).
  assert (S1 : forall i (f : nat -> N), i < n -> bigsum n (fun t => l' i t * f t)%num = (bigsum (min i k) (fun t => l i t * f t) + f i)%num).
  { intros i f Hi. rewrite (bigsum_split HF n (min i k)) by lia. f_equal.
    - apply bigsum_ext. intros t H. unfold l'. bcase. auto.
    - rewrite (bigsum_single HF _ (i - min i k)); try lia.
      + replace (min i k + (i - min i k)) with i by lia. unfold l'. bcase. ring.
      + intros t Ht1 Hne. unfold l'. bcase. ring. }
  apply (near_gen n a rt cnt l' u u' k); auto.
  - intros i j Hi Hj. rewrite S1 by auto. now apply Ha.
  - intros i j Hi Hj Hne. unfold u'. bcase; auto.
  - apply (det_stuck HF n u' k); auto.
    + intros i j H1 H2 H3. unfold u'. bcase. apply Hz; lia.
    + intros i H1 H2. unfold u'. bcase. auto.
  - intros i Hi. rewrite S1 by auto. rewrite (bigsum_0 HF (min i k)).
    + unfold u'. rewrite Nat.eqb_refl. destruct (Nat.leb_spec k i); cbn [andb].
      * replace (n0 + (n0 - u i k))%num with (- u i k)%num by ring. rewrite (oabs_opp HO). apply Ht. lia.
      * replace (n0 + (u i k - u i k))%num with (@n0 N) by ring. exact Htiny.
    + intros t H1. unfold u'. bcase. ring.
Qed.
(** A tiny pivot left over in U. *)
Lemma plu_near n a l u p cnt i : OrdFieldLaws N -> plu n a l u p cnt -> (forall i j, j < i -> i < n -> nleb (nabs (l i j)) n1 = true) ->
  i < n -> tiny (u i i) = true -> near_singular n a.
Proof.
  intros HO H Hl Hi Ht. destruct (plu_perm _ _ _ _ _ _ H) as (rt & He & Hp). pose proof (exchanges_perm _ _ _ He) as Hperm.
  set (u' := fun r j => if (j =? i) && (r =? i) then n0 else u r j).
  apply (near_gen n a rt cnt l u u' i); auto.
  - intros r j Hr Hj. rewrite <- (plu_prod _ _ _ _ _ _ H r j Hr Hj). pose proof (perm_lt rt n r Hperm Hr).
    rewrite (bigsum_single HF n (nth r rt 0)); auto; [rewrite Hp by auto; rewrite Nat.eqb_refl; ring|].
    intros k Hk Hne. rewrite Hp by auto. bcase. ring.
  - intros r j Hr Hj Hne. unfold u'. bcase; auto.
  - rewrite (det_upper HF).
    + apply (bigprod_0 HF n _ i); auto. unfold u'. bcase. auto.
    + intros r j H1 H2. unfold u'. bcase; auto; now apply (plu_upper _ _ _ _ _ _ H).
  - intros r Hr. rewrite (bigsum_single HF n i); auto.
    + unfold u'. bcase. replace (l r i * (n0 - u i i))%num with (- (l r i * u i i))%num by ring. rewrite (oabs_opp HO), (oabs_mul HO).
      destruct (lt_eq_lt_dec r i) as [[Hlt|Heq]|Hgt].
      * rewrite (plu_lower _ _ _ _ _ _ H) by auto. rewrite (proj2 (oabs_0_iff HO n0) eq_refl).
        replace (n0 * nabs (u i i))%num with (@n0 N) by ring. unfold tiny in Htiny. rewrite (proj2 (oabs_0_iff HO n0) eq_refl) in Htiny. exact Htiny.
      * rewrite Heq, (plu_unit _ _ _ _ _ _ H) by auto. rewrite <- (oabs_mul HO). replace (n1 * u i i)%num with (u i i) by ring. exact Ht.
      * apply (of_le_trans N HO) with (n1 * nabs (u i i))%num.
        -- rewrite (Rmul_comm (F_R (fl_field N HF)) (nabs (l r i))), (Rmul_comm (F_R (fl_field N HF)) n1). apply (ole_mul_l HO); [apply (oabs_nonneg HO)|apply Hl; auto].
        -- replace (n1 * nabs (u i i))%num with (nabs (u i i)) by ring. exact Ht.
    + intros t Ht1 Hne. unfold u'. bcase; ring.
Qed.
(** With epsilon = 0 the word near can be dropped. *)
Lemma near_exact n a : OrdFieldLaws N -> @neps N = n0 -> near_singular n a -> det n a = n0.
Proof.
  intros HO E (c & d & Hc & Hd & <-). apply det_ext. intros i j Hi Hj. destruct (j =? c); auto.
  rewrite (tiny_exact (d i) HO E (Hd i Hi)). ring.
Qed.
End LUNear.
