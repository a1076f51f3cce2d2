(** Facts about the linear system of the finite element example: elimination of the prescribed values, symmetry, energy. *)
From Coq Require Import List Arith Bool ZArith Lia Ring Field.
From Verif Require Import Base Num OrdField Spec SpecProofs UtilsSpec SimplexModel SimplexSpec MeshModel MeshSpec MeshDofSpec QuadModel DetSpec CholProofs
  NormProofs IterResult ShapeProofs FemSpec FemProofs.
Import ListNotations.
Local Open Scope nat_scope.
Open Scope num_scope.

Section FemMath.
Context {N : Num} (HO : OrdFieldLaws N).
Let HF : FieldLaws N := of_field N HO.
Add Field fmfld : (fl_field N HF).
Notation le x y := (nleb x y = true).
Notation lt x y := (nltb x y = true).
Local Notation two := (n1 + n1).
Let two_nz := two_nz' HO.
(** *** Decimal literals *)
Lemma nofpos_succ p : nofpos (Pos.succ p) = nofpos p + n1 :> N.
Proof. induction p as [p IH|p IH|]; cbn [nofpos Pos.succ]; [rewrite IH; ring|ring|ring]. Qed.
Lemma nofpos_add p q : nofpos (p + q) = nofpos p + nofpos q :> N.
Proof. induction p as [|p IH] using Pos.peano_ind; [rewrite Pos.add_1_l, nofpos_succ; cbn; ring|]. rewrite Pos.add_succ_l, !nofpos_succ, IH. ring. Qed.
Lemma nofpos_mul p q : nofpos (p * q) = nofpos p * nofpos q :> N.
Proof. induction p as [|p IH] using Pos.peano_ind; [rewrite Pos.mul_1_l; cbn; ring|]. rewrite Pos.mul_succ_l, nofpos_add, nofpos_succ, IH. ring. Qed.
Lemma nofpos_pos p : lt (@n0 N) (nofpos p).
Proof. induction p as [|p IH] using Pos.peano_ind; [apply (olt_0_1 HO)|]. rewrite nofpos_succ. apply (olt_0_add HO); auto. apply (olt_le HO), (olt_0_1 HO). Qed.
Lemma nofpos_lt p q : (p < q)%positive -> lt (@nofpos N p) (nofpos q).
Proof. intros H. replace q with (p + (q - p))%positive by lia. rewrite nofpos_add. apply (olt_sub HO). replace (nofpos p + nofpos (q - p) - nofpos p) with (@nofpos N (q - p)) by ring. apply nofpos_pos. Qed.
Fixpoint p10 (k : nat) : positive := match k with O => 1%positive | S k => (10 * p10 k)%positive end.
Lemma ten_is k : ten k = nofpos (p10 k) :> N.
Proof. induction k as [|k IH]; [reflexivity|]. cbn [ten p10]. rewrite nofpos_mul, IH. reflexivity. Qed.
Lemma pos_nz (x : N) : lt n0 x -> x <> n0.
Proof. intros H E. apply (olt_ne HO _ _ H). auto. Qed.
Lemma div_pos (x y : N) : lt n0 x -> lt n0 y -> lt n0 (x / y).
Proof. intros Hx Hy. replace (x / y) with (x * (n1 / y)) by (field; now apply pos_nz). apply (olt_0_mul HO); auto. now apply (olt_0_inv HO). Qed.
Lemma dec_pos p k : lt (@n0 N) (dec (Zpos p) k).
Proof. unfold dec. rewrite ten_is. apply div_pos; apply nofpos_pos. Qed.
Lemma dec_lt p k q l : (p * p10 l < q * p10 k)%positive -> lt (@dec N (Zpos p) k) (dec (Zpos q) l).
Proof.
  intros H. unfold dec. rewrite !ten_is. apply nofpos_lt in H. rewrite !nofpos_mul in H.
  pose proof (nofpos_pos (p10 k)) as Hk. pose proof (nofpos_pos (p10 l)) as Hl. apply (olt_sub HO). apply (olt_sub HO) in H.
  replace (nofpos q / nofpos (p10 l) - nofpos p / nofpos (p10 k)) with ((@nofpos N q * nofpos (p10 k) - nofpos p * nofpos (p10 l)) / (nofpos (p10 k) * nofpos (p10 l)))
    by (field; split; now apply pos_nz).
  apply div_pos; auto. now apply (olt_0_mul HO).
Qed.
Lemma dec_eq p k q l : (p * p10 l = q * p10 k)%positive -> @dec N (Zpos p) k = dec (Zpos q) l.
Proof.
  intros H. unfold dec. rewrite !ten_is. apply (f_equal (@nofpos N)) in H. rewrite !nofpos_mul in H.
  pose proof (nofpos_pos (p10 k)) as Hk. pose proof (nofpos_pos (p10 l)) as Hl. field_simplify_eq; [|split; now apply pos_nz]. rewrite H. ring.
Qed.
(** *** Prescribed values *)
Lemma fixed_row_flag n bd mid a (x : nat -> N) i : i < n -> bd i = true -> mulvec n (fixed_a bd mid a) x i = mid * x i.
Proof.
  intros Hi Hb. unfold mulvec. rewrite (bigsum_single HF n i) by (auto; intros j _ Hj; unfold fixed_a; rewrite Hb; cbn; apply Nat.eqb_neq in Hj; rewrite Nat.eqb_sym, Hj; ring).
  unfold fixed_a. rewrite Hb, Nat.eqb_refl. reflexivity.
Qed.
Lemma fixed_row_free n bd mid a (x : nat -> N) i : bd i = false -> mulvec n (fixed_a bd mid a) x i = bigsum n (fun j => if bd j then n0 else a i j * x j).
Proof.
  intros Hb. unfold mulvec. apply bigsum_ext. intros j _. unfold fixed_a. rewrite Hb. cbn [orb]. destruct (bd j) eqn:Ej; auto.
  destruct (Nat.eqb_spec i j) as [->|]; [congruence|ring].
Qed.
Lemma row_split n (bd : nat -> bool) a (x : nat -> N) i : mulvec n a x i = bigsum n (fun j => if bd j then n0 else a i j * x j) + bigsum n (fun j => if bd j then a i j * x j else n0).
Proof. unfold mulvec. rewrite <- (bigsum_plus HF). apply bigsum_ext. intros j _. destruct (bd j); ring. Qed.
Theorem fixed_solves n bd (mid : N) g a b x : mid <> n0 ->
  (forall i, i < n -> mulvec n (fixed_a bd mid a) x i = fixed_b n bd mid g a b i) <->
  (forall i, i < n -> bd i = true -> x i = g i) /\ (forall i, i < n -> bd i = false -> mulvec n a x i = b i).
Proof.
  intros Hm. split.
  - intros H. assert (G : forall i, i < n -> bd i = true -> x i = g i).
    { intros i Hi Hb. specialize (H i Hi). rewrite fixed_row_flag in H by auto. unfold fixed_b in H. rewrite Hb in H.
      replace (x i) with (mid * x i / mid) by (field; auto). rewrite H. field; auto. }
    split; auto. intros i Hi Hb. specialize (H i Hi). rewrite fixed_row_free in H by auto. unfold fixed_b in H. rewrite Hb in H. rewrite (row_split n bd), H.
    replace (bigsum n (fun j => if bd j then a i j * x j else n0)) with (bigsum n (fun j => if bd j then a i j * g j else n0)); [ring|].
    apply bigsum_ext. intros j Hj. destruct (bd j) eqn:E; auto. now rewrite G.
  - intros (G & H) i Hi. unfold fixed_b. destruct (bd i) eqn:Hb; [rewrite fixed_row_flag by auto; now rewrite G|]. rewrite fixed_row_free by auto. rewrite <- (H i Hi Hb), (row_split n bd a x i).
    replace (bigsum n (fun j => if bd j then a i j * x j else n0)) with (bigsum n (fun j => if bd j then a i j * g j else n0)); [ring|].
    apply bigsum_ext. intros j Hj. destruct (bd j) eqn:E; auto. now rewrite G.
Qed.
(** *** Symmetry *)
Lemma stiff_sym o (p : nat -> nat -> N) k l : stiff o p k l = stiff o p l k.
Proof. unfold stiff. f_equal. apply rule_ext. intros x y. ring. Qed.
Lemma assembled_sym D nd (m : nat -> nat -> nat -> N) i j : (forall e k l, m e k l = m e l k) -> assembled D nd m i j = assembled D nd m j i.
Proof.
  intros H. unfold assembled. apply bigsum_ext. intros e _. rewrite (bigsum_swap HF). apply bigsum_ext. intros k _. apply bigsum_ext. intros l _. rewrite andb_comm, H. reflexivity.
Qed.
Lemma fem_a_sym drop o V D i j : fem_a drop o V D i j = fem_a drop o V D j i :> N.
Proof. apply assembled_sym. intros e k l. now rewrite stiff_sym. Qed.
Lemma fixed_sym n bd (mid : N) a : symmetric2 n a -> symmetric2 n (fixed_a bd mid a).
Proof. intros H i j Hi Hj. unfold fixed_a. rewrite orb_comm, Nat.eqb_sym, (H i j) by auto. reflexivity. Qed.
(** *** Energy *)
Lemma pick n k (f : nat -> N) : k < n -> bigsum n (fun i => if k =? i then f i else n0) = f k.
Proof. intros Hk. rewrite (bigsum_single HF n k) by (auto; intros j _ Hj; apply Nat.eqb_neq in Hj; rewrite Nat.eqb_sym, Hj; reflexivity). now rewrite Nat.eqb_refl. Qed.
Lemma assembled_form n D nd (m : nat -> nat -> nat -> N) (x y : nat -> N) : (forall e k, e < length D -> k < nd -> node D e k < n) ->
  bigsum n (fun i => bigsum n (fun j => x i * assembled D nd m i j * y j)) =
  bigsum (length D) (fun e => bigsum nd (fun k => bigsum nd (fun l => x (node D e k) * m e k l * y (node D e l)))).
Proof.
  intros Hin. unfold assembled.
  transitivity (bigsum n (fun i => bigsum n (fun j => bigsum (length D) (fun e => bigsum nd (fun k => bigsum nd (fun l =>
     if node D e k =? i then if node D e l =? j then x i * m e k l * y j else n0 else n0)))))).
  { apply bigsum_ext. intros i _. apply bigsum_ext. intros j _.
    rewrite <- (bigsum_mul_l HF), <- (bigsum_mul_r HF). apply bigsum_ext. intros e _.
    rewrite <- (bigsum_mul_l HF), <- (bigsum_mul_r HF). apply bigsum_ext. intros k _.
    rewrite <- (bigsum_mul_l HF), <- (bigsum_mul_r HF). apply bigsum_ext. intros l _.
    destruct (node D e k =? i), (node D e l =? j); cbn; ring. }
  transitivity (bigsum n (fun i => bigsum (length D) (fun e => bigsum nd (fun k => bigsum nd (fun l => if node D e k =? i then x i * m e k l * y (node D e l) else n0))))).
  { apply bigsum_ext. intros i _. rewrite (bigsum_swap HF). apply bigsum_ext. intros e He. rewrite (bigsum_swap HF). apply bigsum_ext. intros k Hk.
    rewrite (bigsum_swap HF). apply bigsum_ext. intros l Hl. destruct (node D e k =? i); [|now apply (bigsum_0 HF)].
    apply (pick n (node D e l) (fun j => x i * m e k l * y j)). auto. }
  rewrite (bigsum_swap HF). apply bigsum_ext. intros e He. rewrite (bigsum_swap HF). apply bigsum_ext. intros k Hk. rewrite (bigsum_swap HF). apply bigsum_ext. intros l Hl.
  apply (pick n (node D e k) (fun i => x i * m e k l * y (node D e l))). auto.
Qed.
Lemma square_sum nd (u P : nat -> N) : bigsum nd (fun k => bigsum nd (fun l => u k * P k * (u l * P l))) = bigsum nd (fun k => u k * P k) * bigsum nd (fun k => u k * P k).
Proof. rewrite <- (bigsum_mul_r HF). apply bigsum_ext. intros k _. now rewrite (bigsum_mul_l HF). Qed.
Definition len2 (p : nat -> nat -> N) (v : nat -> N) : N := pull p v 0 * pull p v 0 + pull p v 1 * pull p v 1.
(** the gradient of the function with the node values u, in local coordinates *)
Definition slope (o : nat) (u : nat -> N) (x y : N) (c : nat) : N := bigsum (3 * o) (fun k => u k * dshape o k c x y).
Lemma pull_sum (p : nat -> nat -> N) nd (u : nat -> N) (d : nat -> nat -> N) c : area2 p <> n0 ->
  bigsum nd (fun k => u k * pull p (d k) c) = pull p (fun c => bigsum nd (fun k => u k * d k c)) c.
Proof.
  intros Ha. unfold pull. induction nd as [|nd IH]; cbn [bigsum]; [destruct c; field; auto|]. rewrite IH. destruct c; field; auto.
Qed.
Lemma local_energy o p (u : nat -> N) : area2 p <> n0 ->
  bigsum (3 * o) (fun k => bigsum (3 * o) (fun l => u k * stiff o p k l * u l)) = nabs (area2 p) * rule o (fun x y => len2 p (slope o u x y)).
Proof.
  intros Ha. unfold stiff, rule. set (nq := length (@gl_points N 2 (o + 1))). set (n := (3 * o)%nat).
  transitivity (nabs (area2 p) * bigsum n (fun k => bigsum n (fun l => bigsum nq (fun q => qw o q * (u k * (pull p (fun c => dshape o k c (qp o q 0) (qp o q 1)) 0 * pull p (fun c => dshape o l c (qp o q 0) (qp o q 1)) 0 + pull p (fun c => dshape o k c (qp o q 0) (qp o q 1)) 1 * pull p (fun c => dshape o l c (qp o q 0) (qp o q 1)) 1) * u l))))).
  { rewrite <- (bigsum_mul_l HF). apply bigsum_ext. intros k _. rewrite <- (bigsum_mul_l HF). apply bigsum_ext. intros l _.
    transitivity (nabs (area2 p) * (u k * bigsum nq (fun q => qw o q * (pull p (fun c => dshape o k c (qp o q 0) (qp o q 1)) 0 * pull p (fun c => dshape o l c (qp o q 0) (qp o q 1)) 0 + pull p (fun c => dshape o k c (qp o q 0) (qp o q 1)) 1 * pull p (fun c => dshape o l c (qp o q 0) (qp o q 1)) 1)) * u l)); [ring|].
    f_equal. rewrite <- (bigsum_mul_l HF), <- (bigsum_mul_r HF). apply bigsum_ext. intros q _. ring. }
  f_equal. transitivity (bigsum n (fun k => bigsum nq (fun q => bigsum n (fun l => qw o q * (u k * (pull p (fun c => dshape o k c (qp o q 0) (qp o q 1)) 0 * pull p (fun c => dshape o l c (qp o q 0) (qp o q 1)) 0 + pull p (fun c => dshape o k c (qp o q 0) (qp o q 1)) 1 * pull p (fun c => dshape o l c (qp o q 0) (qp o q 1)) 1) * u l))))).
  { apply bigsum_ext. intros k _. apply (bigsum_swap HF). }
  rewrite (bigsum_swap HF). apply bigsum_ext. intros q _. unfold len2.
  assert (X : forall c, pull p (slope o u (qp o q 0) (qp o q 1)) c = bigsum n (fun k => u k * pull p (fun c => dshape o k c (qp o q 0) (qp o q 1)) c)).
  { intros c. rewrite (pull_sum p n u (fun k c => dshape o k c (qp o q 0) (qp o q 1)) c Ha). reflexivity. }
  rewrite !X, <- !square_sum, <- (bigsum_plus HF), <- (bigsum_mul_l HF). apply bigsum_ext. intros k _. rewrite <- (bigsum_plus HF), <- (bigsum_mul_l HF). apply bigsum_ext. intros l _. ring.
Qed.
Lemma len2_nonneg p v : le n0 (len2 p v).
Proof. apply (ole_0_add HO); apply (ole_0_sqr HO). Qed.
Lemma len2_zero p v : area2 p <> n0 -> len2 p v = n0 -> v 0%nat = n0 /\ v 1%nat = n0.
Proof.
  intros Ha H. assert (Z : pull p v 0 = n0 /\ pull p v 1 = n0).
  { assert (X : forall a b : N, a * a + b * b = n0 -> a = n0).
    { intros a b E. destruct (neq_dec HO a n0) as [|Hn]; auto. exfalso. apply (olt_ne HO n0 (a * a + b * b)); auto. apply (olt_0_add HO); [now apply (olt_0_sqr HO)|apply (ole_0_sqr HO)]. }
    split; [now apply X in H|]. apply (X _ (pull p v 0)). unfold len2 in H. rewrite <- H. ring. }
  destruct Z as (Z0 & Z1). split.
  - replace (v 0%nat) with ((p 1%nat 0%nat - p 0%nat 0%nat) * pull p v 0 + (p 2%nat 0%nat - p 0%nat 0%nat) * pull p v 1); [rewrite Z0, Z1; ring|]. unfold pull. unfold area2 in *. field. auto.
  - replace (v 1%nat) with ((p 1%nat 1%nat - p 0%nat 1%nat) * pull p v 0 + (p 2%nat 1%nat - p 0%nat 1%nat) * pull p v 1); [rewrite Z0, Z1; ring|]. unfold pull. unfold area2 in *. field. auto.
Qed.
End FemMath.
