(** Results about doolittle, determinant and inverse. *)
From Coq Require Import List Arith Bool Lia Ring Field Permutation.
From Verif Require Import Base BaseProofs Num OrdField Spec SpecProofs VectorModel VectorProofs SparseModel SparseSpec SparsePropProofs
  DenseModel DenseSpec DenseProofs DensePropProofs MatI MatIProofs MatOps MatOpsProofs OrderProofs ConstructProofs
  DetSpec DetProofs LUModel LUProofs DetMult LUNear LUSolve.
Import ListNotations.
Local Open Scope nat_scope.
Open Scope res_scope.

Section LUResult.
Context {N : Num} (HF : FieldLaws N).
Add Field lurfld : (fl_field N HF).
Hypothesis Htiny : tiny (@n0 N) = true.

Lemma inv_plu n (a l u l0 : nat -> nat -> N) rt cnt : 0 < n -> (forall i j, i < j -> j < n -> l0 i j = n0) ->
  lu_inv n a (fun i j => if i =? j then n1 else l0 i j) (n - 1) l u rt cnt ->
  plu n a l u (fun i j => if j =? nth i rt 0 then n1 else n0) cnt.
Proof.
  intros Hn H0 (H1 & H2 & H3 & H4 & H5 & H6 & H7 & H8).
  assert (Hlow : forall i j, i < j -> j < n -> l i j = n0).
  { intros i j Hi Hj. rewrite H6 by lia. bcase. apply H0; lia. }
  assert (Hup : forall i j, j < i -> i < n -> u i j = n0) by (intros i j Hi Hj; apply H5; lia).
  constructor; auto.
  - intros i Hi. rewrite H6 by lia. bcase. auto.
  - exists rt. auto.
  - intros i j Hi Hj. pose proof (perm_lt rt n i H2 Hi).
    rewrite (bigsum_single HF n (nth i rt 0)); auto; [|intros k Hk Hne; bcase; ring].
    rewrite Nat.eqb_refl. rewrite H4 by auto. rewrite (bigsum_ext n (fun k => l i k * u k j)%num (fun k => lo_part l i k * u k j)%num).
    + change (bigsum n (fun k => lo_part l i k * u k j)%num) with (mulvec n (lo_part l) (fun k => u k j) i).
      rewrite (lo_sum HF) by auto. rewrite (H6 i i) by lia. rewrite Nat.eqb_refl. replace (min i (n - 1)) with i by lia. ring.
    + intros k Hk. unfold lo_part. bcase; auto. rewrite Hlow by lia. auto.
Qed.

Definition lu_near n (a : nat -> nat -> N) (e : exn) : Prop :=
  e = Singular /\ (OrdFieldLaws N -> near_singular n a /\ (@neps N = n0 -> det n a = n0)).
Lemma fail_near n a e : lu_fail n a e -> lu_near n a e.
Proof. intros [-> H]. split; auto. intros HO. pose proof (stuck_near HF Htiny n a HO (H HO)). split; auto. intros E. now apply (near_exact HF). Qed.

Section Generic.
Context {I : MatI N} (HL : MatLaws I).

Definition small_l n (l : nat -> nat -> N) : Prop :=
  OrdFieldLaws N -> forall i j, j < i -> i < n -> nleb (nabs (l i j)) n1 = true.

(** The dense overload on arbitrary output parameters. *)
Lemma doolittle_dense_gen (A L0 P0 : I) n a l0 p0 : 0 < n -> holds A n n a -> holds L0 n n l0 -> holds P0 n n p0 ->
  post (doolittle_dense A L0 P0) (fun r => let '(L, U, P, cnt) := r in exists l u rt,
      holds L n n l /\ holds U n n u /\ holds P n n (fun i j => if j =? nth i rt 0 then n1 else p0 i j) /\
      exchanges n rt cnt /\ cnt < n /\
      plu n a (lo_part l) u (fun i j => if j =? nth i rt 0 then n1 else n0) cnt /\
      small_l n l /\ det n u = (sgn cnt * det n a)%num /\
      forall i j, i < j -> j < n -> l i j = l0 i j)
    (lu_near n a).
Proof.
  intros Hn HA HL0 HP0. unfold doolittle_dense.
  rewrite (holds_rows _ _ _ _ HA), (holds_cols _ _ _ _ HA), (holds_rows _ _ _ _ HL0), (holds_cols _ _ _ _ HL0),
    (holds_rows _ _ _ _ HP0), (holds_cols _ _ _ _ HP0), !Nat.eqb_refl. cbn [negb orb].
  eapply post_mono; [apply (main_ok HL HF Htiny n a l0 p0 A L0 (Ok P0) Hn HA HL0)| |apply fail_near].
  - exists P0. auto.
  - intros (((L, U), P), cnt) (l & u & rt & H1 & H2 & H3 & H4). exists l, u, rt. do 3 (split; [assumption|]).
    pose proof H4 as (I1 & I2 & I3 & I4 & I5 & I6 & I7 & I8).
    split; auto. split; [lia|]. split; [|split; [|split]]; auto.
    + (* clear the upper part of l *)
      assert (Q : plu n a (lo_part l) u (fun i j => if j =? nth i rt 0 then n1 else n0) cnt).
      { apply (inv_plu n a (lo_part l) u (fun _ _ => n0) rt cnt); auto.
        repeat (split; [assumption|]). split; [|split; [|split; [|split]]]; auto.
        - intros i j Hi Hj. rewrite I4 by auto. f_equal. apply bigsum_ext. intros t Ht. unfold lo_part. bcase. auto.
        - intros i j Hi Hj Hc. unfold lo_part. bcase; subst; auto; try (rewrite I6 by lia; bcase; auto). 
        - intros HO i j Hi Hj. unfold lo_part. bcase. apply I8; auto. }
      exact Q.
    + intros HO i j Hj Hi. apply I8; auto. lia.
    + intros i j Hi Hj. rewrite I6 by lia. bcase. auto.
Qed.

Lemma doolittle_dense_ok (A L0 P0 : I) n a : 0 < n -> holds A n n a ->
  holds L0 n n (fun _ _ => n0) -> holds P0 n n (fun _ _ => n0) ->
  post (doolittle_dense A L0 P0) (fun r => let '(L, U, P, cnt) := r in exists l u p,
      holds L n n l /\ holds U n n u /\ holds P n n p /\ plu n a l u p cnt /\ cnt < n /\ small_l n l /\ det n u = (sgn cnt * det n a)%num)
    (lu_near n a).
Proof.
  intros Hn HA HL0 HP0. eapply post_mono; [apply (doolittle_dense_gen A L0 P0 n a _ _ Hn HA HL0 HP0)| |auto].
  intros (((L, U), P), cnt) (l & u & rt & H1 & H2 & H3 & H4 & H4' & H5 & H6 & H7 & H8). exists (lo_part l), u. eexists.
  split; [|split; [exact H2|split; [exact H3|split; [exact H5|split; [exact H4'|split; [|exact H7]]]]]].
  - eapply holds_ext; [exact H1|]. intros i j Hi Hj. unfold lo_part. bcase; auto.
  - intros HO i j Hj Hi. unfold lo_part. bcase. apply H6; auto.
Qed.
Lemma doolittle_sparse_ok (A : I) n a : 0 < n -> holds A n n a ->
  post (doolittle_sparse A) (fun r => let '(L, U, P, cnt) := r in exists l u p,
      holds L n n l /\ holds U n n u /\ holds P n n p /\ plu n a l u p cnt /\ cnt < n /\ small_l n l /\ det n u = (sgn cnt * det n a)%num)
    (lu_near n a).
Proof.
  intros Hn HA. unfold doolittle_sparse. rewrite (holds_rows _ _ _ _ HA), (holds_cols _ _ _ _ HA), !Nat.eqb_refl. cbn [negb].
  destruct (holds_new HL n n Hn Hn) as (L0 & E & HL0). rewrite E. cbn [bind].
  pose proof (doolittle_dense_ok A L0 L0 n a Hn HA HL0 HL0) as H.
  unfold doolittle_dense in H.
  rewrite (holds_rows _ _ _ _ HA), (holds_cols _ _ _ _ HA), (holds_rows _ _ _ _ HL0), (holds_cols _ _ _ _ HL0), !Nat.eqb_refl in H.
  exact H.
Qed.
Lemma doolittle_bad (A L0 P0 : I) :
  (mi_rows A <> mi_cols A -> doolittle_dense A L0 P0 = Throw NotSquare /\ doolittle_sparse A = Throw NotSquare) /\
  (mi_rows A = mi_cols A -> mi_rows A <> mi_rows L0 \/ mi_cols A <> mi_cols L0 \/ mi_rows A <> mi_rows P0 \/ mi_cols A <> mi_cols P0 ->
    doolittle_dense A L0 P0 = Throw InvalidOutputMatrix).
Proof.
  unfold doolittle_dense, doolittle_sparse. split.
  - intros H. destruct (Nat.eqb_spec (mi_rows A) (mi_cols A)); [contradiction|]. cbn [negb]. auto.
  - intros -> H. rewrite Nat.eqb_refl. cbn [negb].
    destruct (Nat.eqb_spec (mi_cols A) (mi_rows L0)), (Nat.eqb_spec (mi_cols A) (mi_cols L0)),
      (Nat.eqb_spec (mi_cols A) (mi_rows P0)), (Nat.eqb_spec (mi_cols A) (mi_cols P0)); cbn [negb orb]; auto. lia.
Qed.

Lemma sgn_even k : (if Nat.even k then n1 else (- n1)%num) = @sgn N k.
Proof.
  induction k as [|k IH]; [reflexivity|]. rewrite Nat.even_succ, <- Nat.negb_even. cbn [sgn]. rewrite <- IH.
  destruct (Nat.even k); cbn [negb]; [reflexivity|ring].
Qed.
Lemma product_ok (U : I) n u cnt : holds U n n u -> det_product U cnt = Ok (sgn cnt * bigprod n (fun i => u i i))%num.
Proof.
  intros HU. unfold det_product. rewrite (holds_rows _ _ _ _ HU). rewrite sgn_even.
  destruct (for_returns (fun k d => d = sgn cnt * bigprod k (fun i => u i i))%num 0 n
    (fun i (d : N) => let* x := mi_at U i i in Ok (d * x)%num) (sgn cnt)) as (d & -> & ->); try lia; auto.
  - cbn [bigprod]. ring.
  - intros k s Hk ->. rewrite (holds_at _ _ _ _ _ _ HU) by lia. cbn [bind]. eexists. split; [reflexivity|]. cbn [bigprod]. ring.
Qed.
Lemma catch_ok n a (r : res (I * I * I * nat)) : 
  post r (fun x => let '(L, U, P, cnt) := x in exists l u p,
      holds L n n l /\ holds U n n u /\ holds P n n p /\ plu n a l u p cnt /\ cnt < n /\ small_l n l /\ det n u = (sgn cnt * det n a)%num)
    (lu_near n a) ->
  returns (catch_math (let* x := r in det_product (snd (fst (fst x))) (snd x)))
    (fun d => (d = det n a \/ d = n0 /\ (OrdFieldLaws N -> near_singular n a)) /\ (OrdFieldLaws N -> @neps N = n0 -> d = det n a)).
Proof.
  destruct r as [(((L, U), P), cnt)|e| | | |]; cbn [post]; try contradiction.
  - intros (l & u & p & _ & HU & _ & HP & _ & _ & Hd). cbn [bind fst snd]. rewrite (product_ok U n u cnt HU). cbn [catch_math].
    assert (E : (sgn cnt * bigprod n (fun i => u i i) = det n a)%num).
    { rewrite <- (det_upper HF); [|intros; apply (plu_upper _ _ _ _ _ _ HP); auto]. rewrite Hd.
      transitivity ((sgn cnt * sgn cnt) * det n a)%num; [ring|]. rewrite (sgn_sqr HF). ring. }
    eexists. split; [reflexivity|]. rewrite E. auto.
  - intros [-> H]. cbn [bind catch_math is_math_exn]. exists n0. split; auto. split; [right; split; auto; intros HO; apply (H HO)|]. intros HO E. symmetry. now apply (H HO).
Qed.
End Generic.

Lemma det_dense_ok (A : DenseI N) n a : 0 < n -> holds A n n a ->
  returns (det_dense A) (fun d => (d = det n a \/ d = n0 /\ (OrdFieldLaws N -> near_singular n a)) /\ (OrdFieldLaws N -> @neps N = n0 -> d = det n a)).
Proof.
  intros Hn HA. unfold det_dense. rewrite (holds_rows _ _ _ _ HA), (holds_cols _ _ _ _ HA).
  destruct (holds_new (I := DenseI N) dense_laws n n Hn Hn) as (L0 & -> & HL0). cbn [bind].
  apply (catch_ok n a). apply (doolittle_dense_ok (I := DenseI N) dense_laws); auto.
Qed.
Lemma det_sparse_ok (A : SparseI N) n a : 0 < n -> holds A n n a ->
  returns (det_sparse A) (fun d => (d = det n a \/ d = n0 /\ (OrdFieldLaws N -> near_singular n a)) /\ (OrdFieldLaws N -> @neps N = n0 -> d = det n a)).
Proof.
  intros Hn HA. unfold det_sparse. rewrite (holds_rows _ _ _ _ HA), (holds_cols _ _ _ _ HA).
  destruct (holds_new (I := SparseI N) (sparse_laws N HF) n n Hn Hn) as (L0 & -> & HL0). cbn [bind].
  apply (catch_ok n a). apply (doolittle_sparse_ok (sparse_laws N HF)); auto.
Qed.
Lemma fixed_new_holds n : holds (d_fixed_new n n : DenseI N) n n (fun _ _ => n0).
Proof. apply holds_fixed. Qed.
Lemma det_fixed_ok (A : DenseI N) n a : 0 < n -> holds A n n a ->
  returns (det_fixed A) (fun d => (d = det n a \/ d = n0 /\ (OrdFieldLaws N -> near_singular n a)) /\ (OrdFieldLaws N -> @neps N = n0 -> d = det n a)).
Proof.
  intros Hn HA. unfold det_fixed. rewrite (holds_rows _ _ _ _ HA), (holds_cols _ _ _ _ HA).
  apply (catch_ok n a). apply (doolittle_dense_ok (I := DenseI N) dense_laws); auto using fixed_new_holds.
Qed.

(** inverse(L,U,P) on a decomposition is the two-sided inverse. *)
Lemma inverse3_plu {M : RowMat N} (HR : RowLaws M) (L U P : M) n a l u p cnt : 0 < n ->
  holds L n n l -> holds U n n u -> holds P n n p -> plu n a l u p cnt ->
  post (inverse3 L U P) (fun X => no_tiny n u /\ exists x, holds X n n x /\
      (forall i j, i < n -> j < n -> bigsum n (fun k => a i k * x k j)%num = if i =? j then n1 else n0) /\
      (forall i j, i < n -> j < n -> bigsum n (fun k => x i k * a k j)%num = if i =? j then n1 else n0))
    (fun e => e = Singular /\ (tiny (@n1 N) = true \/ has_tiny n u)).
Proof.
  intros Hn HLl HU HP H. destruct (plu_perm _ _ _ _ _ _ H) as (rt & He & Hp). pose proof (exchanges_perm _ _ _ He) as Hperm.
  eapply post_mono; [apply (inverse3_ok HR HF Htiny L U P n l u p Hn HLl HU HP)| |].
  - intros X (H1 & H2 & x & HX & Hx). split; auto. exists x. split; auto.
    apply (two_sided HF n a l u x rt Hperm).
    + intros i Hi. now apply (not_tiny Htiny), H1.
    + intros i Hi. now apply (not_tiny Htiny), H2.
    + intros i j Hi Hj. transitivity (bigsum n (fun k => p i k * a k j)%num).
      * pose proof (perm_lt rt n i Hperm Hi). rewrite (bigsum_single HF n (nth i rt 0)); auto.
        -- rewrite Hp by auto. rewrite Nat.eqb_refl. ring.
        -- intros k Hk Hne. rewrite Hp by auto. bcase. ring.
      * rewrite (plu_prod _ _ _ _ _ _ H) by auto. unfold mulvec. apply bigsum_ext. intros k Hk. unfold lo_part, up_part.
        bcase; auto; try (rewrite (plu_lower _ _ _ _ _ _ H) by lia); try (rewrite (plu_upper _ _ _ _ _ _ H) by lia); auto.
    + intros i j Hi Hj. rewrite Hx by auto. now apply Hp.
  - intros e [-> [(i & Hi & Ht)|Ht]]; split; auto. left. rewrite (plu_unit _ _ _ _ _ _ H) in Ht by auto. auto.
Qed.

Lemma det_of_plu n (a u : nat -> nat -> N) cnt : (forall i j, j < i -> i < n -> u i j = n0) -> det n u = (sgn cnt * det n a)%num ->
  ((exists i, i < n /\ u i i = n0) -> det n a = n0) /\ ((forall i, i < n -> u i i <> n0) -> det n a <> n0).
Proof.
  intros Hu Hd. rewrite (det_upper HF) in Hd by (intros; apply Hu; lia). split.
  - intros (i & Hi & Hz). rewrite (bigprod_0 HF n _ i) in Hd; auto.
    transitivity ((sgn cnt * sgn cnt) * det n a)%num; [rewrite (sgn_sqr HF); ring|].
    transitivity (sgn cnt * (sgn cnt * det n a))%num; [ring|]. rewrite <- Hd. ring.
  - intros Hz E. rewrite E in Hd. assert (X : bigprod n (fun i => u i i) = n0) by (rewrite Hd; ring). revert X.
    apply bigprod_nz; auto.
    + intros x y Hx Hy E2. apply Hy. transitivity (x * y / x)%num; [field; auto|]. rewrite E2. field. auto.
    + exact (F_1_neq_0 (fl_field N HF)).
Qed.
Lemma inverse_sparse_ok (A : SparseI N) n a : 0 < n -> holds A n n a ->
  post (inverse_sparse A) (fun X => det n a <> n0 /\ exists x, holds (X : SparseI N) n n x /\
      (forall i j, i < n -> j < n -> bigsum n (fun k => a i k * x k j)%num = if i =? j then n1 else n0) /\
      (forall i j, i < n -> j < n -> bigsum n (fun k => x i k * a k j)%num = if i =? j then n1 else n0))
    (fun e => e = Singular /\ (OrdFieldLaws N -> (tiny (@n1 N) = true \/ near_singular n a) /\ (@neps N = n0 -> det n a = n0))).
Proof.
  intros Hn HA. unfold inverse_sparse. apply post_bind.
  eapply post_mono; [apply (doolittle_sparse_ok (sparse_laws N HF) A n a Hn HA)| |intros e [-> H]; split; auto; intros HO; destruct (H HO); auto].
  intros (((L, U), P), cnt) (l & u & p & H1 & H2 & H3 & H4 & _ & Hsm & H5). cbn beta iota.
  assert (Hup : forall i j, j < i -> i < n -> u i j = n0) by (intros; now apply (plu_upper _ _ _ _ _ _ H4)).
  destruct (det_of_plu n a u cnt Hup H5) as [D1 D2].
  eapply post_mono; [apply (inverse3_plu (sparse_rows N HF) L U P n a l u p cnt Hn H1 H2 H3 H4)| |].
  - intros X [Ht HX]. split; auto. apply D2. intros i Hi. now apply (not_tiny Htiny), Ht.
  - intros e [-> Ht]. split; auto. intros HO. destruct Ht as [Ht|(i & Hi & Ht)]; (split; [|intros He]).
    + now left.
    + exfalso. apply (F_1_neq_0 (fl_field N HF)). now apply (tiny_exact _ HO He).
    + right. apply (plu_near HF Htiny n a l u p cnt i HO H4); auto.
    + apply D1. exists i. split; auto. now apply (tiny_exact _ HO He).
Qed.

(** inverse(m) for dense matrices: the pivot matrix starts as a copy of m. *)
Lemma inverse_dense_ok (A : DenseI N) n a : 0 < n -> holds A n n a ->
  post (inverse_dense A) (fun X => det n a <> n0 /\ exists x rt cnt, holds (X : DenseI N) n n x /\ exchanges n rt cnt /\
      forall i j, i < n -> j < n ->
        bigsum n (fun k => a (nth i rt 0) k * x k j)%num = if j =? nth i rt 0 then n1 else a i j)
    (fun e => e = Singular /\ (OrdFieldLaws N -> (tiny (@n1 N) = true \/ near_singular n a) /\ (@neps N = n0 -> det n a = n0))).
Proof.
  intros Hn HA. unfold inverse_dense. apply post_bind.
  eapply post_mono; [apply (doolittle_dense_gen (I := DenseI N) dense_laws A A A n a a a Hn HA HA HA)| |intros e [-> H]; split; auto; intros HO; destruct (H HO); auto].
  intros (((L, U), P), cnt) (l & u & rt & H1 & H2 & H3 & He & _ & H4 & Hsm & H5 & _). cbn beta iota.
  assert (Hup : forall i j, j < i -> i < n -> u i j = n0) by (intros; now apply (plu_upper _ _ _ _ _ _ H4)).
  assert (Hl1 : forall i, i < n -> l i i = n1).
  { intros i Hi. pose proof (plu_unit _ _ _ _ _ _ H4 i Hi) as E. unfold lo_part in E. now rewrite Nat.leb_refl in E. }
  destruct (det_of_plu n a u cnt Hup H5) as [D1 D2].
  pose proof (exchanges_perm _ _ _ He) as Hperm.
  eapply post_mono; [apply (inverse3_ok (dense_rows N HF) HF Htiny L U P n l u _ Hn H1 H2 H3)| |].
  - intros X (T1 & T2 & x & HX & Hx). split; [apply D2; intros i Hi; now apply (not_tiny Htiny), T2|].
    exists x, rt, cnt. split; auto. split; auto. intros i j Hi Hj. rewrite <- (Hx i j Hi Hj).
    transitivity (bigsum n (fun q => bigsum n (fun k => lo_part l i k * u k q) * x q j)%num).
    + apply bigsum_ext. intros q Hq. rewrite <- (plu_prod _ _ _ _ _ _ H4 i q Hi Hq). f_equal.
      pose proof (perm_lt rt n i Hperm Hi). rewrite (bigsum_single HF n (nth i rt 0)); auto; [rewrite Nat.eqb_refl; ring|].
      intros k Hk Hne. bcase; ring.
    + unfold mulvec. rewrite (bigsum_ext n _ (fun q => bigsum n (fun k => lo_part l i k * (u k q * x q j)))%num).
      * rewrite (bigsum_swap HF). apply bigsum_ext. intros k Hk. rewrite (bigsum_mul_l HF). f_equal. apply bigsum_ext. intros q Hq.
        unfold up_part. destruct (Nat.leb_spec k q); auto. rewrite (Hup k q) by lia. ring.
      * intros q Hq. rewrite <- (bigsum_mul_r HF). apply bigsum_ext. intros; ring.
  - intros e [-> Ht]. split; auto. intros HO. destruct Ht as [(i & Hi & Ht)|(i & Hi & Ht)]; (split; [|intros Hep]).
    + left. now rewrite Hl1 in Ht by auto.
    + exfalso. rewrite Hl1 in Ht by auto. apply (F_1_neq_0 (fl_field N HF)). now apply (tiny_exact _ HO Hep).
    + right. apply (plu_near HF Htiny n a _ u _ cnt i HO H4); auto. intros r j Hj Hr. unfold lo_part. bcase. now apply Hsm.
    + apply D1. exists i. split; auto. now apply (tiny_exact _ HO Hep).
Qed.
End LUResult.
