(** Why ilu0 cannot fail on matrices with nonpositive off-diagonal entries and weak diagonal dominance. *)
From Coq Require Import List Arith Bool Lia Ring Field.
From Verif Require Import Base BaseProofs Num OrdField Spec SpecProofs SparseModel SparseSpec DenseModel VectorModel MatI MatIProofs MatOps MatOpsProofs
  DetSpec DetProofs LUModel LUProofs LUSolve LUResult ILUProofs IterResult.
Import ListNotations.
Local Open Scope nat_scope.
Open Scope num_scope.

Section S.
Context {N : Num} (HO : OrdFieldLaws N).
Let HF : FieldLaws N := of_field N HO.
Add Field ilusf : (fl_field N HF).
Local Notation le x y := (nleb x y = true).
Local Notation lt x y := (nltb x y = true).

Lemma nonpos_mul (x y : N) : le x n0 -> le y n0 -> le n0 (x * y).
Proof.
  intros Hx Hy. apply (ole_opp HO) in Hx, Hy. replace (x * y) with ((- x) * (- y)) by ring. now apply (ole_0_mul HO).
Qed.
Lemma nonpos_nonneg (x y : N) : le x n0 -> le n0 y -> le (x * y) n0.
Proof.
  intros Hx Hy. apply (ole_opp HO) in Hx. apply (ole_opp HO). replace (- (x * y)) with ((- x) * y) by ring. now apply (ole_0_mul HO).
Qed.
Lemma le_add_r (x y : N) : le n0 y -> le x (x + y).
Proof. intros H. apply (ole_sub HO). now replace (x + y - x) with y by ring. Qed.
Lemma bigsum_nonpos n (f : nat -> N) : (forall i, (i < n)%nat -> le (f i) n0) -> le (bigsum n f) n0.
Proof.
  intros H. apply (ole_opp HO). replace (- bigsum n f) with (bigsum n (fun i => (- n1) * f i)) by (rewrite (bigsum_mul_l HF); ring).
  apply (bigsum_nonneg HO). intros i Hi. replace (- n1 * f i) with (- f i) by ring. now apply (ole_opp HO), H.
Qed.
Lemma pos_factor (x y : N) : lt n0 y -> le (x * y) n0 -> le x n0.
Proof.
  intros Hy H. destruct (nleb x n0) eqn:E; auto. apply (onle_lt HO) in E. pose proof (olt_0_mul HO x y E Hy) as P.
  apply (olt_iff HO) in P. contradiction.
Qed.

Section Tables.
Variables (n m : nat) (a l u : nat -> nat -> N).
Hypothesis Hm : m <= n.
Hypothesis HT : ilu_tables n m a l u.
Hypothesis Hoff : forall i j, i < n -> j < n -> i <> j -> le (a i j) n0.
Hypothesis Hsum : forall i, i < n -> le n0 (bigsum n (a i)).
Hypothesis Hlow : forall i, i < n -> lt neps (bigsum (S i) (a i)).

Definition stable_row (i : nat) : Prop :=
  (forall k, k < i -> le (l i k) n0) /\ (forall j, i < j -> j < n -> le (u i j) (a i j)) /\
  le (bigsum n (a i)) (bigsum n (u i)) /\ le (bigsum (S i) (a i)) (u i i) /\
  (forall j, j < n -> le (a i j) (bigsum n (fun k => l i k * u k j))).
Lemma eps_nonneg : le n0 (@neps N).
Proof. exact (of_eps N HO). Qed.
Lemma pivot_pos i : i < n -> stable_row i -> lt n0 (u i i).
Proof.
  intros Hi (_ & _ & _ & H & _). eapply (olt_le_trans HO); [|exact H]. eapply (ole_lt_trans HO); [apply eps_nonneg|]. now apply Hlow.
Qed.
Lemma upper_nonpos i j : stable_row i -> i < j -> j < n -> le (u i j) n0.
Proof. intros (_ & H & _) Hij Hj. eapply (ole_trans HO); [apply H; auto|]. apply Hoff; lia. Qed.
Lemma tables_stable : forall i, i < m -> stable_row i.
Proof.
  destruct HT as (T1 & T2 & T3 & T4 & T5).
  intros i. induction i as [i IH] using (well_founded_induction Nat.lt_wf_0). intros Hi.
  assert (Hterm : forall j, j < n -> forall k, k < i -> k < j -> le (l i k) n0 -> le n0 (l i k * u k j)).
  { intros j Hj k Hk Hkj Hl. apply nonpos_mul; auto. apply upper_nonpos; auto. apply IH; lia. }
  assert (HA : forall j, j < i -> le (l i j) n0).
  { intros j. induction j as [j IHj] using (well_founded_induction Nat.lt_wf_0). intros Hj.
    assert (Hjn : j < n) by lia.
    destruct (neqb (a i j) n0) eqn:E.
    - apply (fl_eqb N HF) in E. destruct (T4 i j Hi Hjn E) as [-> _]. apply (ole_refl HO).
    - assert (Ne : a i j <> n0) by (intros X; apply (fl_eqb N HF) in X; congruence).
      pose proof (T5 i j Hi Hjn Ne) as P. rewrite (bigsum_trunc HF n (S j)) in P; [|lia|].
      2: { intros k Hk. destruct (le_lt_dec k i); [rewrite (T3 k j) by lia; ring|rewrite (T1 i k) by lia; ring]. }
      cbn [bigsum] in P. apply (pos_factor (l i j) (u j j)).
      + apply pivot_pos; [lia|]. apply IH; lia.
      + eapply (ole_trans HO); [|apply (Hoff i j); lia]. rewrite <- P. apply (ole_sub HO).
        match goal with |- le n0 ?e => replace e with (bigsum j (fun k => l i k * u k j)) by ring end.
        apply (bigsum_nonneg HO). intros k Hk. apply Hterm; auto; try lia. apply IHj; lia. }
  assert (HB : forall j, i < j -> j < n -> le (u i j) (a i j)).
  { intros j Hij Hj. destruct (neqb (a i j) n0) eqn:E.
    - apply (fl_eqb N HF) in E. destruct (T4 i j Hi Hj E) as [_ ->]. rewrite E. apply (ole_refl HO).
    - assert (Ne : a i j <> n0) by (intros X; apply (fl_eqb N HF) in X; congruence).
      pose proof (T5 i j Hi Hj Ne) as P. rewrite (bigsum_trunc HF n (S i)) in P; [|lia|].
      2: { intros k Hk. rewrite (T1 i k) by lia. ring. }
      cbn [bigsum] in P. rewrite (T2 i Hi) in P. rewrite <- P. apply (ole_sub HO).
      match goal with |- le n0 ?e => replace e with (bigsum i (fun k => l i k * u k j)) by ring end.
      apply (bigsum_nonneg HO). intros k Hk. apply Hterm; auto; lia. }
  assert (HC : forall j, j < n -> le (a i j) (bigsum n (fun k => l i k * u k j))).
  { intros j Hj. destruct (neqb (a i j) n0) eqn:E.
    - apply (fl_eqb N HF) in E. rewrite E. destruct (T4 i j Hi Hj E) as [El Eu]. apply (bigsum_nonneg HO). intros k Hk.
      destruct (lt_eq_lt_dec k i) as [[Hki| ->]|Hki].
      + destruct (lt_eq_lt_dec k j) as [[Hkj| ->]|Hkj].
        * apply Hterm; auto.
        * rewrite El. replace (n0 * u j j) with (@n0 N) by ring. apply (ole_refl HO).
        * rewrite (T3 k j) by lia. replace (l i k * n0) with (@n0 N) by ring. apply (ole_refl HO).
      + rewrite Eu. replace (l i i * n0) with (@n0 N) by ring. apply (ole_refl HO).
      + rewrite (T1 i k) by lia. replace (n0 * u k j) with (@n0 N) by ring. apply (ole_refl HO).
    - assert (Ne : a i j <> n0) by (intros X; apply (fl_eqb N HF) in X; congruence).
      rewrite (T5 i j Hi Hj Ne). apply (ole_refl HO). }
  assert (HD : le (bigsum n (a i)) (bigsum n (u i))).
  { eapply (ole_trans HO); [apply (bigsum_le HO n (a i)); exact HC|].
    rewrite (bigsum_swap HF). rewrite (bigsum_ext n _ (fun k => l i k * bigsum n (u k))) by (intros; now rewrite (bigsum_mul_l HF)).
    rewrite (bigsum_trunc HF n (S i)); [|lia|intros k Hk; rewrite (T1 i k) by lia; ring].
    cbn [bigsum]. rewrite (T2 i Hi). apply (ole_sub HO).
    match goal with |- le n0 ?e => replace e with (- bigsum i (fun k => l i k * bigsum n (u k))) by ring end.
    apply (ole_opp HO). apply bigsum_nonpos. intros k Hk. apply nonpos_nonneg; [now apply HA|].
    eapply (ole_trans HO); [apply (Hsum k); lia|]. apply IH; lia. }
  split; auto. split; auto. split; auto. split; auto.
  assert (EU : bigsum n (u i) = u i i + bigsum (n - S i) (fun t => u i (S i + t)%nat)).
  { rewrite (bigsum_split HF n (S i)) by lia. f_equal. cbn [bigsum]. rewrite (bigsum_0 HF i); [ring|]. intros t Ht. apply T3; lia. }
  assert (EA : bigsum n (a i) = bigsum (S i) (a i) + bigsum (n - S i) (fun t => a i (S i + t)%nat)).
  { now rewrite (bigsum_split HF n (S i)) by lia. }
  apply (ole_sub HO). replace (u i i - bigsum (S i) (a i)) with
    ((bigsum n (u i) - bigsum n (a i)) + (bigsum (n - S i) (fun t => a i (S i + t)%nat) - bigsum (n - S i) (fun t => u i (S i + t)%nat))).
  - apply (ole_0_add HO); apply (proj1 (ole_sub HO _ _)); auto. apply (bigsum_le HO). intros t Ht. apply HB; lia.
  - rewrite EU, EA. ring.
Qed.
End Tables.

(** A triangular solve with such factors keeps nonnegative right-hand sides nonnegative. *)
Lemma lower_monotone n (l : nat -> nat -> N) (y b : nat -> N) : (forall i, i < n -> l i i = n1) ->
  (forall i k, i < n -> k < i -> le (l i k) n0) -> (forall i, i < n -> le n0 (b i)) ->
  (forall i, i < n -> bigsum n (fun r => lo_part l i r * y r) = b i) -> forall i, i < n -> le n0 (y i).
Proof.
  intros H1 Hl Hb He i. induction i as [i IH] using (well_founded_induction Nat.lt_wf_0). intros Hi.
  specialize (He i Hi). rewrite (bigsum_trunc HF n (S i)) in He; [|lia|].
  2: { intros k Hk. unfold lo_part. destruct (Nat.leb_spec k i); [lia|ring]. }
  cbn [bigsum] in He. unfold lo_part at 2 in He. rewrite Nat.leb_refl, H1 in He by auto.
  replace (y i) with (b i + - bigsum i (fun r => lo_part l i r * y r)) by (rewrite <- He; ring).
  apply (ole_0_add HO); auto. apply (ole_opp HO). apply bigsum_nonpos. intros k Hk.
  apply nonpos_nonneg; [|apply IH; lia]. unfold lo_part. destruct (Nat.leb_spec k i); [apply Hl; lia|lia].
Qed.
Lemma upper_monotone n (u : nat -> nat -> N) (x y : nat -> N) : (forall i, i < n -> lt n0 (u i i)) ->
  (forall i k, i < k -> k < n -> le (u i k) n0) -> (forall i, i < n -> le n0 (y i)) ->
  (forall i, i < n -> bigsum n (fun r => up_part u i r * x r) = y i) -> forall i, i < n -> le n0 (x i).
Proof.
  intros H1 Hu Hy He. assert (G : forall d i, (n - i = d)%nat -> i < n -> le n0 (x i)).
  2: { intros i Hi. now apply (G (n - i)%nat). }
  intros d. induction d as [d IH] using (well_founded_induction Nat.lt_wf_0). intros i Hd Hi.
  specialize (He i Hi). rewrite (bigsum_split HF n (S i)) in He by lia.
  cbn [bigsum] in He. rewrite (bigsum_0 HF i) in He.
  2: { intros k Hk. unfold up_part. destruct (Nat.leb_spec i k); [lia|ring]. }
  unfold up_part at 1 in He. rewrite Nat.leb_refl in He.
  assert (P : le n0 (u i i * x i)).
  { match type of He with _ + ?s = _ => replace (u i i * x i) with (y i + - s) by (rewrite <- He; ring) end.
    apply (ole_0_add HO); auto. apply (ole_opp HO). apply bigsum_nonpos. intros k Hk.
    apply nonpos_nonneg; [|apply (IH (n - (S i + k))%nat); lia].
    unfold up_part. destruct (Nat.leb_spec i (S i + k)); [apply Hu; lia|lia]. }
  destruct (nleb n0 (x i)) eqn:E; auto. exfalso. apply (onle_lt HO) in E.
  assert (Q : lt n0 (u i i * (- x i))).
  { apply (olt_0_mul HO); auto. apply (olt_sub HO) in E. now replace (n0 - x i) with (- x i) in E by ring. }
  apply (olt_iff HO) in Q. apply Q. replace (u i i * - x i) with (- (u i i * x i)) by ring. apply (ole_opp HO).
  now replace (- - (u i i * x i)) with (u i i * x i) by ring.
Qed.

(** Multiplying the rows by +1 or -1 multiplies the factors accordingly. *)
Lemma tables_signs n m a l u (s : nat -> N) : m <= n -> (forall i, i < n -> s i * s i = n1) -> ilu_tables n m a l u ->
  ilu_tables n m (fun i j => s i * a i j) (fun i j => s i * l i j * s j) (fun i j => s i * u i j).
Proof.
  intros Hm Hs (T1 & T2 & T3 & T4 & T5). split; [|split; [|split; [|split]]].
  - intros i j Hi Hj Hij. rewrite (T1 i j) by auto. ring.
  - intros i Hi. rewrite T2 by auto. replace (s i * n1 * s i) with (s i * s i) by ring. apply Hs; lia.
  - intros i j Hi Hj Hij. rewrite (T3 i j) by auto. ring.
  - intros i j Hi Hj E. assert (E' : a i j = n0).
    { replace (a i j) with (s i * s i * a i j) by (rewrite Hs by lia; ring). replace (s i * s i * a i j) with (s i * (s i * a i j)) by ring.
      rewrite E. ring. }
    destruct (T4 i j Hi Hj E') as [-> ->]. split; ring.
  - intros i j Hi Hj E. assert (E' : a i j <> n0) by (intros X; apply E; rewrite X; ring).
    rewrite <- (T5 i j Hi Hj E'). rewrite <- (bigsum_mul_l HF). apply bigsum_ext. intros k Hk.
    replace (s i * l i k * s k * (s k * u k j)) with (s i * (l i k * u k j) * (s k * s k)) by ring. rewrite Hs by auto. ring.
Qed.
Lemma sign_product (s x t y : N) : t * t = n1 -> s * x * t * (t * y) = s * (x * y).
Proof. intros Ht. replace (s * x * t * (t * y)) with (s * (x * y) * (t * t)) by ring. rewrite Ht. ring. Qed.
Lemma sign_abs (s x : N) : s * s = n1 -> nabs (s * x) = nabs x.
Proof.
  intros Hs. rewrite (oabs_mul HO). replace (nabs s) with (@n1 N); [ring|].
  apply (nonneg_sqr_inj HO); [apply (olt_le HO), (olt_0_1 HO)|apply (oabs_nonneg HO)|].
  rewrite <- (oabs_mul HO), Hs, (of_abs_pos N HO) by apply (olt_le HO), (olt_0_1 HO). ring.
Qed.

Section Signs.
Variables (n : nat) (a : nat -> nat -> N) (s : nat -> N).
Hypothesis Hn : 0 < n.
Hypothesis Hs : forall i, i < n -> s i * s i = n1.
Hypothesis H1 : forall i j, i < n -> j < n -> i <> j -> le (s i * a i j) n0.
Hypothesis H2 : forall i, i < n -> le n0 (bigsum n (fun j => s i * a i j)).
Hypothesis H3 : forall i, i < n -> lt neps (bigsum (S i) (fun j => s i * a i j)).
Lemma zero_tiny : tiny (@n0 N) = true.
Proof. unfold tiny. rewrite (proj2 (oabs_0_iff HO n0) eq_refl). exact (of_eps N HO). Qed.
Lemma diag_ne i : i < n -> a i i <> n0.
Proof.
  intros Hi E. specialize (H3 i Hi). cbn [bigsum] in H3. rewrite E in H3.
  apply (olt_iff HO) in H3. apply H3. eapply (ole_trans HO); [|exact eps_nonneg].
  replace (bigsum i (fun j => s i * a i j) + s i * n0) with (bigsum i (fun j => s i * a i j)) by ring.
  apply bigsum_nonpos. intros k Hk. apply H1; lia.
Qed.
Lemma not_tiny_signs x i : i < n -> lt (@neps N) (s i * x) -> tiny x = false.
Proof.
  intros Hi Hx. unfold tiny. apply (onle_lt HO). rewrite <- (sign_abs (s i) x) by auto. eapply (olt_le_trans HO); [exact Hx|]. apply (oabs_le HO).
Qed.
Theorem ilu0_signs (A L U : smat N) : @holds N (SparseI N) A n n a ->
  @holds N (SparseI N) L n n (fun _ _ => n0) -> @holds N (SparseI N) U n n (fun _ _ => n0) ->
  returns (ilu0 A L U) (fun LU => exists l u,
    @holds N (SparseI N) (fst LU) n n l /\ @holds N (SparseI N) (snd LU) n n u /\ ilu_tables n n a l u /\
    forall i, i < n -> stable_row n (fun i j => s i * a i j) (fun i j => s i * l i j * s j) (fun i j => s i * u i j) i).
Proof.
  intros HA HL HU.
  pose proof (ilu0_ok HF zero_tiny n a A L U Hn HA HL HU diag_ne) as P.
  destruct (ilu0 A L U) as [LU|e| | | |]; cbn [post] in P; try contradiction.
  - destruct P as (l & u & HLL & HUU & HT). exists LU. split; auto. exists l, u. split; auto. split; auto. split; auto.
    intros i Hi. apply (tables_stable n n); auto. now apply tables_signs.
  - exfalso. destruct P as (_ & m & c & l & u & Hc & Hm & HT & _ & Hty).
    assert (HS : stable_row n (fun i j => s i * a i j) (fun i j => s i * l i j * s j) (fun i j => s i * u i j) c).
    { apply (tables_stable n m); auto; try lia. apply tables_signs; auto. lia. }
    destruct HS as (_ & _ & _ & HS & _). specialize (H3 c ltac:(lia)).
    rewrite (not_tiny_signs (u c c) c) in Hty; [discriminate|lia|]. eapply (olt_le_trans HO); eauto.
Qed.
Theorem ilu0_signs_apply (A L U : smat N) (b : list N) : lt (@neps N) n1 -> @holds N (SparseI N) A n n a ->
  @holds N (SparseI N) L n n (fun _ _ => n0) -> @holds N (SparseI N) U n n (fun _ _ => n0) -> length b = n ->
  returns (let* LU := ilu0 A L U in solve_lu (M := SparseR N) (fst LU) (snd LU) b) (fun x => length x = n /\
    (exists l u, ilu_tables n n a l u /\
      forall i, i < n -> bigsum n (fun r => l i r * bigsum n (fun k => u r k * nth k x n0)) = nth i b n0) /\
    ((forall i, i < n -> le n0 (s i * nth i b n0)) -> forall i, i < n -> le n0 (nth i x n0))).
Proof.
  intros He HA HL HU Hb.
  destruct (ilu0_signs A L U HA HL HU) as (LU & -> & l & u & HLL & HUU & HT & HS). cbn [bind].
  pose proof (solve_ok (sparse_rows N HF) HF zero_tiny (fst LU) (snd LU) n l u b Hn HLL HUU Hb) as P.
  pose proof HT as (T1 & T2 & T3 & _).
  assert (Hp : forall i, i < n -> lt neps (s i * u i i)).
  { intros i Hi. destruct (HS i Hi) as (_ & _ & _ & Q & _). eapply (olt_le_trans HO); [exact (H3 i Hi)|exact Q]. }
  destruct (solve_lu (M := SparseR N) (fst LU) (snd LU) b) as [x|e| | | |]; cbn [post] in P; try contradiction.
  - destruct P as (HX & _ & _ & HE). exists x. split; auto. split; auto.
    assert (EL : forall i r, i < n -> r < n -> lo_part l i r = l i r).
    { intros i r Hi Hr. unfold lo_part. destruct (Nat.leb_spec r i); auto. now rewrite T1. }
    assert (EU : forall i r, i < n -> r < n -> up_part u i r = u i r).
    { intros i r Hi Hr. unfold up_part. destruct (Nat.leb_spec i r); auto. now rewrite T3. }
    assert (EQ : forall i, i < n -> bigsum n (fun r => l i r * bigsum n (fun k => u r k * nth k x n0)) = nth i b n0).
    { intros i Hi. rewrite <- (HE i Hi). apply bigsum_ext. intros r Hr. rewrite EL by auto. f_equal.
      apply bigsum_ext. intros k Hk. now rewrite EU. }
    split; [exists l, u; auto|].
    intros Hpos.
    apply (upper_monotone n (fun i j => s i * u i j) (fun k => nth k x n0) (fun r => s r * bigsum n (fun k => u r k * nth k x n0))).
    + intros i Hi. eapply (ole_lt_trans HO); [exact eps_nonneg|]. now apply Hp.
    + intros i k Hik Hk. apply (upper_nonpos n n (fun i j => s i * a i j) (fun i j => s i * l i j * s j) (fun i j => s i * u i j)); auto. apply HS; lia.
    + apply (lower_monotone n (fun i j => s i * l i j * s j) _ (fun i => s i * nth i b n0)); auto.
      * intros i Hi. rewrite T2 by auto. replace (s i * n1 * s i) with (s i * s i) by ring. auto.
      * intros i k Hi Hk. now apply HS.
      * intros i Hi. rewrite <- (EQ i Hi), <- (bigsum_mul_l HF). apply bigsum_ext. intros r Hr. unfold lo_part.
        destruct (Nat.leb_spec r i).
        -- match goal with |- _ = s i * (l i r * ?y) => replace (s i * l i r * s r * (s r * y)) with (s i * (l i r * y) * (s r * s r)) by ring end.
           rewrite Hs by auto. ring.
        -- rewrite (T1 i r) by auto. ring.
    + intros i Hi. rewrite <- (bigsum_mul_l HF). apply bigsum_ext. intros k Hk. unfold up_part.
      destruct (Nat.leb_spec i k); [ring|]. rewrite (T3 i k) by auto. ring.
  - exfalso. destruct P as (_ & [(i & Hi & Q)|(i & Hi & Q)]).
    + rewrite T2 in Q by auto. unfold tiny in Q. pose proof (oabs_le HO (@n1 N)) as Y. apply (olt_iff HO) in He. apply He.
      eapply (ole_trans HO); eauto.
    + rewrite (not_tiny_signs (u i i) i) in Q; auto. discriminate.
Qed.
End Signs.
End S.
