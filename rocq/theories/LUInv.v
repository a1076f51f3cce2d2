(** Proofs about ainv_lu and inverse(L,U). *)
From Coq Require Import List Arith Bool Lia Ring Field Permutation.
From Verif Require Import Base BaseProofs Num OrdField Spec SpecProofs VectorModel VectorProofs
  MatI MatIProofs MatOps MatOpsProofs OrderProofs ConstructProofs DetSpec DetProofs LUModel LUProofs LUSolve LUResult CholProofs.
Import ListNotations.
Local Open Scope nat_scope.
Open Scope res_scope.

Lemma takewhile_in {A} p (l : list A) e : In e (takewhile p l) -> In e l.
Proof. induction l as [|x l IH]; cbn; auto. destruct (p x); cbn; tauto. Qed.
Lemma dropwhile_in {A} p (l : list A) e : In e (dropwhile p l) -> In e l.
Proof. induction l as [|x l IH]; cbn; auto. destruct (p x); cbn; tauto. Qed.

Section Inv.
Context {N : Num} {M : RowMat N} (HR : RowLaws M) (HF : FieldLaws N).
Add Field luifld : (fl_field N HF).
Hypothesis Htiny : tiny (@n0 N) = true.
Let HM : MatLaws M := ol_mat _ (rl_ops M HR).
Implicit Types (l u x : nat -> nat -> N).

Lemma ainv_sum_ok (X : M) n x k (es : list (nat * N)) : holds X n n x -> k < n -> (forall e, In e es -> fst e < n) ->
  forall m, ainv_sum es X k m = Ok (fold_left (fun s e => s - snd e * x (fst e) k)%num es m).
Proof.
  intros HX Hk. unfold ainv_sum. induction es as [|e es IH]; intros He m; cbn [foreach fold_left]; auto.
  rewrite (holds_at _ _ _ _ _ _ HX) by (auto; apply He; now left). cbn [bind]. apply IH. intros; apply He; now right.
Qed.
Lemma row_in (A : M) n a i es e : holds A n n a -> i < n -> rm_row A i = Ok es -> In e es -> fst e < n.
Proof.
  intros HA Hi E He. destruct (rl_row M HR A n n a i HA Hi) as (keep & E2 & _). rewrite E2 in E. inversion E; subst es.
  apply cols_range in He. lia.
Qed.

Lemma ainv_lower_ok (L X : M) n l x k : holds L n n l -> holds X n n x -> k < n -> (forall i, i < n -> i <> k -> x i k = n0) ->
  returns (ainv_lower L k X) (fun X' => exists x', holds X' n n x' /\ (forall i j, i < n -> j < n -> j <> k -> x' i j = x i j) /\
    x' k k = n1 /\ (forall i, i < k -> x' i k = n0) /\
    forall i, k < i < n -> (x' i k + bigsum (i - k) (fun t => l i (k + t)%nat * x' (k + t)%nat k))%num = n0).
Proof.
  intros HLl HX Hk Hz. unfold ainv_lower. rewrite (holds_cols _ _ _ _ HLl).
  destruct (holds_set HM X n n x k k n1 HX) as (X1 & -> & HX1); auto. cbn [bind].
  eapply returns_mono; [apply (for_returns (fun h X' => exists x', holds X' n n x' /\ (forall i j, i < n -> j < n -> j <> k -> x' i j = x i j) /\
    x' k k = n1 /\ (forall i, i < n -> i < k \/ h <= i -> x' i k = n0) /\
    forall i, k < i < h -> (x' i k + bigsum (i - k) (fun t => l i (k + t)%nat * x' (k + t)%nat k))%num = n0)); try lia|].
  - eexists. split; [exact HX1|]. unfold put2. split; [|split; [|split]].
    + intros i j Hi Hj Hne. bcase; auto.
    + rewrite Nat.eqb_refl. auto.
    + intros i Hi Hc. bcase. apply Hz; lia.
    + lia.
  - intros i X' Hi (x' & HX' & H1 & H2 & H3 & H4).
    rewrite (holds_at _ _ _ _ _ _ HX') by lia. cbn [bind].
    destruct (rl_row M HR L n n l i HLl) as (keep & -> & Hkeep); [lia|]. cbn [bind].
    change (map (fun j => (j, l i j)) (filter keep (seq 0 n))) with (cols keep (l i) 0 n).
    rewrite (proj2 (cols_take keep (l i) n k ltac:(lia))). rewrite (cols_take_from keep (l i) k (n - k) i) by lia.
    rewrite (ainv_sum_ok X' n x' k _ HX') by (auto; intros e He; apply cols_range in He; lia). cbn [bind].
    rewrite (cols_fold HF keep (l i) (fun c => x' c k)) by (intros j Hj; apply Hkeep; lia).
    match goal with |- returns (mi_set X' i k ?v) _ => destruct (holds_set HM X' n n x' i k v HX') as (X2 & E & HX2); [lia|lia|]; set (w := v) in * end.
    exists X2. split; [exact E|]. eexists. split; [exact HX2|].
    assert (P : forall r, r <> i -> put2 x' i k w r k = x' r k) by (intros r Hr; unfold put2; destruct (Nat.eqb_spec r i); [lia|]; auto).
    split; [|split; [|split]].
    + intros r j Hr Hj Hne. unfold put2. bcase; apply H1; auto.
    + rewrite P by lia. auto.
    + intros r Hr Hc. rewrite P by lia. apply H3; lia.
    + intros r Hr. rewrite (bigsum_ext (r - k) _ (fun t => l r (k + t)%nat * x' (k + t)%nat k)%num) by (intros t Ht; now rewrite P by lia).
      destruct (Nat.eq_dec r i) as [->|Hne].
      * unfold put2. rewrite !Nat.eqb_refl. cbn [andb]. unfold w. rewrite (H3 i) by lia. ring.
      * rewrite P by lia. apply H4. lia.
  - intros X' (x' & H0 & H1 & H2 & H3 & H4). exists x'. split; auto. split; auto. split; auto. split; [intros; apply H3; lia|].
    intros; apply H4; lia.
Qed.

Lemma ainv_upper_safe (U Y : M) n u y k : holds U n n u -> holds Y n n y -> k < n ->
  post (ainv_upper U n k Y) (fun Y' => exists y', holds Y' n n y') (fun e => e = Singular /\ has_tiny n u).
Proof.
  intros HU HY Hk. unfold ainv_upper. rewrite (holds_at _ _ _ _ _ _ HU) by lia. cbn [bind].
  destruct (holds_set HM Y n n y k k (n1 / u k k)%num HY) as (Y1 & -> & HY1); auto. cbn [bind].
  apply (down_n_post (fun _ Y' => exists y', holds Y' n n y')); [eauto|].
  intros i Y' Hi (y' & HY'). rewrite (holds_at _ _ _ _ _ _ HY') by lia. cbn [bind].
  destruct (rm_row U i) as [es| | | | |] eqn:E; try (destruct (rl_row M HR U n n u i HU ltac:(lia)) as (? & E2 & _); congruence). cbn [bind].
  rewrite (ainv_sum_ok Y' n y' k _ HY'); auto.
  2: { intros e He. apply takewhile_in, dropwhile_in in He. apply (row_in U n u i es e HU); auto; lia. }
  cbn [bind]. rewrite (holds_at _ _ _ _ _ _ HU) by lia. cbn [bind].
  destruct (tiny (u i i)) eqn:Et.
  - cbn [post]. split; auto. exists i. split; auto. lia.
  - match goal with |- post (mi_set Y' i k ?v) _ _ => destruct (holds_set HM Y' n n y' i k v HY') as (Y2 & -> & HY2); [lia|lia|] end.
    cbn [post]. eauto.
Qed.

Lemma lower_two_sided n l x : (forall i, i < n -> l i i = n1) ->
  (forall i j, i < n -> j < n -> mulvec n (lo_part l) (fun k => x k j) i = if i =? j then n1 else n0) ->
  (forall i j, i < n -> j < n -> bigsum n (fun k => lo_part l i k * x k j)%num = if i =? j then n1 else n0) /\
  (forall i j, i < n -> j < n -> bigsum n (fun k => x i k * lo_part l k j)%num = if i =? j then n1 else n0).
Proof.
  intros Hd HX.
  assert (U1 : forall (y : nat -> N) i, i < n -> mulvec n (up_part (fun i j => if i =? j then n1 else n0)) y i = y i).
  { intros y i Hi. unfold mulvec. rewrite (bigsum_single HF n i); auto.
    - unfold up_part. rewrite Nat.leb_refl, Nat.eqb_refl. ring.
    - intros k Hk Hne. unfold up_part. bcase; ring. }
  assert (Hone : (n1 : N) <> n0) by exact (F_1_neq_0 (fl_field N HF)).
  apply (two_sided HF n (lo_part l) l (fun i j => if i =? j then n1 else n0) x (seq 0 n)); auto.
  - intros i Hi. now rewrite Hd.
  - intros i Hi. now rewrite Nat.eqb_refl.
  - intros i j Hi Hj. rewrite seq_nth by auto. cbn [plus]. unfold mulvec. rewrite (bigsum_single HF n j); auto.
    + unfold up_part. rewrite Nat.leb_refl, Nat.eqb_refl. ring.
    + intros k Hk Hne. unfold up_part. bcase; ring.
  - intros i j Hi Hj. rewrite seq_nth by auto. cbn [plus]. rewrite (mulvec_ext n (lo_part l) _ (fun k => x k j)) by (intros k Hk; exact (U1 (fun k => x k j) k Hk)).
    rewrite HX by auto. bcase; auto.
Qed.

(** ainv_lu: invL becomes the inverse of the unit lower triangle; only Singular is thrown. *)
Theorem ainv_ok (L U X Y : M) n l u y : holds L n n l -> holds U n n u -> holds X n n (fun _ _ => n0) -> holds Y n n y ->
  (forall i, i < n -> l i i = n1) ->
  post (ainv_lu L U X Y) (fun XY => (exists y', holds (snd XY) n n y') /\ exists x, holds (fst XY) n n x /\
      (forall i j, i < j -> j < n -> x i j = n0) /\
      (forall i j, i < n -> j < n -> bigsum n (fun k => lo_part l i k * x k j)%num = if i =? j then n1 else n0) /\
      (forall i j, i < n -> j < n -> bigsum n (fun k => x i k * lo_part l k j)%num = if i =? j then n1 else n0))
    (fun e => e = Singular /\ has_tiny n u).
Proof.
  intros HLl HU HX HY Hd. unfold ainv_lu.
  rewrite (holds_rows _ _ _ _ HLl), (holds_cols _ _ _ _ HLl), (holds_rows _ _ _ _ HU), (holds_cols _ _ _ _ HU),
    (holds_rows _ _ _ _ HX), (holds_cols _ _ _ _ HX), (holds_rows _ _ _ _ HY), (holds_cols _ _ _ _ HY), !Nat.eqb_refl. cbn [negb].
  eapply post_mono; [apply (for_post (fun k (XY : M * M) => (exists y', holds (snd XY) n n y') /\ exists x, holds (fst XY) n n x /\
      (forall i j, i < n -> j < n -> i < j \/ k <= j -> x i j = n0) /\
      (forall i j, i < n -> j < k -> mulvec n (lo_part l) (fun c => x c j) i = if i =? j then n1 else n0))
      (fun e => e = Singular /\ has_tiny n u)); try lia| |auto].
  - cbn [fst snd]. split; eauto. eexists. split; [exact HX|]. split; auto. lia.
  - intros k (X1, Y1) Hk ((y1 & HY1) & x1 & HX1 & H1 & H2). cbn [fst snd] in *.
    destruct (ainv_lower_ok L X1 n l x1 k HLl HX1) as (X2 & -> & x2 & HX2 & I1 & I2 & I3 & I4); [lia|intros; apply H1; lia|]. cbn [bind].
    apply post_bind. eapply post_mono; [apply (ainv_upper_safe U Y1 n u y1 k HU HY1); lia| |auto].
    intros Y2 HY2. cbn [post fst snd]. split; auto. exists x2. split; auto. split.
    + intros i j Hi Hj Hc. destruct (Nat.eq_dec j k) as [->|Hne].
      * apply I3. lia.
      * rewrite I1 by auto. apply H1; lia.
    + intros i j Hi Hj. destruct (Nat.eq_dec j k) as [->|Hne].
      * rewrite (lo_sum HF) by auto. rewrite Hd by auto.
        destruct (Nat.lt_trichotomy i k) as [Hik|[->|Hik]].
        -- rewrite (bigsum_0 HF) by (intros t Ht; rewrite I3 by lia; ring). rewrite I3 by auto. bcase. ring.
        -- rewrite (bigsum_0 HF) by (intros t Ht; rewrite I3 by lia; ring). rewrite I2, Nat.eqb_refl. ring.
        -- rewrite (bigsum_split HF i k) by lia. rewrite (bigsum_0 HF k) by (intros t Ht; rewrite I3 by lia; ring). bcase.
           etransitivity; [|exact (I4 i ltac:(lia))]. ring.
      * rewrite <- (H2 i j) by lia. apply mulvec_ext. intros c Hc. apply I1; auto. lia.
  - intros (X', Y') (HY' & x & HX' & H1 & H2). cbn [fst snd] in *. split; auto. exists x. split; auto.
    split; [intros; apply H1; lia|]. apply lower_two_sided; auto.
Qed.

(** x(j,i) -= value * x(column,i) over some entries of row j *)
Lemma inv2_loop n j i (es : list (nat * N)) : i < n -> j < n -> (forall e, In e es -> fst e <> j /\ fst e < n) ->
  forall (X : M) x, holds X n n x ->
  returns (foreach es (inv2_term j i) X) (fun X' => holds X' n n (put2 x j i (fold_left (fun s e => s - snd e * x (fst e) i)%num es (x j i)))).
Proof.
  intros Hi Hj. induction es as [|e es IH]; intros He X x HX; cbn [foreach fold_left].
  - exists X. split; auto. eapply holds_ext; [exact HX|]. intros r c Hr Hc. unfold put2. bcase; subst; auto.
  - destruct (He e) as [E1 E2]; [now left|]. unfold inv2_term at 1. rewrite !(holds_at _ _ _ _ _ _ HX) by auto. cbn [bind].
    destruct (holds_set HM X n n x j i (x j i - snd e * x (fst e) i)%num HX) as (X1 & -> & HX1); auto. cbn [bind].
    destruct (IH ltac:(intros; apply He; now right) X1 _ HX1) as (X2 & -> & HX2). exists X2. split; auto.
    eapply holds_ext; [exact HX2|]. intros r c Hr Hc. unfold put2 at 1 4. destruct ((r =? j) && (c =? i)) eqn:Erc.
    + assert (G : forall es' s, (forall e', In e' es' -> fst e' <> j) ->
        fold_left (fun s e' => s - snd e' * put2 x j i (x j i - snd e * x (fst e) i) (fst e') i)%num es' s =
        fold_left (fun s e' => s - snd e' * x (fst e') i)%num es' s).
      { induction es' as [|e' es' IHl]; intros s Hs; cbn [fold_left]; auto.
        rewrite IHl by (intros; apply Hs; now right). f_equal. unfold put2. specialize (Hs e' (or_introl eq_refl)).
        destruct (Nat.eqb_spec (fst e') j); [lia|]. reflexivity. }
      rewrite G by (intros; apply He; now right). unfold put2. rewrite Erc, !Nat.eqb_refl. reflexivity.
    + unfold put2. rewrite Erc. reflexivity.
Qed.

(** inverse(L,U) is the inverse of L*U when U has a unit diagonal. *)
Theorem inverse2_unit (L U : M) n l u : 0 < n -> holds L n n l -> holds U n n u -> tiny (@n1 N) = false ->
  (forall i, i < n -> l i i = n1) -> (forall i, i < n -> u i i = n1) ->
  returns (inverse2 L U) (fun X => exists x, holds X n n x /\
     forall i j, i < n -> j < n -> mulvec n (lo_part l) (mulvec n (up_part u) (fun k => x k j)) i = if i =? j then n1 else n0).
Proof.
  intros Hn HLl HU Ht1 Hdl Hdu. unfold inverse2.
  rewrite (holds_rows _ _ _ _ HLl), (holds_cols _ _ _ _ HLl), (holds_rows _ _ _ _ HU), (holds_cols _ _ _ _ HU), !Nat.eqb_refl. cbn [negb].
  destruct (holds_new HM n n Hn Hn) as (X0 & -> & HX0). cbn [bind].
  eapply returns_mono; [apply (for_returns (fun i X => exists x, holds X n n x /\ (forall r c, r < n -> c < n -> i <= c -> x r c = n0) /\
     forall r c, r < n -> c < i -> mulvec n (lo_part l) (mulvec n (up_part u) (fun k => x k c)) r = if r =? c then n1 else n0)); try lia| ].
  - eexists. split; [exact HX0|]. split; auto. lia.
  - intros i X Hi (x & HX & H1 & H2).
    destruct (holds_set HM X n n x i i n1 HX) as (X1 & -> & HX1); try lia. cbn [bind].
    (* forward *)
    assert (F : returns (for_ (i + 1) n (fun j X => let* lx := rm_row L j in foreach (takewhile (fun e => fst e <? j) lx) (inv2_term j i) X) X1)
      (fun X' => exists y, holds X' n n y /\ (forall r c, r < n -> c < n -> c <> i -> y r c = x r c) /\
         forall r, r < n -> (y r i + bigsum r (fun t => l r t * y t i))%num = if r =? i then n1 else n0)).
    { eapply returns_mono; [apply (for_returns (fun j X' => exists y, holds X' n n y /\ (forall r c, r < n -> c < n -> c <> i -> y r c = x r c) /\
         (forall r, r < i \/ j <= r -> r < n -> y r i = n0) /\ 
         forall r, r < n -> r < j -> (y r i + bigsum r (fun t => l r t * y t i))%num = if r =? i then n1 else n0)); try lia|].
      - eexists. split; [exact HX1|]. unfold put2. split; [|split].
        + intros r c Hr Hc Hne. bcase; auto.
        + intros r Hr Hrn. bcase. apply H1; lia.
        + intros r Hrn Hr. rewrite (bigsum_0 HF).
          * rewrite (Nat.eqb_refl i). rewrite andb_true_r. destruct (Nat.eqb_spec r i); [ring|]. rewrite H1 by lia. ring.
          * intros t Ht. bcase. rewrite H1 by lia. ring.
      - intros j X' Hj (y & HY & I1 & I2 & I3).
        destruct (rl_row M HR L n n l j HLl) as (keep & -> & Hkeep); [lia|]. cbn [bind].
        change (map (fun c => (c, l j c)) (filter keep (seq 0 n))) with (cols keep (l j) 0 n).
        rewrite (proj1 (cols_take keep (l j) n j ltac:(lia))).
        destruct (inv2_loop n j i (cols keep (l j) 0 j)) with (X := X') (x := y) as (X2 & E & HX2); auto; try lia.
        { intros e He. apply cols_range in He. lia. }
        rewrite (cols_fold HF keep (l j) (fun c => y c i)) in HX2 by (intros c Hc; apply Hkeep; lia).
        match type of HX2 with holds _ _ _ (put2 y j i ?v) => set (w := v) in * end.
        assert (P : forall r, r <> j -> put2 y j i w r i = y r i) by (intros r Hr; unfold put2; destruct (Nat.eqb_spec r j); [lia|]; auto).
        exists X2. split; [exact E|]. eexists. split; [exact HX2|]. split; [|split].
        + intros r c Hr Hc Hne. unfold put2. bcase; apply I1; auto.
        + intros r Hr Hrn. rewrite P by lia. apply I2; lia.
        + intros r Hrn Hr. rewrite (bigsum_ext r _ (fun t => l r t * y t i)%num) by (intros t Ht; now rewrite P by lia).
          destruct (Nat.eq_dec r j) as [->|Hne]; [|rewrite P by auto; apply I3; lia].
          unfold put2. rewrite !Nat.eqb_refl. cbn [andb]. bcase. unfold w. cbn [plus]. rewrite (I2 j) by lia. ring.
      - intros X' (y & HY & I1 & I2 & I3). exists y. split; auto. }
    destruct F as (X2 & -> & y & HX2 & F1 & F2). cbn [bind].
    (* backward *)
    eapply returns_mono; [apply (down_n_returns (fun j X' => exists z, holds X' n n z /\ (forall r c, r < n -> c < n -> c <> i -> z r c = x r c) /\
         (forall r, r < j -> r < n -> z r i = y r i) /\ 
         forall r, j <= r < n -> (z r i + bigsum (n - S r) (fun t => u r (S r + t)%nat * z (S r + t)%nat i))%num = y r i))|].
    + exists y. split; auto. split; auto. split; auto. cbn [plus]. lia.
    + intros j X' Hj (z & HZ & I1 & I2 & I3).
      destruct (rl_row M HR U n n u j HU) as (keep & -> & Hkeep); [lia|]. cbn [bind].
      change (map (fun c => (c, u j c)) (filter keep (seq 0 n))) with (cols keep (u j) 0 n).
      rewrite (cols_split keep (u j) n (S j)) by lia. rewrite foreach_app. replace (j + 1) with (S j) by lia.
      rewrite skip_loop by (intros e He; apply cols_range in He; lia). cbn [bind].
      rewrite noskip_loop by (intros e He; apply cols_range in He; lia).
      destruct (inv2_loop n j i (cols keep (u j) (S j) (n - S j))) with (X := X') (x := z) as (X3 & E & HX3); auto; try lia.
      { intros e He. apply cols_range in He. lia. }
      rewrite E. cbn [bind].
      rewrite (cols_fold HF keep (u j) (fun c => z c i)) in HX3 by (intros c Hc; apply Hkeep; lia).
      rewrite (holds_at _ _ _ _ _ _ HU) by lia. cbn [bind]. rewrite (Hdu j) by lia. rewrite Ht1.
      rewrite (holds_at _ _ _ _ _ _ HX3) by lia. cbn [bind].
      match type of HX3 with holds _ _ _ (put2 z j i ?v) => set (w := v) in * end.
      match goal with |- returns (mi_set X3 j j ?v) _ => destruct (holds_set HM X3 n n _ j j v HX3) as (X4 & E4 & HX4); [lia|lia|] end.
      exists X4. split; [exact E4|]. exists (put2 z j i w). split.
      { eapply holds_ext; [exact HX4|]. intros r c Hr Hc. unfold put2 at 1. destruct (Nat.eqb_spec r j), (Nat.eqb_spec c j); cbn [andb]; auto. subst.
        field. exact (F_1_neq_0 (fl_field N HF)). }
      assert (P : forall r, r <> j -> put2 z j i w r i = z r i) by (intros r Hr; unfold put2; destruct (Nat.eqb_spec r j); [lia|]; auto).
      split; [|split].
      * intros r c Hr Hc Hne. unfold put2. bcase; apply I1; auto.
      * intros r Hr Hrn. rewrite P by lia. apply I2; lia.
      * intros r Hr. rewrite (bigsum_ext (n - S r) _ (fun t => u r (S r + t)%nat * z (S r + t)%nat i)%num) by (intros t Ht; now rewrite P by lia).
        destruct (Nat.eq_dec r j) as [->|Hne]; [|rewrite P by auto; apply I3; lia].
        unfold put2. rewrite !Nat.eqb_refl. cbn [andb]. unfold w. rewrite (I2 j) by lia. ring.
    + intros X' (z & HZ & I1 & I2 & I3). exists z. split; auto. split.
      * intros r c Hr Hc Hic. rewrite I1 by lia. apply H1; lia.
      * intros r c Hr Hc. destruct (Nat.eq_dec c i) as [->|Hne].
        -- rewrite (mulvec_ext n _ _ (fun k => y k i)).
           ++ rewrite (lo_sum HF) by auto. rewrite Hdl by auto. rewrite <- (F2 r Hr). ring.
           ++ intros k Hk. rewrite (up_sum HF) by auto. rewrite Hdu by auto. rewrite <- (I3 k) by lia. ring.
        -- rewrite <- (H2 r c) by lia. apply mulvec_ext. intros k Hk. apply mulvec_ext. intros t Ht. apply I1; auto. lia.
  - intros X (x & HX & _ & Hx). exists x. auto.
Qed.
End Inv.
