(** det of the transposed table, and Math::normal in any dimension. *)
From Coq Require Import List Arith Bool Lia Ring Field.
From Verif Require Import Base BaseProofs Num OrdField Spec SpecProofs VectorModel VectorSpec VectorProofs DenseModel DenseSpec DenseProofs MatI MatIProofs MatOps MatOpsProofs
  DetSpec DetProofs DetMult LUModel LUProofs LUResult CGMath CGProofs SimplexModel.
Import ListNotations.
Local Open Scope nat_scope.
Open Scope res_scope.

Section Transpose.
Context {N : Num} (HF : FieldLaws N).
Add Field nfld : (fl_field N HF).
Implicit Types (a b : nat -> nat -> N).
Definition setcol a (p : nat) (u : nat -> N) : nat -> nat -> N := fun i j => if j =? p then u i else a i j.

Lemma det_col_linear n : forall a p u w x y, p < n ->
  det n (setcol a p (fun i => x * u i + y * w i)%num) = (x * det n (setcol a p u) + y * det n (setcol a p w))%num.
Proof.
  induction n as [|n IH]; intros a p u w x y Hp; [lia|]. cbn [det]. destruct p as [|p].
  - rewrite <- !(bigsum_mul_l HF), <- (bigsum_plus HF). apply bigsum_ext. intros i Hi.
    rewrite (det_ext n (minor i (setcol a 0 u)) (minor i (setcol a 0 (fun i => x * u i + y * w i)%num))) by reflexivity.
    rewrite (det_ext n (minor i (setcol a 0 w)) (minor i (setcol a 0 (fun i => x * u i + y * w i)%num))) by reflexivity.
    unfold setcol at 1 3 5. cbn [Nat.eqb]. ring.
  - rewrite <- !(bigsum_mul_l HF), <- (bigsum_plus HF). apply bigsum_ext. intros i Hi.
    rewrite (det_ext n (minor i (setcol a (S p) (fun i => x * u i + y * w i)%num))
      (setcol (minor i a) p (fun r => x * u (skip i r) + y * w (skip i r))%num)) by reflexivity.
    rewrite IH by lia. 
    rewrite (det_ext n (minor i (setcol a (S p) u)) (setcol (minor i a) p (fun r => u (skip i r)))) by reflexivity.
    rewrite (det_ext n (minor i (setcol a (S p) w)) (setcol (minor i a) p (fun r => w (skip i r)))) by reflexivity.
    unfold setcol at 1 4 6. cbn [Nat.eqb]. ring.
Qed.
Lemma det_zero_col n a p : p < n -> (forall i, i < n -> a i p = n0) -> det n a = n0.
Proof.
  intros Hp Hz. transitivity (det n (setcol a p (fun i => n0 * a i p + n0 * a i p)%num)).
  - apply det_ext. intros i j Hi Hj. unfold setcol. destruct (Nat.eqb_spec j p); auto. subst. rewrite Hz by auto. ring.
  - rewrite det_col_linear by auto. ring.
Qed.
Lemma det_eq_cols n a p q : p < q -> q < n -> (forall i, i < n -> a i p = a i q) -> det n a = n0.
Proof.
  intros Hp Hq He.
  set (E := fun i j => if i =? j then n1 else if (i =? p) && (j =? q) then (- n1)%num else n0 : N).
  assert (DE : det n E = n1).
  { rewrite (det_upper HF).
    - clear -HF. induction n; cbn [bigprod]; auto. rewrite IHn. unfold E. rewrite Nat.eqb_refl. ring.
    - intros i j Hi Hj. unfold E. bcase; auto; lia. }
  assert (Z : det n (prod2 n a E) = n0).
  { apply (det_zero_col n _ q Hq). intros i Hi. unfold prod2.
    rewrite (bigsum_ext n _ (fun k => (if k =? q then a i q else n0) + (if k =? p then - a i p else n0))%num).
    - rewrite (bigsum_plus HF), (bigsum_single HF n q), (bigsum_single HF n p) by (try lia; intros; bcase; auto; lia).
      rewrite !Nat.eqb_refl. rewrite He by auto. ring.
    - intros k Hk. unfold E. destruct (Nat.eqb_spec k q), (Nat.eqb_spec k p); subst; rewrite ?Nat.eqb_refl; cbn [andb]; try lia; ring. }
  rewrite (det_mult HF), DE in Z. etransitivity; [|exact Z]. ring.
Qed.
Theorem det_transpose n a : det n (fun i j => a j i) = det n a.
Proof.
  assert (H : (det n (fun i j => a j i) - det n a)%num = n0).
  { apply (G_zero HF n (fun a => det n (fun i j => a j i) - det n a)%num).
    - intros b c H. rewrite (det_ext n (fun i j => b j i) (fun i j => c j i)), (det_ext n b c); auto.
    - intros b p u w x y Hp. rewrite (det_linear HF) by auto.
      assert (Q : forall v : nat -> N, det n (fun i j => setrow b p v j i) = det n (setcol (fun i j => b j i) p v)).
      { intros v. apply det_ext. intros i j Hi Hj. reflexivity. }
      rewrite !Q. rewrite det_col_linear by auto. ring.
    - intros b p q Hp Hq Hne He.
      assert (E0 : forall p q, p < q -> q < n -> (forall c, c < n -> b p c = b q c) -> (det n (fun i j => b j i) - det n b)%num = n0).
      { intros p' q' Hpq Hq' He'. rewrite (det_eq_rows HF n b p' q') by auto.
        rewrite (det_eq_cols n (fun i j => b j i) p' q') by auto. ring. }
      destruct (Nat.lt_gt_cases p q) as [Hlt _]. destruct (Hlt Hne); [apply (E0 p q)|apply (E0 q p)]; auto. intros; symmetry; auto.
    - rewrite (det_ext n _ (fun i j => if i =? j then n1 else n0)); [ring|]. intros i j Hi Hj. now rewrite Nat.eqb_sym. }
  transitivity (det n (fun i j => a j i) - det n a + det n a)%num; [ring|]. rewrite H. ring.
Qed.

(** The generalised cross product of K-1 vectors: component i is (-1)^i times the determinant without
    coordinate i. *)
Definition cross (K : nat) (v : nat -> nat -> N) (i : nat) : N := (sgn i * det (K - 1) (fun r c => v r (skip i c)))%num.
(** The table with columns w, v 0, v 1, ... *)
Definition cols (w : nat -> N) (v : nat -> nat -> N) : nat -> nat -> N := fun i j => match j with O => w i | S j => v j i end.
Lemma cross_dot K v w : 0 < K -> dot K (cross K v) w = det K (cols w v).
Proof.
  intros HK. destruct K as [|k]; [lia|]. cbn [det]. unfold dot. apply bigsum_ext. intros i Hi. unfold cross. replace (S k - 1) with k by lia.
  rewrite <- (det_transpose k (minor i (cols w v))).
  rewrite (det_ext k (fun r c => v r (skip i c)) (fun r c => minor i (cols w v) c r)) by reflexivity.
  unfold cols at 2. ring.
Qed.
Lemma cross_orth K v j : S j < K -> dot K (cross K v) (v j) = n0.
Proof.
  intros Hj. rewrite cross_dot by lia. apply (det_eq_cols K _ 0 (S j)); auto; try lia.
Qed.
End Transpose.

Section Normal.
Context {N : Num} (HO : OrdFieldLaws N) (HS : SqrtLaws N) (Heps : @neps N = n0).
Let HF : FieldLaws N := of_field N HO.
Add Field nfld2 : (fl_field N HF).
Notation tab vs := (fun r c => nth c (nth r vs []) n0).
Notation le x y := (nleb x y = true).
Notation lt x y := (nltb x y = true).

Lemma sub_ok K (vs : list (list N)) i : 2 <= K -> i < K -> length vs = K - 1 -> (forall v, In v vs -> length v = K) ->
  returns (nm_sub K vs i) (fun m => holds (m : DenseI N) (K - 1) (K - 1) (fun r c => nth (skip i c) (nth r vs []) n0)).
Proof.
  intros HK Hi Hl Hv. unfold nm_sub.
  eapply returns_mono.
  - apply (for_returns (fun j m => holds (m : DenseI N) (K - 1) (K - 1) (fun r c => if r <? j then nth (skip i c) (nth r vs []) n0 else n0))); [lia| |].
    + eapply holds_ext; [apply fixed_new_holds|]. intros r c Hr Hc. reflexivity.
    + intros j m Hj Hm. apply returns_bind.
      eapply returns_mono.
      * apply (for_returns (fun k st => fst st = (if k <=? i then k else k - 1) /\ holds (snd st : DenseI N) (K - 1) (K - 1) (fun r c =>
          if r <? j then nth (skip i c) (nth r vs []) n0 else if (r =? j) && (c <? fst st) then nth (skip i c) (nth r vs []) n0 else n0))); [lia| |].
        -- cbn [fst snd]. split; [reflexivity|]. eapply holds_ext; [exact Hm|]. intros r c Hr Hc. cbn beta. rewrite andb_false_r. reflexivity.
        -- intros k (p & m1) Hk (Hp & Hm1). cbn [fst snd] in *. destruct (Nat.eqb_spec k i).
           ++ subst k. apply returns_ok. cbn [fst snd]. split; auto. rewrite Hp. bcase; lia.
           ++ rewrite (vget_ok vs j []) by lia. cbn [bind].
              assert (Lv : length (nth j vs []) = K) by (apply Hv, nth_In; lia).
              rewrite v_at_ok by lia. cbn [bind]. apply returns_bind.
              assert (Hpk : p < K - 1) by (rewrite Hp; bcase; lia).
              assert (Hsk : skip i p = k) by (unfold skip; rewrite Hp; bcase; lia).
              destruct (holds_set (I := DenseI N) dense_laws m1 _ _ _ j p (nth k (nth j vs []) n0) Hm1) as (m2 & E2 & Hm2); try lia.
              exists m2. split; [exact E2|]. apply returns_ok. cbn [fst snd]. split; [rewrite Hp; bcase; lia|].
              eapply holds_ext; [exact Hm2|]. intros r c Hr Hc. unfold put2. cbn beta.
              destruct (Nat.eqb_spec r j); cbn [andb]; [|reflexivity]. subst r. rewrite Nat.ltb_irrefl.
              destruct (Nat.eqb_spec c p); [subst c; rewrite Hsk; destruct (Nat.ltb_spec p (S p)); [reflexivity|lia]|].
              destruct (Nat.ltb_spec c p), (Nat.ltb_spec c (S p)); auto; lia.
      * intros (p & m1) (Hp & Hm1). cbn [fst snd] in *. apply returns_ok. cbn [snd]. eapply holds_ext; [exact Hm1|]. intros r c Hr Hc. cbn beta.
        assert (Hpe : p = K - 1) by (rewrite Hp; bcase; lia). rewrite Hpe.
        destruct (Nat.ltb_spec r j), (Nat.eqb_spec r j), (Nat.ltb_spec r (S j)), (Nat.ltb_spec c (K - 1)); cbn [andb]; try reflexivity; try lia.
  - intros m Hm. eapply holds_ext; [exact Hm|]. intros r c Hr Hc. cbn beta. bdec. reflexivity.
Qed.
Lemma sgn_odd i : @sgn N i = if Nat.odd i then (- n1)%num else n1.
Proof. induction i as [|i IH]; auto. cbn [sgn]. rewrite IH, Nat.odd_succ, <- Nat.negb_odd. destruct (Nat.odd i); cbn [negb]; ring. Qed.
Lemma normal_eq K (vs : list (list N)) : 2 <= K -> length vs = K - 1 -> (forall v, In v vs -> length v = K) ->
  nm_normal K vs = v_normalized (V K (cross K (tab vs))).
Proof.
  intros HK Hl Hv. unfold nm_normal.
  assert (H : for_ 0 K (fun i r => let* m := nm_sub K vs i in let* d := det_fixed m in v_set r i (if Nat.odd i then (- d)%num else d)) (v_new K)
     = Ok (V K (cross K (tab vs)))); [|now rewrite H].
  apply returns_eq. eapply returns_mono.
  - apply (for_returns (fun i r => r = V K (fun c => if c <? i then cross K (tab vs) c else n0))); [lia| |].
    + unfold v_new. rewrite (V_self (repeat n0 K) K n0) by apply repeat_length. apply V_ext. intros c Hc. cbn. apply nth_repeat.
    + intros i r Hi ->. destruct (sub_ok K vs i HK ltac:(lia) Hl Hv) as (m & -> & Hm). cbn [bind].
      assert (Ht : tiny (@n0 N) = true). { unfold tiny. rewrite (proj2 (oabs_0_iff HO n0) eq_refl). apply (of_eps N HO). }
      destruct (det_fixed_ok HF Ht m (K - 1) _ ltac:(lia) Hm) as (d & -> & _ & Hd). cbn [bind]. rewrite (Hd HO Heps).
      rewrite v_set_ok by (rewrite V_len; lia). apply returns_ok. apply list_eq_nth with n0; [now rewrite upd_length, !V_len|].
      intros c Hc. rewrite upd_length, V_len in Hc.
      destruct (Nat.eq_dec c i) as [->|Hne].
      * rewrite nth_upd_eq by (rewrite V_len; lia). rewrite V_nth by lia. bdec. unfold cross. rewrite sgn_odd. destruct (Nat.odd i); ring.
      * rewrite nth_upd_ne by auto. rewrite !V_nth by lia. destruct (Nat.ltb_spec c i), (Nat.ltb_spec c (S i)); auto; lia.
  - intros r ->. apply V_ext. intros c Hc. bdec. reflexivity.
Qed.
Lemma normal_ok K (vs : list (list N)) : 2 <= K -> length vs = K - 1 -> (forall v, In v vs -> length v = K) ->
  exists n, nm_normal K vs = Ok (V K n) /\
    (forall j, j < K - 1 -> dot K n (tab vs j) = n0) /\
    forall w, det K (cols w (tab vs)) <> n0 -> dot K n n = n1 /\ (lt n0 (dot K n w) <-> lt n0 (det K (cols w (tab vs)))).
Proof.
  intros HK Hl Hv. rewrite (normal_eq K vs HK Hl Hv). set (c := cross K (tab vs)).
  unfold v_normalized, v_mag. rewrite V_magSqr. cbn [bind]. unfold v_divs, v_scalar_div.
  change (v_scalar nmul) with (@v_scale N). rewrite V_scale.
  set (L := nsqrt (dot K c c)).
  exists (fun i => (c i * (n1 / L))%num). split; [reflexivity|].
  assert (HC : forall w, dot K (fun i => c i * (n1 / L))%num w = (n1 / L * dot K c w)%num).
  { intros w. unfold dot. rewrite <- (bigsum_mul_l HF). apply bigsum_ext. intros; ring. }
  split.
  - intros j Hj. rewrite HC. assert (Z : dot K c (tab vs j) = n0) by (apply (cross_orth HF K (tab vs) j); lia). cbn beta in Z. rewrite Z. ring.
  - intros w Hw. pose proof (cross_dot HF K (tab vs) w ltac:(lia)) as Hd. fold c in Hd.
    assert (Hnn : le n0 (dot K c c)). { unfold dot. apply (bigsum_nonneg HO). intros i Hi. apply (ole_0_sqr HO). }
    assert (HLL : (L * L)%num = dot K c c) by now apply (sq_sqr N HS).
    assert (HLn : le n0 L) by now apply (sq_nonneg N HS).
    assert (Hc : dot K c c <> n0).
    { intros E. apply Hw. rewrite <- Hd. unfold dot in *. apply (bigsum_0 HF). intros i Hi.
      pose proof (bigsum_nonneg_0 HO K _ (fun i _ => ole_0_sqr HO (c i)) E i Hi) as Z. cbn beta in Z.
      apply (mul_0 HO) in Z. destruct Z as [Z|Z]; rewrite Z; ring. }
    assert (HL : L <> n0). { intros E. apply Hc. rewrite <- HLL, E. ring. }
    split.
    + rewrite HC. assert (Q : dot K c (fun i => c i * (n1 / L))%num = (n1 / L * dot K c c)%num).
      { unfold dot. rewrite <- (bigsum_mul_l HF). apply bigsum_ext. intros; ring. }
      rewrite Q, <- HLL. field. assumption.
    + rewrite HC, Hd. assert (HI : lt n0 (n1 / L)%num). { apply (olt_0_inv HO). apply (olt_iff_ne HO). split; auto. }
      split.
      * intros H. destruct (of_le_total N HO n0 (det K (cols w (tab vs)))) as [Hp|Hp].
        -- apply (olt_iff_ne HO). split; auto.
        -- exfalso. apply (olt_irrefl HO n0). eapply (olt_le_trans HO); [exact H|].
           assert (Z : le (n1 / L * det K (cols w (tab vs)))%num (n1 / L * n0)%num) by (apply (ole_mul_l HO); auto; now apply (olt_le HO)).
           assert (Z0 : (n1 / L * n0)%num = n0) by ring. rewrite Z0 in Z. exact Z.
      * intros H. now apply (olt_0_mul HO).
Qed.
End Normal.
