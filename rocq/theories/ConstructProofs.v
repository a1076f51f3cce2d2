(** Proofs for MatrixConstructor.inl, MatrixCheck.inl, MatrixConverter.inl. *)
From Coq Require Import List Arith Bool ZArith Lia Ring Field Field_theory Factorial.
From Verif Require Import Base BaseProofs Num Spec SpecProofs VectorModel VectorProofs SparseModel SparseSpec SparseProofs
  SparseOps SparseOps3 SparseFacts SparseFacts2 SparsePropProofs DenseModel DenseSpec DenseProofs DensePropProofs
  MatI MatIProofs MatOps MatOpsProofs UtilsModel UtilsSpec UtilsProofs HilbertMath ConstructModel.
Import ListNotations.
Local Open Scope nat_scope.
Open Scope res_scope.

Lemma for_empty' {S} lo hi (body : nat -> S -> res S) s : hi <= lo -> for_ lo hi body s = Ok s.
Proof. intros H. unfold for_. replace (hi - lo) with 0 by lia. reflexivity. Qed.

Section Loops.
Context {N : Num} {I : MatI N} (HL : MatLaws I).

Lemma row_loop' (x : nat -> N) (e : nat -> res N) (t : I) d1 d2 a i lo hi :
  holds t d1 d2 a -> i < d1 -> hi <= d2 ->
  (forall j, lo <= j < hi -> e j = Ok (x j)) ->
  returns (for_ lo hi (fun j t2 => let* v := e j in mi_set t2 i j v) t)
    (fun t' => holds t' d1 d2 (fun i' j' => if (i' =? i) && ((lo <=? j') && (j' <? hi)) then x j' else a i' j')).
Proof.
  intros Ht Hi Hhi He. destruct (le_lt_dec lo hi) as [H|H]; [now apply (row_loop HL)|].
  rewrite for_empty' by lia. exists t. split; auto. eapply holds_ext; [exact Ht|]. intros i' j' Hi' Hj'. cbn beta.
  destruct (Nat.leb_spec lo j'), (Nat.ltb_spec j' hi); cbn; rewrite ?andb_false_r; auto. lia.
Qed.
Lemma col_loop (x : nat -> N) (e : nat -> res N) (t : I) d1 d2 a j lo hi :
  holds t d1 d2 a -> j < d2 -> hi <= d1 ->
  (forall i, lo <= i < hi -> e i = Ok (x i)) ->
  returns (for_ lo hi (fun i t2 => let* v := e i in mi_set t2 i j v) t)
    (fun t' => holds t' d1 d2 (fun i' j' => if (j' =? j) && ((lo <=? i') && (i' <? hi)) then x i' else a i' j')).
Proof.
  intros Ht Hj Hhi He. destruct (le_lt_dec hi lo) as [H|H].
  { rewrite for_empty' by lia. exists t. split; auto. eapply holds_ext; [exact Ht|]. intros i' j' Hi' Hj'. cbn beta.
    destruct (Nat.leb_spec lo i'), (Nat.ltb_spec i' hi); cbn; rewrite ?andb_false_r; auto. lia. }
  apply (for_returns (fun k t' => holds t' d1 d2 (fun i' j' => if (j' =? j) && ((lo <=? i') && (i' <? k)) then x i' else a i' j'))); auto; try lia.
  - eapply holds_ext; [exact Ht|]. intros i' j' Hi' Hj'. cbn beta.
    destruct (j' =? j); auto. destruct (Nat.leb_spec lo i'), (Nat.ltb_spec i' lo); auto; lia.
  - intros k s Hk Hs. rewrite He by auto. cbn [bind].
    destruct (holds_set HL _ _ _ _ k j (x k) Hs) as (m' & E & Hm'); try lia.
    exists m'. split; auto. eapply holds_ext; [exact Hm'|]. intros i' j' Hi' Hj'. unfold put2. cbn beta.
    destruct (Nat.eqb_spec j' j); rewrite ?andb_false_r; cbn [andb]; auto. subst. rewrite andb_true_r.
    destruct (Nat.eqb_spec i' k).
    + subst. bdec. reflexivity.
    + destruct (Nat.leb_spec lo i'), (Nat.ltb_spec i' k), (Nat.ltb_spec i' (S k)); auto; lia.
Qed.

Lemma rows_region (lo hi : nat -> nat) (x : nat -> nat -> N) (e : nat -> nat -> res N) (t : I) d1 d2 a :
  holds t d1 d2 a -> (forall i, i < d1 -> hi i <= d2) ->
  (forall i j, i < d1 -> lo i <= j < hi i -> e i j = Ok (x i j)) ->
  returns (for_ 0 d1 (fun i t1 => for_ (lo i) (hi i) (fun j t2 => let* v := e i j in mi_set t2 i j v) t1) t)
    (fun t' => holds t' d1 d2 (fun i j => if (lo i <=? j) && (j <? hi i) then x i j else a i j)).
Proof.
  intros Ht Hhi He.
  apply returns_mono with (fun t' => holds t' d1 d2 (fun i j => if (i <? d1) && ((lo i <=? j) && (j <? hi i)) then x i j else a i j)).
  - apply (for_returns (fun k t' => holds t' d1 d2 (fun i j => if (i <? k) && ((lo i <=? j) && (j <? hi i)) then x i j else a i j))); auto; try lia.
    + intros k s Hk Hs. eapply returns_mono; [apply (row_loop' (x k) (e k) s d1 d2 _ k (lo k) (hi k) Hs);
      [lia|apply Hhi; lia|intros; apply He; lia]|].
      intros t' Ht'. eapply holds_ext; [exact Ht'|]. intros i j Hi Hj. cbn beta.
      destruct (Nat.eqb_spec i k); cbn [andb].
      * subst. rewrite Nat.ltb_irrefl. bdec. cbn [andb]. reflexivity.
      * destruct (Nat.ltb_spec i k), (Nat.ltb_spec i (S k)); auto; lia.
  - intros t' H. eapply holds_ext; [exact H|]. intros i j Hi Hj. cbn beta. bdec. reflexivity.
Qed.
Lemma cols_region (lo hi : nat -> nat) (x : nat -> nat -> N) (e : nat -> nat -> res N) (t : I) d1 d2 a :
  holds t d1 d2 a -> (forall j, j < d2 -> hi j <= d1) ->
  (forall i j, j < d2 -> lo j <= i < hi j -> e i j = Ok (x i j)) ->
  returns (for_ 0 d2 (fun j t1 => for_ (lo j) (hi j) (fun i t2 => let* v := e i j in mi_set t2 i j v) t1) t)
    (fun t' => holds t' d1 d2 (fun i j => if (lo j <=? i) && (i <? hi j) then x i j else a i j)).
Proof.
  intros Ht Hhi He.
  apply returns_mono with (fun t' => holds t' d1 d2 (fun i j => if (j <? d2) && ((lo j <=? i) && (i <? hi j)) then x i j else a i j)).
  - apply (for_returns (fun k t' => holds t' d1 d2 (fun i j => if (j <? k) && ((lo j <=? i) && (i <? hi j)) then x i j else a i j))); auto; try lia.
    + intros k s Hk Hs. eapply returns_mono; [apply (col_loop (fun i => x i k) (fun i => e i k) s d1 d2 _ k (lo k) (hi k) Hs);
      [lia|apply Hhi; lia|intros; apply He; lia]|].
      intros t' Ht'. eapply holds_ext; [exact Ht'|]. intros i j Hi Hj. cbn beta.
      destruct (Nat.eqb_spec j k); cbn [andb].
      * subst. rewrite Nat.ltb_irrefl. bdec. cbn [andb]. reflexivity.
      * destruct (Nat.ltb_spec j k), (Nat.ltb_spec j (S k)); auto; lia.
  - intros t' H. eapply holds_ext; [exact H|]. intros i j Hi Hj. cbn beta. bdec. reflexivity.
Qed.
Lemma diag_loop (x : nat -> N) (e : nat -> res N) (t : I) d1 d2 a n :
  holds t d1 d2 a -> n <= d1 -> n <= d2 -> (forall i, i < n -> e i = Ok (x i)) ->
  returns (for_ 0 n (fun i t2 => let* v := e i in mi_set t2 i i v) t)
    (fun t' => holds t' d1 d2 (fun i j => if (i =? j) && (i <? n) then x i else a i j)).
Proof.
  intros Ht H1 H2 He.
  apply (for_returns (fun k t' => holds t' d1 d2 (fun i j => if (i =? j) && (i <? k) then x i else a i j))); auto; try lia.
  - eapply holds_ext; [exact Ht|]. intros i j _ _. cbn beta. bdec. now rewrite andb_false_r.
  - intros k s Hk Hs. rewrite He by lia. cbn [bind].
    destruct (holds_set HL _ _ _ _ k k (x k) Hs) as (m' & E & Hm'); try lia.
    exists m'. split; auto. eapply holds_ext; [exact Hm'|]. intros i j Hi Hj. unfold put2. cbn beta.
    destruct (Nat.eqb_spec i k), (Nat.eqb_spec j k), (Nat.eqb_spec i j); subst; cbn [andb]; try lia; auto.
    + bdec. reflexivity.
    + destruct (Nat.ltb_spec j k), (Nat.ltb_spec j (S k)); auto; lia.
Qed.

Lemma eye_ok d1 d2 : 0 < d1 -> 0 < d2 ->
  returns (c_eye I d1 d2) (fun m => holds m d1 d2 (fun i j => if i =? j then n1 else n0)).
Proof.
  intros H1 H2. unfold c_eye. destruct (holds_new HL d1 d2 H1 H2) as (m & -> & Hm). cbn [bind].
  eapply returns_mono; [apply (diag_loop (fun _ => n1) (fun _ => Ok n1) m d1 d2 _ (Nat.min d1 d2) Hm); auto; lia|].
  intros t Ht. eapply holds_ext; [exact Ht|]. intros i j Hi Hj. cbn beta.
  destruct (Nat.eqb_spec i j); auto. subst. bdec. reflexivity.
Qed.
Lemma new0 d1 d2 : d1 = 0 \/ d2 = 0 -> @mi_new N I d1 d2 = Abort.
Proof. apply (ml_new0 I HL). Qed.
Lemma eye_0 d1 d2 : d1 = 0 \/ d2 = 0 -> c_eye I d1 d2 = Abort.
Proof. intros H. unfold c_eye. now rewrite new0. Qed.

Lemma diag_ok v : v <> [] ->
  returns (c_diag I v) (fun m => holds m (length v) (length v) (fun i j => if i =? j then nth i v n0 else n0)).
Proof.
  intros H. assert (Hl : 0 < length v) by (destruct v; [congruence|cbn; lia]).
  unfold c_diag, v_size. destruct (holds_new HL (length v) (length v) Hl Hl) as (m & -> & Hm). cbn [bind].
  eapply returns_mono; [apply (diag_loop (fun i => nth i v n0) (v_at v) m _ _ _ (length v) Hm); auto|].
  - intros i Hi. now apply v_at_ok.
  - intros t Ht. eapply holds_ext; [exact Ht|]. intros i j Hi Hj. cbn beta.
    destruct (Nat.eqb_spec i j); auto. subst. bdec. reflexivity.
Qed.
Lemma diag_0 : c_diag I [] = Abort.
Proof. unfold c_diag. now rewrite new0 by (left; reflexivity). Qed.

Lemma diag_of_ok (m : I) d1 d2 a : holds m d1 d2 a ->
  c_diag_of I m = Ok (map (fun i => a i i) (seq 0 (Nat.min d1 d2))).
Proof.
  intros Hm. unfold c_diag_of. rewrite (holds_rows _ _ _ _ Hm), (holds_cols _ _ _ _ Hm).
  assert (Hl : length (v_resize (@nil N) (Nat.min d1 d2)) = Nat.min d1 d2).
  { unfold v_resize. rewrite firstn_nil. cbn [app length]. now rewrite repeat_length, Nat.sub_0_r. }
  rewrite <- Hl at 1 3. apply (write_all (fun i => a i i)).
  intros i u Hi Hu _ _. rewrite (holds_at _ _ _ _ _ _ Hm) by lia. cbn [bind]. apply v_set_ok. lia.
Qed.

Lemma zle_nat a b k : (0 <= k)%Z -> (a <=? b + Z.to_nat k) = (Z.of_nat a <=? Z.of_nat b + k)%Z.
Proof. intros H. destruct (Nat.leb_spec a (b + Z.to_nat k)), (Z.leb_spec (Z.of_nat a) (Z.of_nat b + k)); auto; lia. Qed.

Lemma tril_ok (m : I) d1 d2 a k : 0 < d1 -> 0 < d2 -> holds m d1 d2 a ->
  returns (c_tril I m k) (fun r => holds r d1 d2 (fun i j => if (Z.of_nat j <=? Z.of_nat i + k)%Z then a i j else n0)).
Proof.
  intros H1 H2 Hm. unfold c_tril. rewrite (holds_rows _ _ _ _ Hm), (holds_cols _ _ _ _ Hm).
  destruct (holds_new HL d1 d2 H1 H2) as (r & -> & Hr). cbn [bind]. destruct (Z.leb_spec 0 k) as [Hk|Hk].
  - eapply returns_mono; [apply (rows_region (fun _ => 0) (fun i => Nat.min (i + Z.to_nat k + 1) d2) a (mi_at m) r d1 d2 _ Hr)|].
    + intros; lia.
    + intros i j Hi Hj. apply (holds_at _ _ _ _ _ _ Hm); lia.
    + intros t Ht. eapply holds_ext; [exact Ht|]. intros i j Hi Hj. cbn beta.
      destruct (Z.leb_spec (Z.of_nat j) (Z.of_nat i + k)); bdec; reflexivity.
  - eapply returns_mono; [apply (cols_region (fun j => j + Z.to_nat (- k)) (fun _ => d1) a (mi_at m) r d1 d2 _ Hr)|].
    + intros; lia.
    + intros i j Hj Hi. apply (holds_at _ _ _ _ _ _ Hm); lia.
    + intros t Ht. eapply holds_ext; [exact Ht|]. intros i j Hi Hj. cbn beta.
      destruct (Z.leb_spec (Z.of_nat j) (Z.of_nat i + k)); bdec; reflexivity.
Qed.
Lemma triu_ok (m : I) d1 d2 a k : 0 < d1 -> 0 < d2 -> holds m d1 d2 a ->
  returns (c_triu I m k) (fun r => holds r d1 d2 (fun i j => if (Z.of_nat i + k <=? Z.of_nat j)%Z then a i j else n0)).
Proof.
  intros H1 H2 Hm. unfold c_triu. rewrite (holds_rows _ _ _ _ Hm), (holds_cols _ _ _ _ Hm).
  destruct (holds_new HL d1 d2 H1 H2) as (r & -> & Hr). cbn [bind]. destruct (Z.leb_spec 0 k) as [Hk|Hk].
  - eapply returns_mono; [apply (rows_region (fun i => i + Z.to_nat k) (fun _ => d2) a (mi_at m) r d1 d2 _ Hr)|].
    + intros; lia.
    + intros i j Hi Hj. apply (holds_at _ _ _ _ _ _ Hm); lia.
    + intros t Ht. eapply holds_ext; [exact Ht|]. intros i j Hi Hj. cbn beta.
      destruct (Z.leb_spec (Z.of_nat i + k) (Z.of_nat j)); bdec; reflexivity.
  - eapply returns_mono; [apply (cols_region (fun _ => 0) (fun j => Nat.min (j + Z.to_nat (- k) + 1) d1) a (mi_at m) r d1 d2 _ Hr)|].
    + intros; lia.
    + intros i j Hj Hi. apply (holds_at _ _ _ _ _ _ Hm); lia.
    + intros t Ht. eapply holds_ext; [exact Ht|]. intros i j Hi Hj. cbn beta.
      destruct (Z.leb_spec (Z.of_nat i + k) (Z.of_nat j)); bdec; reflexivity.
Qed.

Lemma hilbert_ok d : 0 < d ->
  returns (c_hilbert I d) (fun m => holds m d d (fun i j => (n1 / (nofnat (i + j) + n1))%num)).
Proof.
  intros H. unfold c_hilbert. destruct (holds_new HL d d H H) as (m & -> & Hm). cbn [bind].
  apply (fill_loop2 HL (fun i j => (n1 / (nofnat (i + j) + n1))%num) (fun i j => Ok (n1 / (nofnat (i + j) + n1))%num) m d d _ Hm).
  auto.
Qed.
End Loops.

Lemma eye_fixed_ok {N : Num} k1 k2 :
  returns (c_eye_fixed k1 k2) (fun m : DenseI N => holds m k1 k2 (fun i j => if i =? j then n1 else n0)).
Proof.
  unfold c_eye_fixed.
  assert (Hm : @holds N (DenseI N) (d_fixed_new k1 k2) k1 k2 (fun _ _ => n0)).
  { apply holds_fixed. }
  eapply returns_mono; [apply (diag_loop (I := DenseI N) (@dense_laws N) (fun _ => n1) (fun _ => Ok n1) _ k1 k2 _ (Nat.min k1 k2) Hm); auto; lia|].
  intros t Ht. eapply holds_ext; [exact Ht|]. intros i j Hi Hj. cbn beta.
  destruct (Nat.eqb_spec i j); auto. subst. bdec. reflexivity.
Qed.

(** *** inv_hilbert *)
Definition zchoose (n k : nat) : Z := (zfact n / (zfact k * zfact (n - k)))%Z.
Lemma zfact_pos k : (0 < zfact k)%Z.
Proof. rewrite zfact_ok. pose proof (lt_O_fact k). lia. Qed.
Lemma zchoose_ok n k : k <= n -> zchoose n k = Z.of_nat (choose n k).
Proof.
  intros H. unfold zchoose. pose proof (choose_spec n k H) as E.
  pose proof (zfact_pos k). pose proof (zfact_pos (n - k)).
  rewrite (zfact_ok n), <- E, Nat2Z.inj_mul, Nat2Z.inj_mul, <- !zfact_ok. apply Z.div_mul. nia.
Qed.
Definition bfits (n k : nat) : bool := (Z.of_nat (Nat.min k (n - k)) * zchoose n k <? M64)%Z.
Definition zih (d i j : nat) : Z :=
  (Z.of_nat (i + j + 1) * zchoose (d + i) (d - j - 1) * zchoose (d + j) (d - i - 1) * (zchoose (i + j) i * zchoose (i + j) i))%Z.
Lemma zih_ok d i j : i < d -> j < d -> zih d i j = Z.of_nat (ihz d i j).
Proof. intros Hi Hj. unfold zih, ihz. rewrite !zchoose_ok by lia. rewrite !Nat2Z.inj_mul. reflexivity. Qed.
Definition fits (d i j : nat) : bool :=
  bfits (i + j) i && bfits (d + i) (d - j - 1) && bfits (d + j) (d - i - 1).
Definition ih_fits (d : nat) : bool :=
  forallb (fun i => forallb (fun j => fits d i j && (zih d i j <? M64)%Z) (seq 0 d)) (seq 0 d).

Lemma bfits_binom n k : k <= n -> (Z.of_nat n < 2 ^ 63)%Z -> bfits n k = true ->
  u_binom 2 (Z.of_nat n) (Z.of_nat k) = Ok (Z.of_nat (choose n k)).
Proof.
  intros H Hn Hb. apply binom_ok; auto. unfold bfits in Hb. apply Z.ltb_lt in Hb. now rewrite zchoose_ok in Hb.
Qed.
Lemma u64_mul a b : u64 (u64 a * b) = u64 (a * b).
Proof. unfold u64. apply Zmult_mod_idemp_l. Qed.

Lemma ih_int_fits d i j : i < d -> j < d -> (Z.of_nat d < 2 ^ 62)%Z -> fits d i j = true ->
  ih_int d i j = Ok (u64 (Z.of_nat (ihz d i j))).
Proof.
  intros Hi Hj Hd Hf. unfold fits in Hf. rewrite !andb_true_iff in Hf. destruct Hf as ((F1 & F2) & F3).
  assert (HM : M64 = (4 * 2 ^ 62)%Z) by reflexivity. assert (H63 : (2 ^ 63 = 2 * 2 ^ 62)%Z) by reflexivity.
  unfold ih_int.
  replace (u64 (Z.of_nat i + Z.of_nat j)) with (Z.of_nat (i + j)) by (rewrite u64_small; lia).
  replace (u64 (Z.of_nat d + Z.of_nat i)) with (Z.of_nat (d + i)) by (rewrite u64_small; lia).
  replace (u64 (Z.of_nat d + Z.of_nat j)) with (Z.of_nat (d + j)) by (rewrite u64_small; lia).
  replace (u64 (Z.of_nat d - Z.of_nat j - 1)) with (Z.of_nat (d - j - 1)) by (rewrite u64_small; lia).
  replace (u64 (Z.of_nat d - Z.of_nat i - 1)) with (Z.of_nat (d - i - 1)) by (rewrite u64_small; lia).
  rewrite !bfits_binom by (auto; lia). cbn [bind]. apply f_equal.
  rewrite (u64_mul (Z.of_nat i + Z.of_nat j + 1)).
  do 3 (match goal with |- context [u64 (u64 (?a * ?b) * ?c)] => lazymatch a with context [u64] => fail | _ => rewrite (u64_mul (a * b) c) end end).
  apply f_equal. unfold ihz. rewrite !Nat2Z.inj_mul.
  replace (Z.of_nat (i + j + 1)) with (Z.of_nat i + Z.of_nat j + 1)%Z by lia. ring.
Qed.

Section InvHilbert.
Context {N : Num} {I : MatI N} (HL : MatLaws I) (HF : FieldLaws N) (HN : NatLaws N) (H0 : forall n, @nofnat N (S n) <> n0).
Add Field ihfld : (fl_field N HF).

Lemma sg_even k : sg k = if Nat.even k then n1 else (- n1 : N)%num.
Proof.
  induction k as [|k IH]; [reflexivity|]. cbn [sg]. rewrite IH, Nat.even_succ, <- Nat.negb_even.
  destruct (Nat.even k); cbn; ring.
Qed.
Lemma even_Z k : Z.even (Z.of_nat k) = Nat.even k.
Proof.
  apply eq_true_iff_eq. rewrite Z.even_spec, Nat.even_spec. split.
  - intros (q & Hq). exists (Z.to_nat q). lia.
  - intros (q & Hq). exists (Z.of_nat q). lia.
Qed.

Lemma inv_hilbert_fill d : 0 < d -> (Z.of_nat d < 2 ^ 62)%Z ->
  (forall i j, i < d -> j < d -> fits d i j = true) ->
  returns (c_inv_hilbert I d) (fun m => holds m d d (fun i j =>
    (sg (i + j) * nofnat (Z.to_nat (u64 (Z.of_nat (ihz d i j)))))%num)).
Proof.
  intros H Hd Hf. unfold c_inv_hilbert. destruct (holds_new HL d d H H) as (m & -> & Hm). cbn [bind].
  assert (E : forall i j, i < d -> j < d ->
    (let* w := ih_int d i j in
     Ok ((if (sign_pow (u64 (Z.of_nat i + Z.of_nat j)) =? 1)%Z then n1 else (- n1)) * nofnat (Z.to_nat w))%num)
    = Ok (sg (i + j) * nofnat (Z.to_nat (u64 (Z.of_nat (ihz d i j)))) : N)%num).
  { intros i j Hi Hj. rewrite ih_int_fits by auto. cbn [bind].
    assert (HM : M64 = (4 * 2 ^ 62)%Z) by reflexivity.
    rewrite u64_small by lia. replace (Z.of_nat i + Z.of_nat j)%Z with (Z.of_nat (i + j)) by lia.
    rewrite sp_pow, even_Z, sg_even. destruct (Nat.even (i + j)); reflexivity. }
  pose proof (fill_loop2 HL _ _ m d d _ Hm E) as (t & E1 & Ht). exists t. split; auto. rewrite <- E1.
  apply for_n_ext. intros i s Hi. apply for_n_ext. intros j s' Hj. rewrite bind_assoc. reflexivity.
Qed.

Lemma inv_hilbert_ok d : 0 < d -> (Z.of_nat d < 2 ^ 62)%Z -> ih_fits d = true ->
  returns (c_inv_hilbert I d) (fun m => holds m d d (ih d)).
Proof.
  intros H Hd Hf. unfold ih_fits in Hf. rewrite forallb_forall in Hf.
  assert (Hf' : forall i j, i < d -> j < d -> fits d i j = true /\ (zih d i j < M64)%Z).
  { intros i j Hi Hj. specialize (Hf i). rewrite forallb_forall in Hf. specialize (Hf ltac:(apply in_seq; lia) j ltac:(apply in_seq; lia)).
    apply andb_true_iff in Hf. destruct Hf as (H1 & H2). apply Z.ltb_lt in H2. auto. }
  eapply returns_mono; [apply inv_hilbert_fill; auto; intros; now apply Hf'|].
  intros t Ht. eapply holds_ext; [exact Ht|]. intros i j Hi Hj. cbn beta. destruct (Hf' i j Hi Hj) as (_ & H2).
  rewrite zih_ok in H2 by auto. rewrite u64_small, Nat2Z.id by lia.
  rewrite <- (ihz_ih HF HN H0) by auto. ring.
Qed.

Lemma nofnat_inj a b : @nofnat N a = nofnat b -> a = b.
Proof.
  intros E. destruct (Nat.lt_trichotomy a b) as [H|[H|H]]; auto; exfalso.
  - apply (diff_nz HF HN H0 a b H). rewrite E. ring.
  - apply (diff_nz HF HN H0 b a H). rewrite E. ring.
Qed.

(** a left inverse of the Hilbert matrix is the closed form *)
Lemma left_inverse_unique d (b : nat -> nat -> N) :
  (forall i j, i < d -> j < d -> bigsum d (fun k => b i k * hh k j)%num = if i =? j then n1 else n0) ->
  forall i j, i < d -> j < d -> b i j = ih d i j.
Proof.
  intros Hb i j Hi Hj.
  transitivity (bigsum d (fun l => bigsum d (fun k => b i k * hh k l) * ih d l j)%num).
  - transitivity (bigsum d (fun k => b i k * bigsum d (fun l => hh k l * ih d l j))%num).
    + symmetry. rewrite (bigsum_single HF d j) by (auto; intros k Hk Hne; rewrite (ih_right HF HN H0) by auto; bdec; ring).
      rewrite (ih_right HF HN H0) by auto. bdec. ring.
    + transitivity (bigsum d (fun k => bigsum d (fun l => b i k * hh k l * ih d l j))%num).
      * apply bigsum_ext. intros k Hk. rewrite <- (bigsum_mul_l HF). apply bigsum_ext. intros; ring.
      * rewrite (bigsum_swap HF). apply bigsum_ext. intros l Hl. rewrite <- (bigsum_mul_r HF). reflexivity.
  - rewrite (bigsum_single HF d i).
    + rewrite Hb by auto. bdec. ring.
    + auto.
    + intros l Hl Hne. rewrite Hb by auto. bdec. ring.
Qed.

Lemma inv_hilbert_wrong d i0 j0 : 0 < d -> (Z.of_nat d < 2 ^ 62)%Z ->
  (forall i j, i < d -> j < d -> fits d i j = true) -> i0 < d -> j0 < d -> (M64 <= zih d i0 j0)%Z ->
  returns (c_inv_hilbert I d) (fun m => exists b, holds m d d b /\
    ~ (forall i j, i < d -> j < d -> bigsum d (fun k => b i k * hh k j)%num = if i =? j then n1 else n0)).
Proof.
  intros H Hd Hf Hi Hj Hbig. eapply returns_mono; [apply inv_hilbert_fill; auto|]. intros t Ht.
  eexists. split; [exact Ht|]. intros Hb. pose proof (left_inverse_unique d _ Hb i0 j0 Hi Hj) as E. cbn beta in E.
  rewrite <- (ihz_ih HF HN H0) in E by auto.
  assert (E' : @nofnat N (Z.to_nat (u64 (Z.of_nat (ihz d i0 j0)))) = nofnat (ihz d i0 j0)).
  { apply (mul_cancel HF (sg (i0 + j0))); [apply (sg_nz HF)|]. rewrite E. ring. }
  apply nofnat_inj in E'. rewrite zih_ok in Hbig by auto.
  assert (HM : (0 < M64)%Z) by reflexivity. pose proof (Z.mod_pos_bound (Z.of_nat (ihz d i0 j0)) M64 HM) as Hb'.
  fold (u64 (Z.of_nat (ihz d i0 j0))) in Hb'. lia.
Qed.
End InvHilbert.

Lemma fits_14 : forallb ih_fits (seq 0 15) = true.
Proof. vm_compute. reflexivity. Qed.
Lemma ih_fits_14 d : d <= 14 -> ih_fits d = true.
Proof. intros H. pose proof fits_14 as F. rewrite forallb_forall in F. apply F. apply in_seq. lia. Qed.
Lemma fits_15 : forallb (fun i => forallb (fits 15 i) (seq 0 15)) (seq 0 15) = true.
Proof. vm_compute. reflexivity. Qed.
Lemma fits_15' i j : i < 15 -> j < 15 -> fits 15 i j = true.
Proof.
  intros Hi Hj. pose proof fits_15 as F. rewrite forallb_forall in F. specialize (F i).
  rewrite forallb_forall in F. apply F; apply in_seq; lia.
Qed.
Lemma big_15 : (M64 <= zih 15 10 10)%Z.
Proof. vm_compute. discriminate. Qed.

(** *** MatrixCheck *)
Section Checks.
Context {N : Num} {M : MatOps N} (HO : OpLaws M).
Let HL : MatLaws M := ol_mat M HO.
Implicit Types m : M.

Lemma sq_case m d1 d2 a (body : res bool) (P : Prop) : holds m d1 d2 a ->
  (d1 = d2 -> returns body (fun r => r = true <-> P)) ->
  returns (if negb (square M m) then Ok false else body) (fun r => r = true <-> d1 = d2 /\ P).
Proof.
  intros Hm H. unfold square. rewrite (holds_rows _ _ _ _ Hm), (holds_cols _ _ _ _ Hm).
  destruct (Nat.eqb_spec d1 d2) as [E|E]; cbn [negb].
  - eapply returns_mono; [apply H; auto|]. intros r Hr. cbn beta in Hr. rewrite Hr. tauto.
  - exists false. split; auto. split; [discriminate|]. intros (E' & _). congruence.
Qed.

Lemma eq_prod_eye (p e : M) d a : holds p d d a -> holds e d d (fun i j => if i =? j then n1 else n0) ->
  returns (mo_eq p e) (fun r => r = true <-> forall i j, i < d -> j < d -> a i j = if i =? j then n1 else n0).
Proof. intros Hp He. exact (ol_eq M HO p e d d _ _ Hp He). Qed.

Lemma orth_ok m d1 d2 a : 0 < d1 -> 0 < d2 -> holds m d1 d2 a ->
  returns (ck_orthogonal M m) (fun r => r = true <-> d1 = d2 /\
    forall i j, i < d1 -> j < d1 -> bigsum d1 (fun k => a i k * a j k)%num = if i =? j then n1 else n0).
Proof.
  intros H1 H2 Hm. eapply sq_case; [exact Hm|]. intros <-.
  destruct (ol_transpose M HO m d1 d1 a H1 H1 Hm) as (t & -> & Ht). cbn [bind].
  destruct (ol_mul M HO m t d1 d1 d1 a _ H1 H1 H1 Hm Ht) as (p & -> & Hp). cbn [bind].
  rewrite (holds_rows _ _ _ _ Hm), (holds_cols _ _ _ _ Hm).
  destruct (eye_ok HL d1 d1 H1 H1) as (e & -> & He). cbn [bind]. exact (eq_prod_eye p e d1 _ Hp He).
Qed.
Lemma unit_ok m d1 d2 a : nconj (@n0 N) = n0 -> 0 < d1 -> 0 < d2 -> holds m d1 d2 a ->
  returns (ck_unitary M m) (fun r => r = true <-> d1 = d2 /\
    forall i j, i < d1 -> j < d1 -> bigsum d1 (fun k => a i k * nconj (a j k))%num = if i =? j then n1 else n0).
Proof.
  intros H0 H1 H2 Hm. eapply sq_case; [exact Hm|]. intros <-.
  destruct (ol_adjugate M HO H0 m d1 d1 a H1 H1 Hm) as (t & -> & Ht). cbn [bind].
  destruct (ol_mul M HO m t d1 d1 d1 a _ H1 H1 H1 Hm Ht) as (p & -> & Hp). cbn [bind].
  rewrite (holds_rows _ _ _ _ Hm), (holds_cols _ _ _ _ Hm).
  destruct (eye_ok HL d1 d1 H1 H1) as (e & -> & He). cbn [bind]. exact (eq_prod_eye p e d1 _ Hp He).
Qed.
Lemma proj_ok m d1 d2 a : 0 < d1 -> 0 < d2 -> holds m d1 d2 a ->
  returns (ck_projection M m) (fun r => r = true <-> d1 = d2 /\
    forall i j, i < d1 -> j < d1 -> bigsum d1 (fun k => a i k * a k j)%num = a i j).
Proof.
  intros H1 H2 Hm. eapply sq_case; [exact Hm|]. intros <-.
  destruct (ol_mul M HO m m d1 d1 d1 a _ H1 H1 H1 Hm Hm) as (p & -> & Hp). cbn [bind].
  exact (ol_eq M HO p m d1 d1 _ _ Hp Hm).
Qed.
Lemma symm_ok m d1 d2 a : 0 < d1 -> 0 < d2 -> holds m d1 d2 a ->
  returns (ck_symmetric M m) (fun r => r = true <-> d1 = d2 /\ forall i j, i < d1 -> j < d1 -> a j i = a i j).
Proof.
  intros H1 H2 Hm. eapply sq_case; [exact Hm|]. intros <-.
  destruct (ol_transpose M HO m d1 d1 a H1 H1 Hm) as (t & -> & Ht). cbn [bind].
  exact (ol_eq M HO t m d1 d1 _ _ Ht Hm).
Qed.
Lemma herm_ok m d1 d2 a : nconj (@n0 N) = n0 -> 0 < d1 -> 0 < d2 -> holds m d1 d2 a ->
  returns (ck_hermitian M m) (fun r => r = true <-> d1 = d2 /\ forall i j, i < d1 -> j < d1 -> nconj (a j i) = a i j).
Proof.
  intros H0 H1 H2 Hm. eapply sq_case; [exact Hm|]. intros <-.
  destruct (ol_adjugate M HO H0 m d1 d1 a H1 H1 Hm) as (t & -> & Ht). cbn [bind].
  exact (ol_eq M HO t m d1 d1 _ _ Ht Hm).
Qed.
Lemma skew_ok m d1 d2 a : 0 < d1 -> 0 < d2 -> holds m d1 d2 a ->
  returns (ck_skewsymmetric M m) (fun r => r = true <-> d1 = d2 /\ forall i j, i < d1 -> j < d1 -> (- a j i)%num = a i j).
Proof.
  intros H1 H2 Hm. eapply sq_case; [exact Hm|]. intros <-.
  destruct (ol_transpose M HO m d1 d1 a H1 H1 Hm) as (t & -> & Ht). cbn [bind].
  destruct (ol_neg M HO t d1 d1 _ Ht) as (n & -> & Hn). cbn [bind].
  exact (ol_eq M HO n m d1 d1 _ _ Hn Hm).
Qed.
Lemma skewh_ok m d1 d2 a : nconj (@n0 N) = n0 -> 0 < d1 -> 0 < d2 -> holds m d1 d2 a ->
  returns (ck_skewhermitian M m) (fun r => r = true <-> d1 = d2 /\ forall i j, i < d1 -> j < d1 -> (- nconj (a j i))%num = a i j).
Proof.
  intros H0 H1 H2 Hm. eapply sq_case; [exact Hm|]. intros <-.
  destruct (ol_adjugate M HO H0 m d1 d1 a H1 H1 Hm) as (t & -> & Ht). cbn [bind].
  destruct (ol_neg M HO t d1 d1 _ Ht) as (n & -> & Hn). cbn [bind].
  exact (ol_eq M HO n m d1 d1 _ _ Hn Hm).
Qed.
End Checks.

Lemma orth_fixed_ok {N : Num} (HF : FieldLaws N) (m : DenseI N) d a : holds m d d a ->
  returns (ck_orthogonal_fixed d m) (fun r => r = true <->
    forall i j, i < d -> j < d -> bigsum d (fun k => a i k * a j k)%num = if i =? j then n1 else n0).
Proof.
  intros Hm. unfold ck_orthogonal_fixed. apply holds_dreads in Hm as [W Rm].
  destruct (transpose_ok m d d a W Rm) as ((t & -> & Ht) & _). cbn [bind].
  apply holds_dreads in Ht as [Wt Rt].
  destruct (mul_ok m t d d d _ _ Rm Rt) as ((p & -> & Hp) & _). cbn [bind].
  destruct (@eye_fixed_ok N d d) as (e & -> & He). cbn [bind].
  exact (ol_eq (DenseOps N) (dense_ops_laws N HF) p e d d _ _ Hp He).
Qed.

(** *** MatrixConverter *)
Section Convert.
Context {N : Num} (HZ : ZeroLaws N).

Lemma to_sparse_ok (m : DenseI N) d1 d2 a : 0 < d1 -> 0 < d2 -> holds m d1 d2 a ->
  returns (to_sparse m) (fun s => built s /\ reads s d1 d2 (fun i j => norm0 (a i j))).
Proof.
  intros H1 H2 Hm. assert (Hd : dwf m /\ dreads m d1 d2 a) by now apply holds_dreads.
  destruct Hd as (W & R1 & R2 & R3). unfold to_sparse. rewrite R1, R2.
  destruct (srep_new (N := N) d1 d2 H1 H2) as (s0 & E0 & _). rewrite E0. cbn [bind].
  assert (Hs0 : built s0 /\ reads s0 d1 d2 (fun _ _ => n0)).
  { split; [eapply b_new; eauto|]. now apply (new_inv HZ) in E0. }
  apply returns_mono with (fun s => built s /\ reads s d1 d2 (fun i j => if i <? d1 then norm0 (a i j) else n0)).
  - apply (for_returns (fun k s => built s /\ reads s d1 d2 (fun i j => if i <? k then norm0 (a i j) else n0))); auto; try lia.
    intros k s Hk (Hb & Hr).
    apply returns_mono with (fun s => built s /\ reads s d1 d2
        (fun i j => if (i <? k) || ((i =? k) && (j <? d2)) then norm0 (a i j) else n0)).
    + apply (for_returns (fun l s => built s /\ reads s d1 d2
        (fun i j => if (i <? k) || ((i =? k) && (j <? l)) then norm0 (a i j) else n0))); try lia.
      * split; auto. eapply reads_ext; [exact Hr|]. intros i j Hi Hj. cbn beta.
        replace (j <? 0) with false by reflexivity. now rewrite andb_false_r, orb_false_r.
      * intros l s' Hl (Hb' & Hr'). rewrite R3 by lia. cbn [bind]. fold (is0 (a k l)). destruct (is0 (a k l)) eqn:E; cbn [negb].
        -- exists s'. split; auto. split; auto. eapply reads_ext; [exact Hr'|]. intros i j Hi Hj. cbn beta.
           destruct (Nat.eqb_spec i k); [|reflexivity]. subst. cbn [andb]. rewrite Nat.ltb_irrefl. cbn [orb].
           destruct (Nat.ltb_spec j l), (Nat.ltb_spec j (S l)); auto; try lia. replace j with l by lia. now rewrite norm0_0.
        -- destruct (fact_set HZ s' _ _ _ k l (a k l) (built_inv HZ s' Hb') Hr') as (s2 & E2 & _ & Hr2); try lia.
           exists s2. split; auto. split; [eapply b_set; eauto|]. eapply reads_ext; [exact Hr2|].
           intros i j Hi Hj. unfold put. cbn beta. destruct (Nat.eqb_spec i k).
           ++ subst. cbn [andb]. rewrite Nat.ltb_irrefl. cbn [orb]. destruct (Nat.eqb_spec j l).
              ** subst. bdec. reflexivity.
              ** destruct (Nat.ltb_spec j l), (Nat.ltb_spec j (S l)); auto; lia.
           ++ reflexivity.
    + intros s' (Hb' & Hr'). split; auto. eapply reads_ext; [exact Hr'|]. intros i j Hi Hj. cbn beta.
      destruct (Nat.ltb_spec j d2); [|lia]. rewrite andb_true_r.
      destruct (Nat.eqb_spec i k), (Nat.ltb_spec i k), (Nat.ltb_spec i (S k)); auto; lia.
  - intros s (Hb & Hr). split; auto. eapply reads_ext; [exact Hr|]. intros i j Hi Hj. cbn beta. bdec. reflexivity.
Qed.

Lemma to_dense_ok (s : smat N) d1 d2 a : 0 < d1 -> 0 < d2 -> built s -> reads s d1 d2 a ->
  returns (to_dense s) (fun m : DenseI N => holds m d1 d2 a).
Proof.
  intros H1 H2 Hb Hr. unfold to_dense.
  pose proof Hr as (R1 & R2 & R3). rewrite R1, R2.
  unfold d_new. bdec. cbn [assert_ bind].
  rewrite (for_loop N HZ d1 d2 a s Hb Hr (dmat N) (fun i j v r => d_set r i j v)).
  assert (Hn : forall i j, i < d1 -> j < d2 -> is0 (a i j) = true -> a i j = n0).
  { intros i j Hi Hj E. destruct (inv_reads HZ s d1 d2 a (built_inv HZ s Hb) Hr) as (_ & Hn).
    rewrite <- Hn by auto. now apply norm0_0. }
  pose proof (foreach_post (fun (done : list (nat * nat)) (r : DenseI N) => exists b, holds r d1 d2 b /\
    forall i j, i < d1 -> j < d2 -> (In (i, j) done -> b i j = a i j) /\ (~ In (i, j) done -> b i j = n0)) (fun _ => False)
    (fun p r => d_set r (fst p) (snd p) (a (fst p) (snd p))) (nonzeros d1 d2 a) [] (d_fixed_new d1 d2)) as HP.
  assert (HP' : post (foreach (nonzeros d1 d2 a) (fun p r => d_set r (fst p) (snd p) (a (fst p) (snd p))) (d_fixed_new d1 d2))
    (fun r : DenseI N => holds r d1 d2 a) (fun _ => False)).
  { eapply post_mono; [apply HP| |auto].
    - exists (fun _ _ => n0). split; [apply holds_fixed|]. intros i j _ _. split; [intros []|auto].
    - intros (i, j) d r Hin (b & Hh & Hd). unfold nonzeros in Hin. apply filter_In in Hin as (Hin & _). apply in_pos in Hin.
      cbn [fst snd] in *. destruct (holds_set (@dense_laws N) r d1 d2 b i j (a i j) Hh) as (r' & E & Hr'); try lia.
      change (mi_set r i j (a i j)) with (d_set r i j (a i j)) in E. rewrite E. cbn. exists (put2 b i j (a i j)). split; auto.
      intros i' j' Hi' Hj'. unfold put2. destruct (Hd i' j' Hi' Hj') as (D1 & D2). rewrite in_app_iff.
      destruct (Nat.eqb_spec i' i), (Nat.eqb_spec j' j); subst; cbn [andb]; split; intros HH; auto.
      + exfalso. apply HH. right. now left.
      + destruct HH as [HH|[HH|[]]]; auto. congruence.
      + destruct HH as [HH|[HH|[]]]; auto. congruence.
      + destruct HH as [HH|[HH|[]]]; auto. congruence.
    - intros r (b & Hh & Hd). cbn [app] in Hd. eapply holds_ext; [exact Hh|]. intros i j Hi Hj.
      destruct (Hd i j Hi Hj) as (D1 & D2). destruct (is0 (a i j)) eqn:E.
      + rewrite Hn by auto. apply D2. intros Hin. unfold nonzeros in Hin. apply filter_In in Hin as (_ & Hin). cbn in Hin.
        now rewrite E in Hin.
      + apply D1. unfold nonzeros. apply filter_In. split; [apply in_pos; cbn; auto|]. cbn. now rewrite E. }
  destruct (foreach _ _ _) as [r| | | | |]; cbn in HP'; try tauto. exists r. auto.
Qed.
End Convert.

Lemma diag_list {N : Num} (v : list N) : map (fun i => if i =? i then nth i v n0 else n0) (seq 0 (length v)) = v.
Proof.
  apply (list_eq_nth _ _ n0); [now rewrite map_length, seq_length|]. rewrite map_length, seq_length.
  intros i Hi. rewrite nth_map_seq by auto. now rewrite Nat.eqb_refl.
Qed.
Lemma convert_round {N : Num} (HF : FieldLaws N) d1 d2 (a : nat -> nat -> N) : 0 < d1 -> 0 < d2 ->
  (forall m : DenseI N, holds m d1 d2 a -> returns (let* s := to_sparse m in to_dense s) (fun m' : DenseI N => holds m' d1 d2 a)) /\
  (forall s : SparseI N, holds s d1 d2 a -> returns (let* m := to_dense s in to_sparse m) (fun s' => @holds N (SparseI N) s' d1 d2 a)).
Proof.
  intros H1 H2. pose proof (field_zero_laws N HF) as HZ. split.
  - intros m Hm. destruct (to_sparse_ok HZ m d1 d2 a H1 H2 Hm) as (s & -> & Hb & Hr). cbn [bind].
    apply to_dense_ok; auto. eapply reads_ext; [exact Hr|]. intros. cbn beta. now rewrite (norm0_id HF).
  - intros s Hs. apply s_holds in Hs as (Hb & Hr). destruct (to_dense_ok HZ s d1 d2 a H1 H2 Hb Hr) as (m & -> & Hm). cbn [bind].
    destruct (to_sparse_ok HZ m d1 d2 a H1 H2 Hm) as (s' & E & Hb' & Hr'). exists s'. split; auto. apply s_holds. split; auto.
    eapply reads_ext; [exact Hr'|]. intros. cbn beta. now rewrite (norm0_id HF).
Qed.
