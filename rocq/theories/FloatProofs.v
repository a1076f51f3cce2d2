(** Rounding errors of the accumulating loops on doubles. *)
From Coq Require Import ZArith Reals List Arith SpecFloat Lia Lra.
From Flocq Require Import Core.
From Verif Require Import Base Num NumInst Spec FloatSpec F64Flocq.
Import ListNotations.
Local Open Scope R_scope.

(** Sums over index lists. *)
Fixpoint rlist {A} (l : list A) (f : A -> R) : R := match l with [] => 0 | i :: t => f i + rlist t f end.
Lemma rlist_app {A} (l k : list A) f : rlist (l ++ k) f = rlist l f + rlist k f.
Proof. induction l as [|i t IH]; simpl; [lra|]. rewrite IH. lra. Qed.
Lemma rlist_seq n f : rlist (seq 0 n) f = rsum n f.
Proof. induction n as [|n IH]; [reflexivity|]. rewrite seq_S, rlist_app, IH. simpl. lra. Qed.
Lemma rlist_ext {A} (l : list A) f g : (forall i, In i l -> f i = g i) -> rlist l f = rlist l g.
Proof. induction l as [|i t IH]; simpl; intros H; [reflexivity|]. rewrite H, IH; auto. Qed.
Lemma rlist_le {A} (l : list A) f g : (forall i, In i l -> f i <= g i) -> rlist l f <= rlist l g.
Proof. induction l as [|i t IH]; simpl; intros H; [lra|]. apply Rplus_le_compat; auto. Qed.
Lemma rlist_pos {A} (l : list A) f : (forall i, In i l -> 0 <= f i) -> 0 <= rlist l f.
Proof. induction l as [|i t IH]; simpl; intros H; [lra|]. apply Rplus_le_le_0_compat; auto. Qed.
Lemma rlist_abs {A} (l : list A) f : Rabs (rlist l f) <= rlist l (fun i => Rabs (f i)).
Proof. induction l as [|i t IH]; simpl; [rewrite Rabs_R0; lra|]. eapply Rle_trans; [apply Rabs_triang|]. lra. Qed.
Lemma rlist_plus {A} (l : list A) f g : rlist l (fun i => f i + g i) = rlist l f + rlist l g.
Proof. induction l as [|i t IH]; simpl; [lra|]. rewrite IH. lra. Qed.
Lemma rlist_minus {A} (l : list A) f g : rlist l (fun i => f i - g i) = rlist l f - rlist l g.
Proof. induction l as [|i t IH]; simpl; [lra|]. rewrite IH. lra. Qed.
Lemma rlist_scal {A} (l : list A) c f : rlist l (fun i => c * f i) = c * rlist l f.
Proof. induction l as [|i t IH]; simpl; [lra|]. rewrite IH. lra. Qed.
Lemma rlist_const {A} (l : list A) c : rlist l (fun _ => c) = INR (length l) * c.
Proof. induction l as [|i t IH]; [simpl; lra|]. cbn [rlist length]. rewrite IH, S_INR. lra. Qed.
Lemma rlist_filter {A} (l : list A) p f : (forall i, In i l -> p i = false -> f i = 0) -> rlist (filter p l) f = rlist l f.
Proof.
  induction l as [|i t IH]; simpl; intros H; [reflexivity|]. destruct (p i) eqn:E; simpl; rewrite IH; auto.
  rewrite (H i); auto. lra.
Qed.

Lemma real_zero : real (n0 : NumF64) = 0.
Proof. reflexivity. Qed.
Lemma double_zero : double (n0 : NumF64).
Proof. reflexivity. Qed.
Lemma finite_zero : finite (n0 : NumF64).
Proof. exact I. Qed.

(** One addition and one multiplication. *)
Lemma add_err (x y : NumF64) : double x -> double y -> finite (x + y)%num ->
  exists d, Rabs d <= u64 /\ real (x + y)%num = (real x + real y) * (1 + d).
Proof.
  intros Hx Hy F. rewrite (add_real x y Hx Hy F). apply rnd_plus; now apply real_format.
Qed.
Lemma sub_err (x y : NumF64) : double x -> double y -> finite (x - y)%num ->
  exists d, Rabs d <= u64 /\ real (x - y)%num = (real x - real y) * (1 + d).
Proof.
  intros Hx Hy F. rewrite (sub_real x y Hx Hy F). unfold Rminus. apply rnd_plus; [now apply real_format|].
  apply generic_format_opp. now apply real_format.
Qed.
Lemma mul_err (x y : NumF64) : double x -> double y -> finite (x * y)%num ->
  exists d e, Rabs d <= u64 /\ Rabs e <= eta64 /\ real (x * y)%num = (real x * real y) * (1 + d) + e.
Proof. intros Hx Hy F. rewrite (mul_real x y Hx Hy F). apply rnd_any. Qed.
Lemma div_err (x y : NumF64) : double x -> double y -> finite y -> finite (x / y)%num ->
  exists d e, Rabs d <= u64 /\ Rabs e <= eta64 /\ real (x / y)%num = (real x / real y) * (1 + d) + e.
Proof. intros Hx Hy Fy F. rewrite (div_real x y Hx Hy Fy F). apply rnd_any. Qed.
Lemma add_zero_l (x : NumF64) : double x -> finite (n0 + x)%num -> real (n0 + x)%num = real x.
Proof.
  intros Hx F. rewrite (add_real _ x double_zero Hx F), real_zero, Rplus_0_l. apply rnd_id. now apply real_format.
Qed.

(** The loop s = 0; for i in l: s += f(i). *)
Definition acc {A} (l : list A) (f : A -> NumF64) : NumF64 := fold_left (fun s i => (s + f i)%num) l n0.
Lemma acc_snoc {A} (l : list A) i f : acc (l ++ [i]) f = (acc l f + f i)%num.
Proof. unfold acc. now rewrite fold_left_app. Qed.
Lemma acc_double {A} (l : list A) f : (forall i, In i l -> double (f i)) -> double (acc l f).
Proof.
  induction l as [|i l IH] using rev_ind; intros H; [exact double_zero|]. rewrite acc_snoc.
  apply add_double; [apply IH; intros; apply H|apply H]; apply in_or_app; simpl; auto.
Qed.
Lemma acc_finite {A} (l : list A) f : finite (acc l f) -> forall i, In i l -> finite (f i).
Proof.
  induction l as [|i l IH] using rev_ind; intros H k K; [destruct K|]. rewrite acc_snoc in H.
  apply add_finite_args in H. apply in_app_or in K. destruct K as [K|[<-|[]]]; [now apply IH|tauto].
Qed.
Lemma pow_ge_1 k : 1 <= (1 + u64) ^ k.
Proof. apply pow_R1_Rle. pose proof u64_pos; lra. Qed.

Lemma acc_error {A} (l : list A) f : (forall i, In i l -> double (f i)) -> finite (acc l f) ->
  Rabs (real (acc l f) - rlist l (fun i => real (f i))) <= ((1 + u64) ^ (length l - 1) - 1) * rlist l (fun i => Rabs (real (f i))).
Proof.
  induction l as [|i l IH] using rev_ind; intros H F.
  - simpl. rewrite Rminus_0_r, Rabs_R0. lra.
  - assert (D : forall k, In k l -> double (f k)) by (intros; apply H, in_or_app; auto).
    assert (Di : double (f i)) by (apply H, in_or_app; simpl; auto).
    rewrite acc_snoc in *. rewrite !rlist_app. cbn [rlist]. rewrite !Rplus_0_r. rewrite app_length. cbn [length].
    destruct l as [|k l].
    + cbn [acc fold_left rlist length] in *. rewrite (add_zero_l _ Di F). simpl. unfold Rminus. rewrite Rplus_0_l, Rplus_opp_r, Rabs_R0. lra.
    + destruct (add_err _ _ (acc_double _ _ D) Di F) as [d [Hd E]]. rewrite E.
      specialize (IH D (proj1 (add_finite_args _ _ F))).
      pose proof (rlist_abs (k :: l) (fun i => real (f i))) as B.
      set (s := real (acc (k :: l) f)) in *. set (t := rlist (k :: l) (fun i => real (f i))) in *.
      set (ab := rlist (k :: l) (fun i => Rabs (real (f i)))) in *. set (x := real (f i)).
      replace (length (k :: l) + 1 - 1)%nat with (S (length (k :: l) - 1)) by (simpl; lia).
      set (p := (length (k :: l) - 1)%nat) in *. cbn [pow]. pose proof (pow_ge_1 p) as P. set (q := (1 + u64) ^ p) in *.
      pose proof u64_pos as U. pose proof (Rabs_pos x) as X.
      replace ((s + x) * (1 + d) - (t + x)) with ((s - t) * (1 + d) + d * (t + x)) by ring.
      eapply Rle_trans; [apply Rabs_triang|]. rewrite !Rabs_mult.
      assert (A1 : Rabs (1 + d) <= 1 + u64) by (eapply Rle_trans; [apply Rabs_triang|]; rewrite Rabs_R1; lra).
      assert (A2 : Rabs (t + x) <= ab + Rabs x) by (eapply Rle_trans; [apply Rabs_triang|]; lra).
      assert (A3 : Rabs (s - t) * Rabs (1 + d) <= ((q - 1) * ab) * (1 + u64)) by (apply Rmult_le_compat; auto; apply Rabs_pos).
      assert (A4 : Rabs d * Rabs (t + x) <= u64 * (ab + Rabs x)) by (apply Rmult_le_compat; auto; apply Rabs_pos).
      assert (A5 : 0 <= u64 * ((q - 1) * Rabs x)) by (apply Rmult_le_pos; [lra|apply Rmult_le_pos; lra]).
      assert (A6 : 0 <= (q - 1) * Rabs x) by (apply Rmult_le_pos; lra).
      nra.
Qed.

(** Products inside the loop. *)
Lemma dot_error {A} (l : list A) (x y : A -> NumF64) : (forall i, In i l -> double (x i) /\ double (y i)) ->
  finite (acc l (fun i => (x i * y i)%num)) ->
  (forall i, In i l -> finite (x i) /\ finite (y i)) /\
  Rabs (real (acc l (fun i => (x i * y i)%num)) - rlist l (fun i => real (x i) * real (y i)))
    <= ((1 + u64) ^ length l - 1) * rlist l (fun i => Rabs (real (x i) * real (y i)))
       + INR (length l) * (1 + u64) ^ length l * eta64.
Proof.
  intros H F.
  assert (D : forall i, In i l -> double (x i * y i)%num) by (intros i Hi; destruct (H i Hi); now apply mul_double).
  pose proof (acc_finite l _ F) as Fi. split; [intros i Hi; apply mul_finite_args; auto|].
  pose proof (acc_error l _ D F) as E.
  set (p := fun i => real (x i * y i)%num) in *. set (q := fun i => real (x i) * real (y i)).
  pose proof u64_pos as U. pose proof eta64_pos as V.
  assert (M : forall i, In i l -> Rabs (p i - q i) <= u64 * Rabs (q i) + eta64).
  { intros i Hi. destruct (H i Hi). destruct (mul_err (x i) (y i)) as [d [e [Hd [He R]]]]; auto. unfold p, q. rewrite R.
    replace (real (x i) * real (y i) * (1 + d) + e - real (x i) * real (y i)) with (d * (real (x i) * real (y i)) + e) by ring.
    eapply Rle_trans; [apply Rabs_triang|]. rewrite (Rabs_mult d). apply Rplus_le_compat; auto.
    apply Rmult_le_compat_r; [apply Rabs_pos|auto]. }
  assert (M1 : Rabs (rlist l p - rlist l q) <= u64 * rlist l (fun i => Rabs (q i)) + INR (length l) * eta64).
  { rewrite <- rlist_minus. eapply Rle_trans; [apply rlist_abs|]. eapply Rle_trans; [apply rlist_le; exact M|].
    rewrite rlist_plus, rlist_scal, rlist_const. lra. }
  assert (M2 : rlist l (fun i => Rabs (p i)) <= (1 + u64) * rlist l (fun i => Rabs (q i)) + INR (length l) * eta64).
  { replace ((1 + u64) * rlist l (fun i => Rabs (q i)) + INR (length l) * eta64) with
      (rlist l (fun i => Rabs (q i) + (u64 * Rabs (q i) + eta64))) by (rewrite !rlist_plus, rlist_scal, rlist_const; ring).
    apply rlist_le. intros i Hi. specialize (M i Hi). replace (p i) with (q i + (p i - q i)) by ring.
    eapply Rle_trans; [apply Rabs_triang|]. lra. }
  destruct l as [|k l].
  { cbn [rlist length INR pow acc fold_left]. change (real n0) with 0. rewrite Rminus_0_r, Rabs_R0. lra. }
  set (L := k :: l) in *. assert (EL : length L = S (length L - 1)) by (unfold L; simpl; lia).
  rewrite EL at 1 3. cbn [pow]. set (r := (length L - 1)%nat) in *. pose proof (pow_ge_1 r) as P. set (w := (1 + u64) ^ r) in *.
  assert (Q : 0 <= rlist L (fun i => Rabs (q i))) by (apply rlist_pos; intros; apply Rabs_pos).
  set (ab := rlist L (fun i => Rabs (q i))) in *. pose proof (pos_INR (length L)) as I. set (n := INR (length L)) in *.
  assert (N1 : (w - 1) * rlist L (fun i => Rabs (p i)) <= (w - 1) * ((1 + u64) * ab + n * eta64)) by (apply Rmult_le_compat_l; lra).
  assert (N2 : 0 <= n * eta64) by (apply Rmult_le_pos; lra). set (ne := n * eta64) in *.
  replace (n * ((1 + u64) * w) * eta64) with ((1 + u64) * w * ne) by (unfold ne; ring).
  replace (real (acc L (fun i => (x i * y i)%num)) - rlist L q) with
    ((real (acc L (fun i => (x i * y i)%num)) - rlist L p) + (rlist L p - rlist L q)) by ring.
  eapply Rle_trans; [apply Rabs_triang|].
  assert (N3 : 0 <= u64 * w * ne) by (repeat apply Rmult_le_pos; lra).
  change (rlist L (fun i => Rabs (real (x i * y i)%num))) with (rlist L (fun i => Rabs (p i))) in E.
  eapply Rle_trans; [apply Rplus_le_compat; [eapply Rle_trans; [exact E|exact N1]|exact M1]|]. 
  change (rlist L (fun i => Rabs (real (x i) * real (y i)))) with ab. lra.
Qed.

(** Integers below 2^53 are computed without error. *)
Lemma int_of x z : double x -> finite x -> real x = IZR z -> is_int x z.
Proof. unfold is_int. auto. Qed.
Lemma int_zero : is_int n0 0.
Proof. repeat split. Qed.
Lemma int_add x y a b : is_int x a -> is_int y b -> (Z.abs (a + b) <= 2 ^ 53)%Z -> is_int (x + y)%num (a + b).
Proof.
  intros [Dx [Fx Rx]] [Dy [Fy Ry]] H.
  assert (G : rnd (real x + real y) = IZR (a + b)) by (rewrite Rx, Ry, <- plus_IZR; apply rnd_id, int_format, H).
  assert (F : finite (x + y)%num) by (apply add_finite; auto; rewrite G; now apply int_small).
  apply int_of; [now apply add_double|exact F|]. now rewrite add_real.
Qed.
Lemma int_sub x y a b : is_int x a -> is_int y b -> (Z.abs (a - b) <= 2 ^ 53)%Z -> is_int (x - y)%num (a - b).
Proof.
  intros [Dx [Fx Rx]] [Dy [Fy Ry]] H.
  assert (G : rnd (real x - real y) = IZR (a - b)) by (rewrite Rx, Ry, <- minus_IZR; apply rnd_id, int_format, H).
  assert (F : finite (x - y)%num) by (apply sub_finite; auto; rewrite G; now apply int_small).
  apply int_of; [now apply sub_double|exact F|]. now rewrite sub_real.
Qed.
Lemma int_mul x y a b : is_int x a -> is_int y b -> (Z.abs (a * b) <= 2 ^ 53)%Z -> is_int (x * y)%num (a * b).
Proof.
  intros [Dx [Fx Rx]] [Dy [Fy Ry]] H.
  assert (G : rnd (real x * real y) = IZR (a * b)) by (rewrite Rx, Ry, <- mult_IZR; apply rnd_id, int_format, H).
  assert (F : finite (x * y)%num) by (apply mul_finite; auto; rewrite G; now apply int_small).
  apply int_of; [now apply mul_double|exact F|]. now rewrite mul_real.
Qed.
Fixpoint zlist {A} (l : list A) (f : A -> Z) : Z := match l with [] => 0%Z | i :: t => (f i + zlist t f)%Z end.
Lemma zlist_app {A} (l k : list A) f : zlist (l ++ k) f = (zlist l f + zlist k f)%Z.
Proof. induction l as [|i t IH]; simpl; [lia|]. rewrite IH. lia. Qed.
Lemma zlist_seq n f : zlist (seq 0 n) f = zsum n f.
Proof. induction n as [|n IH]; [reflexivity|]. rewrite seq_S, zlist_app, IH. simpl. lia. Qed.
Lemma zlist_abs {A} (l : list A) f : (Z.abs (zlist l f) <= zlist l (fun i => Z.abs (f i)))%Z.
Proof. induction l as [|i t IH]; simpl; lia. Qed.
Lemma zlist_pos {A} (l : list A) f : (0 <= zlist l (fun i => Z.abs (f i)))%Z.
Proof. induction l as [|i t IH]; simpl; lia. Qed.
Lemma zlist_filter {A} (l : list A) p f : (forall i, In i l -> p i = false -> f i = 0%Z) -> zlist (filter p l) f = zlist l f.
Proof.
  induction l as [|i t IH]; simpl; intros H; [reflexivity|]. destruct (p i) eqn:E; simpl; rewrite IH; auto.
  rewrite (H i); auto.
Qed.
Lemma zlist_term {A} (l : list A) f : forall i, In i l -> (Z.abs (f i) <= zlist l (fun i => Z.abs (f i)))%Z.
Proof.
  induction l as [|k t IH]; simpl; intros i H; [tauto|]. pose proof (zlist_pos t f). destruct H as [<-|H]; [lia|].
  specialize (IH i H). lia.
Qed.
Lemma acc_int {A} (l : list A) f z : (forall i, In i l -> is_int (f i) (z i)) -> (zlist l (fun i => Z.abs (z i)) <= 2 ^ 53)%Z ->
  is_int (acc l f) (zlist l z).
Proof.
  induction l as [|i l IH] using rev_ind; intros H B; [exact int_zero|]. rewrite acc_snoc, zlist_app. rewrite zlist_app in B.
  pose proof (zlist_abs l z). cbn [zlist] in *. rewrite Z.add_0_r in *. apply int_add.
  - apply IH; [intros; apply H, in_or_app; auto|lia].
  - apply H, in_or_app; simpl; auto.
  - lia.
Qed.
Lemma dot_int {A} (l : list A) (x y : A -> NumF64) a b : (forall i, In i l -> is_int (x i) (a i) /\ is_int (y i) (b i)) ->
  (zlist l (fun i => Z.abs (a i * b i)) <= 2 ^ 53)%Z ->
  is_int (acc l (fun i => (x i * y i)%num)) (zlist l (fun i => (a i * b i)%Z)).
Proof.
  intros H B. apply acc_int; auto. intros i Hi. destruct (H i Hi). apply int_mul; auto.
  pose proof (zlist_term l (fun i => (a i * b i)%Z) i Hi). cbv beta in *. lia.
Qed.

Lemma bigsum_acc n (f : nat -> NumF64) : bigsum n f = acc (seq 0 n) f.
Proof. induction n as [|n IH]; [reflexivity|]. cbn [bigsum]. now rewrite IH, seq_S, acc_snoc. Qed.

Lemma acc_list (v : list NumF64) : fold_left nadd v n0 = acc v (fun x => x).
Proof. reflexivity. Qed.

(** No overflow. *)
Lemma acc_bound {A} (l : list A) f : (forall i, In i l -> double (f i)) -> finite (acc l f) ->
  Rabs (real (acc l f)) <= (1 + u64) ^ (length l - 1) * rlist l (fun i => Rabs (real (f i))).
Proof.
  intros H F. pose proof (acc_error l f H F) as E. pose proof (rlist_abs l (fun i => real (f i))) as B.
  set (s := real (acc l f)) in *. set (t := rlist l _) in *. set (ab := rlist l (fun i => Rabs _)) in *.
  pose proof (Rabs_triang (s - t) t) as T. replace (s - t + t) with s in T by ring. lra.
Qed.
Lemma acc_total {A} (l : list A) f : (forall i, In i l -> double (f i) /\ finite (f i)) ->
  (1 + u64) ^ length l * rlist l (fun i => Rabs (real (f i))) < bpow radix2 1024 -> finite (acc l f).
Proof.
  induction l as [|i l IH] using rev_ind; intros H B; [exact finite_zero|].
  rewrite rlist_app, app_length in B. cbn [rlist length] in B. rewrite Rplus_0_r, Nat.add_1_r in B. cbn [pow] in B.
  assert (D : forall k, In k l -> double (f k)) by (intros; apply H, in_or_app; auto).
  assert (Di : double (f i) /\ finite (f i)) by (apply H, in_or_app; simpl; auto). destruct Di as [Di Fi].
  pose proof u64_pos as U. pose proof (pow_ge_1 (length l)) as P. pose proof (Rabs_pos (real (f i))) as X.
  assert (Q : 0 <= rlist l (fun i => Rabs (real (f i)))) by (apply rlist_pos; intros; apply Rabs_pos).
  set (ab := rlist l (fun i => Rabs (real (f i)))) in *. set (w := (1 + u64) ^ length l) in *.
  assert (W : w * ab <= (1 + u64) * w * (ab + Rabs (real (f i)))).
  { replace ((1 + u64) * w * (ab + Rabs (real (f i)))) with (w * ab + (u64 * (w * ab) + (1 + u64) * (w * Rabs (real (f i))))) by ring.
    assert (0 <= u64 * (w * ab)) by (repeat apply Rmult_le_pos; lra).
    assert (0 <= (1 + u64) * (w * Rabs (real (f i)))) by (repeat apply Rmult_le_pos; lra). lra. }
  assert (F : finite (acc l f)) by (apply IH; [intros; apply H, in_or_app; auto|lra]).
  rewrite acc_snoc. apply add_finite; auto using acc_double.
  destruct (rnd_plus (real (acc l f)) (real (f i))) as [d [Hd E]]; try (apply real_format; auto using acc_double). rewrite E.
  eapply Rle_lt_trans; [|exact B]. rewrite Rabs_mult.
  pose proof (acc_bound l f D F) as C. fold ab in C.
  assert (W1 : (1 + u64) ^ (length l - 1) <= w) by (apply Rle_pow; [lra|lia]).
  assert (C1 : Rabs (real (acc l f)) <= w * ab) by (eapply Rle_trans; [exact C|]; apply Rmult_le_compat_r; auto).
  assert (A1 : Rabs (1 + d) <= 1 + u64) by (eapply Rle_trans; [apply Rabs_triang|]; rewrite Rabs_R1; lra).
  assert (A2 : Rabs (real (acc l f) + real (f i)) <= w * (ab + Rabs (real (f i)))).
  { eapply Rle_trans; [apply Rabs_triang|]. rewrite Rmult_plus_distr_l. apply Rplus_le_compat; auto.
    rewrite <- (Rmult_1_l (Rabs (real (f i)))) at 1. apply Rmult_le_compat_r; auto. }
  eapply Rle_trans; [apply Rmult_le_compat; [apply Rabs_pos|apply Rabs_pos|exact A2|exact A1]|]. lra.
Qed.
Lemma dot_total {A} (l : list A) (x y : A -> NumF64) : (forall i, In i l -> double (x i) /\ finite (x i) /\ double (y i) /\ finite (y i)) ->
  (1 + u64) ^ (length l + 1) * (rlist l (fun i => Rabs (real (x i) * real (y i))) + INR (length l) * eta64) < bpow radix2 1024 ->
  finite (acc l (fun i => (x i * y i)%num)).
Proof.
  intros H B. pose proof u64_pos as U. pose proof eta64_pos as V.
  set (q := fun i => real (x i) * real (y i)) in *.
  assert (R1 : forall i, Rabs (rnd (q i)) <= (1 + u64) * Rabs (q i) + eta64).
  { intros i. destruct (rnd_any (q i)) as [d [e [Hd [He E]]]]. rewrite E. eapply Rle_trans; [apply Rabs_triang|]. rewrite Rabs_mult.
    apply Rplus_le_compat; auto. rewrite Rmult_comm. apply Rmult_le_compat_r; [apply Rabs_pos|].
    eapply Rle_trans; [apply Rabs_triang|]; rewrite Rabs_R1; lra. }
  assert (Q : 0 <= rlist l (fun i => Rabs (q i))) by (apply rlist_pos; intros; apply Rabs_pos).
  change (rlist l (fun i => Rabs (real (x i) * real (y i)))) with (rlist l (fun i => Rabs (q i))) in B.
  pose proof (pow_ge_1 (length l)) as P. pose proof (pos_INR (length l)) as I.
  rewrite Nat.add_1_r in B. cbn [pow] in B. set (w := (1 + u64) ^ length l) in *. set (ab := rlist l (fun i => Rabs (q i))) in *.
  assert (N : 0 <= INR (length l) * eta64) by (apply Rmult_le_pos; lra). 
  assert (T : forall i, In i l -> Rabs (q i) <= ab /\ eta64 <= INR (length l) * eta64).
  { unfold ab. clear. induction l as [|k t IH]; simpl In; intros i Hi; [tauto|].
    pose proof eta64_pos as V. pose proof (pos_INR (length t)) as I. split.
    - cbn [rlist]. assert (0 <= rlist t (fun i => Rabs (q i))) by (apply rlist_pos; intros; apply Rabs_pos).
      pose proof (Rabs_pos (q k)). destruct Hi as [->|Hi]; [lra|]. destruct (IH i Hi). lra.
    - cbn [length]. rewrite S_INR. assert (0 <= INR (length t) * eta64) by (apply Rmult_le_pos; lra). lra. }
  assert (Fm : forall i, In i l -> finite (x i * y i)%num).
  { intros i Hi. destruct (H i Hi) as (D1 & F1 & D2 & F2). apply mul_finite; auto. fold (q i).
    eapply Rle_lt_trans; [apply R1|]. eapply Rle_lt_trans; [|exact B]. destruct (T i Hi) as [T1 T2].
    replace ((1 + u64) * w * (ab + INR (length l) * eta64)) with ((1 + u64) * ab * w + INR (length l) * eta64 * ((1 + u64) * w)) by ring.
    apply Rplus_le_compat.
    - rewrite <- (Rmult_1_r ((1 + u64) * Rabs (q i))). apply Rmult_le_compat; try lra. apply Rmult_le_pos; [lra|apply Rabs_pos].
      apply Rmult_le_compat_l; lra.
    - rewrite <- (Rmult_1_r eta64) at 1. apply Rmult_le_compat; try lra. assert (0 <= u64 * w) by (apply Rmult_le_pos; lra). lra. }
  apply acc_total.
  - intros i Hi. split; [|now apply Fm]. destruct (H i Hi) as (D1 & F1 & D2 & F2). now apply mul_double.
  - eapply Rle_lt_trans; [|exact B]. fold w.
    replace ((1 + u64) * w * (ab + INR (length l) * eta64)) with (w * ((1 + u64) * ab + (1 + u64) * (INR (length l) * eta64))) by ring.
    apply Rmult_le_compat_l; [lra|].
    apply Rle_trans with (rlist l (fun i => (1 + u64) * Rabs (q i) + eta64)).
    + apply rlist_le. intros i Hi. destruct (H i Hi) as (D1 & F1 & D2 & F2). rewrite mul_real; auto. apply R1.
    + rewrite rlist_plus, rlist_scal, rlist_const. fold ab. assert (0 <= u64 * (INR (length l) * eta64)) by (apply Rmult_le_pos; lra). lra.
Qed.

(** The zero test. *)
Lemma is0_real (x : NumF64) : is0 x = true -> finite x /\ real x = 0.
Proof. unfold is0. destruct x as [[]|[]| |[] m e]; cbn; intros H; try discriminate; auto. Qed.
Lemma real_is0 (x : NumF64) : finite x -> real x = 0 -> is0 x = true.
Proof.
  destruct x as [[]|[]| |s m e]; cbn -[real]; intros F H; try tauto; try reflexivity. exfalso.
  rewrite real_SF2R in H. destruct s; apply eq_0_F2R in H; discriminate.
Qed.
Lemma norm0_real (x : NumF64) : real (norm0 x) = real x.
Proof. unfold norm0. destruct (is0 x) eqn:E; auto. symmetry. now apply is0_real. Qed.
Lemma norm0_double (x : NumF64) : double x -> double (norm0 x).
Proof. unfold norm0. destruct (is0 x); auto. reflexivity. Qed.
Lemma norm0_finite (x : NumF64) : finite (norm0 x) <-> finite x.
Proof. unfold norm0. destruct (is0 x) eqn:E; [|tauto]. apply is0_real in E. simpl. tauto. Qed.
Lemma norm0_int (x : NumF64) z : is_int x z -> is_int (norm0 x) z.
Proof. intros [D [F R]]. split; [now apply norm0_double|]. split; [now apply norm0_finite|]. now rewrite norm0_real. Qed.
