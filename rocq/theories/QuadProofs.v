(** Proofs about quadrature. *)
From Coq Require Import List Arith Bool ZArith Reals Lia Lra Ring Field.
From Coquelicot Require Import Coquelicot.
From Verif Require Import Base BaseProofs Num NumInst OrdField UtilsModel Spec SpecProofs ShapeSpec QuadModel QuadSpec.
Import ListNotations.
Local Open Scope nat_scope.
Open Scope res_scope.

Ltac caseR H := cbn [In rules] in H; repeat (destruct H as [H|H]; [injection H as <- <-|]); [..|destruct H].
Section Gen.
Context {N : Num}.
Hypothesis HF : FieldLaws N.
Add Field qfld : (fl_field N HF).
Fixpoint wsum (ws : list N) (ys : list N) : N := match ws, ys with w :: ws, y :: ys => (w * y + wsum ws ys)%num | _, _ => n0 end.
Definition nweights (k o : nat) : list N := map (fun w => w * unit_volume k)%num (snd (gl_table k o)).
Lemma weights_ok k o : In (k, o) rules -> gl_weights k o = Ok (nweights k o).
Proof. intros H. caseR H; reflexivity. Qed.
Lemma rule_len k o : In (k, o) rules -> length (@gl_points N k o) = length (nweights k o).
Proof. intros H. caseR H; reflexivity. Qed.
Lemma loop_index (f : nat -> list N -> res N) (ws : list N) (ps : list (list N)) : length ps = length ws -> forall j (s : N) (ys : list N),
  (forall i, i < length ps -> f (j + i) (nth i ps []) = Ok (nth i ys n0)) -> length ys = length ps ->
  forall (W : list N) (P : list (list N)), (forall i, i < length ps -> nth_error W (j + i) = nth_error ws i /\ nth_error P (j + i) = nth_error ps i) ->
  for_n (length ps) j (fun i v => let* w := vget W i in let* p := vget P i in let* y := f i p in Ok (v + w * y)%num) s = Ok (s + wsum ws ys)%num.
Proof.
  revert ws. induction ps as [|p ps IH]; intros ws Hl j s ys Hf Hy W P HW.
  - destruct ws; [|discriminate]. cbn. f_equal. ring.
  - destruct ws as [|w ws]; [discriminate|]. destruct ys as [|y ys]; [discriminate|]. cbn [length for_n]. cbn [length] in HW, Hf.
    pose proof (HW 0 ltac:(lia)) as (H1 & H2). pose proof (Hf 0 ltac:(lia)) as H3. rewrite Nat.add_0_r in *. cbn in H1, H2, H3. unfold vget at 1 2. rewrite H1, H2. cbn [bind]. rewrite H3. cbn [bind wsum].
    rewrite (IH ws ltac:(now injection Hl) (S j) _ ys).
    + f_equal. ring.
    + intros i Hi. specialize (Hf (S i) ltac:(lia)). rewrite Nat.add_succ_r in Hf. exact Hf.
    + now injection Hy.
    + intros i Hi. specialize (HW (S i) ltac:(lia)). rewrite Nat.add_succ_r in HW. exact HW.
Qed.
Lemma eval_index_is k o f ys (s : N) : In (k, o) rules -> length ys = length (@gl_points N k o) ->
  (forall i, i < length (@gl_points N k o) -> f i (nth i (gl_points k o) []) = Ok (nth i ys n0)) ->
  q_eval_index k o f s = Ok (s + wsum (nweights k o) ys)%num.
Proof.
  intros H Hy Hf. unfold q_eval_index. rewrite weights_ok by auto. cbn [bind]. rewrite rule_len by auto. rewrite Nat.eqb_refl. cbn [assert_ bind]. rewrite <- rule_len by auto.
  unfold for_. rewrite Nat.sub_0_r. apply loop_index; auto. now rewrite rule_len.
Qed.
Lemma eval_is_index k o f (s : N) : q_eval k o f s = q_eval_index k o (fun _ => f) s.
Proof. reflexivity. Qed.
Lemma eval_is k o f (s : N) : In (k, o) rules -> q_eval k o (fun p => Ok (f p)) s = Ok (s + wsum (nweights k o) (map f (gl_points k o)))%num.
Proof.
  intros H. rewrite eval_is_index. apply eval_index_is; auto; [apply map_length|]. intros i Hi. f_equal. rewrite (nth_indep _ _ (f [])) by (rewrite map_length; auto).
  now rewrite map_nth.
Qed.
Lemma wsum_lin ws a b (f g : list N -> N) ps : wsum ws (map (fun p => a * f p + b * g p)%num ps) = (a * wsum ws (map f ps) + b * wsum ws (map g ps))%num.
Proof. revert ps. induction ws as [|w ws IH]; intros [|p ps]; cbn; try ring. rewrite IH. ring. Qed.
Theorem eval_linear k o a b f g : In (k, o) rules -> exists u v : N,
  q_eval k o (fun p => Ok (f p)) n0 = Ok u /\ q_eval k o (fun p => Ok (g p)) n0 = Ok v /\ q_eval k o (fun p => Ok (a * f p + b * g p)%num) n0 = Ok (a * u + b * v)%num.
Proof.
  intros H. eexists. eexists. split; [now apply eval_is|]. split; [now apply eval_is|]. rewrite eval_is by auto. f_equal. rewrite wsum_lin. ring.
Qed.
Theorem eval_start k o f (s : N) : In (k, o) rules -> exists u : N, q_eval k o (fun p => Ok (f p)) n0 = Ok u /\ q_eval k o (fun p => Ok (f p)) s = Ok (s + u)%num.
Proof. intros H. eexists. split; [now apply eval_is|]. rewrite eval_is by auto. f_equal. ring. Qed.
End Gen.

(** *** over the reals *)
Lemma nofposR p : @nofpos NumR p = IZR (Zpos p).
Proof.
  induction p as [p IH|p IH|]; cbn [nofpos]; [| |reflexivity]; rewrite IH; cbn [T NumR nadd n1].
  - rewrite (Pos2Z.inj_xI p), plus_IZR, mult_IZR. lra.
  - rewrite (Pos2Z.inj_xO p), mult_IZR. lra.
Qed.
Lemma decR z k : @dec NumR z k = (IZR z / (10 ^ k))%R.
Proof.
  assert (Ht : forall k, @ten NumR k = (10 ^ k)%R) by (induction k0 as [|j IH]; cbn [ten]; [reflexivity|rewrite IH, nofposR; reflexivity]).
  destruct z as [|p|p]; unfold dec; rewrite ?Ht, ?nofposR; cbn [T NumR ndiv n0 nopp].
  - unfold Rdiv. ring.
  - reflexivity.
  - change (IZR (Zneg p)) with (- IZR (Zpos p))%R. unfold Rdiv. ring.
Qed.
Lemma vol1 : @unit_volume NumR 1 = 1%R.
Proof. unfold unit_volume. change (Z.to_nat (u_factorial 1)) with 1. cbn. lra. Qed.
Lemma vol2 : @unit_volume NumR 2 = (1 / 2)%R.
Proof. unfold unit_volume. change (Z.to_nat (u_factorial 2)) with 2. cbn. lra. Qed.
Ltac opsQ := rewrite ?vol1, ?vol2, ?decR; cbn [T NumR nadd nmul nsub ndiv nopp n0 n1]; change (T NumR) with R in *.
Theorem points_in k o p : In (k, o) rules -> In p (@gl_points NumR k o) -> length p = k /\ in_simplex p.
Proof.
  intros H Hp. unfold in_simplex. caseR H; cbn [gl_points gl_table fst In] in Hp; repeat (destruct Hp as [<-|Hp]; [|]); try destruct Hp;
  (split; [reflexivity|]); (split; [repeat constructor; opsQ; lra|cbn [fold_right]; opsQ; lra]).
Qed.
(** moments *)
Definition mval (es : list nat) : R := match es with [a] => / INR (S a) | [a; b] => INR (fact a * fact b) / INR (fact (a + b + 2)) | _ => 0 end.
Lemma int_pow a : is_RInt (fun x => x ^ a)%R 0 1 (/ INR (S a)).
Proof.
  replace (/ INR (S a))%R with (minus (1 ^ S a / INR (S a)) (0 ^ S a / INR (S a)))%R.
  2:{ unfold minus, plus, opp; cbn -[INR pow]. rewrite pow1, pow_i by lia. field. apply not_0_INR. lia. }
  apply (is_RInt_derive (fun x => x ^ S a / INR (S a))%R (fun x => x ^ a)%R).
  - intros x _. auto_derive; [auto|]. change (match a with O => 1%R | S _ => (INR a + 1)%R end) with (INR (S a)). field. apply not_0_INR. lia.
  - intros x _. apply continuity_pt_filterlim. apply derivable_continuous_pt. apply derivable_pt_pow.
Qed.
Lemma fact_S_R n : INR (fact (S n)) = (INR (S n) * INR (fact n))%R.
Proof. rewrite <- mult_INR. reflexivity. Qed.
Lemma fact_nz n : INR (fact n) <> 0%R.
Proof. apply not_0_INR. apply fact_neq_0. Qed.
Lemma beta b : forall a, is_RInt (fun x => x ^ a * (1 - x) ^ b)%R 0 1 (INR (fact a) * INR (fact b) / INR (fact (S (a + b))))%R.
Proof.
  induction b as [|b IH]; intros a.
  - rewrite Nat.add_0_r, fact_S_R. eapply is_RInt_ext; [|replace (INR (fact a) * INR (fact 0) / (INR (S a) * INR (fact a)))%R with (/ INR (S a))%R; [apply (int_pow a)|]].
    + intros x _. cbn. lra.
    + change (INR (fact 0)) with 1%R. field. split; [apply fact_nz|apply (not_0_INR (S a)); lia].
  - pose proof (is_RInt_minus _ _ _ _ _ _ (IH a) (IH (S a))) as M.
    replace (INR (fact a) * INR (fact (S b)) / INR (fact (S (a + S b))))%R with (minus (INR (fact a) * INR (fact b) / INR (fact (S (a + b))))%R (INR (fact (S a)) * INR (fact b) / INR (fact (S (S a + b))))%R).
    + eapply is_RInt_ext; [|exact M]. intros x _. unfold minus, plus, opp; cbn. ring.
    + unfold minus, plus, opp; cbn -[INR fact]. replace (S (a + S b)) with (S (S (a + b))) by lia. replace (S (S a + b)) with (S (S (a + b))) by lia.
      rewrite !(fact_S_R (S (a + b))), (fact_S_R a), (fact_S_R b). rewrite !S_INR, plus_INR. pose proof (pos_INR a). pose proof (pos_INR b). field. split; [apply fact_nz|lra].
Qed.
Lemma int_inner a b x : (0 <= x <= 1)%R -> is_RInt (fun y => x ^ a * y ^ b)%R 0 (1 - x) (x ^ a * ((1 - x) ^ S b / INR (S b)))%R.
Proof.
  intros Hx. assert (Hn : INR (S b) <> 0%R) by (apply not_0_INR; lia).
  assert (P : is_RInt (fun y => y ^ b)%R 0 (1 - x) ((1 - x) ^ S b / INR (S b))%R).
  { replace ((1 - x) ^ S b / INR (S b))%R with (minus ((1 - x) ^ S b / INR (S b)) (0 ^ S b / INR (S b)))%R.
    2:{ unfold minus, plus, opp; cbn -[INR pow]. rewrite pow_i by lia. field. auto. }
    apply (is_RInt_derive (fun x => x ^ S b / INR (S b))%R (fun x => x ^ b)%R).
    - intros y _. auto_derive; [auto|]. change (match b with O => 1%R | S _ => (INR b + 1)%R end) with (INR (S b)). field. auto.
    - intros y _. apply continuity_pt_filterlim. apply derivable_continuous_pt. apply derivable_pt_pow. }
  exact (is_RInt_scal _ _ _ (x ^ a)%R _ P).
Qed.
Lemma int_eq (f g : R -> R) a b (I J : R) : is_RInt f a b I -> (forall x, f x = g x) -> I = J -> is_RInt g a b J.
Proof. intros H E <-. eapply is_RInt_ext; [|exact H]. intros x _. apply E. Qed.
Definition gmono (es : list nat) (x : R) : R := match es with [a; b] => (x ^ a * ((1 - x) ^ S b / INR (S b)))%R | _ => 0%R end.
Lemma npowR (x : R) n : @npow NumR x n = (x ^ n)%R.
Proof. induction n as [|n IH]; cbn [npow]; [reflexivity|rewrite IH; reflexivity]. Qed.
Lemma mono1 a (x : R) : @monomial NumR [a] [x] = (x ^ a)%R.
Proof. change (@npow NumR x a * 1 = x ^ a :> R)%R. rewrite npowR. ring. Qed.
Lemma mono2 a b (x y : R) : @monomial NumR [a; b] [x; y] = (x ^ a * y ^ b)%R.
Proof. change (@npow NumR x a * (@npow NumR y b * 1) = x ^ a * y ^ b :> R)%R. rewrite (npowR x), (npowR y). ring. Qed.
Definition lpoly (l : list (R * list nat)) (x : list R) : R := fold_right (fun p s => fst p * @monomial NumR (snd p) x + s)%R 0%R l.
Definition lmom (l : list (R * list nat)) : R := fold_right (fun p s => fst p * mval (snd p) + s)%R 0%R l.
Lemma zero_int a b : is_RInt (fun _ : R => 0%R) a b 0%R.
Proof.
  pose proof (is_RInt_const a b 0%R) as C. assert (E : forall z : R, z = scal (b - a)%R 0%R -> is_RInt (fun _ : R => 0%R) a b z) by (intros z ->; exact C).
  apply E. unfold scal; cbn; unfold mult; cbn; ring.
Qed.
Lemma lint1 l : List.Forall (fun p => length (snd p) = 1) l -> is_RInt (fun x => lpoly l [x]) 0 1 (lmom l).
Proof.
  induction 1 as [|(c, es) l E _ IH]; cbn [lpoly lmom fold_right fst snd] in *; [apply zero_int|].
  destruct es as [|a [|]]; try discriminate. pose proof (is_RInt_plus _ _ _ _ _ _ (is_RInt_scal _ _ _ c _ (int_pow a)) IH) as P.
  eapply is_RInt_ext; [|exact P]. intros x _. rewrite mono1. reflexivity.
Qed.
Definition lg (l : list (R * list nat)) (x : R) : R := fold_right (fun p s => fst p * gmono (snd p) x + s)%R 0%R l.
Lemma lint2 l : List.Forall (fun p => length (snd p) = 2) l -> integral 2 (lpoly l) (lmom l).
Proof.
  intros H. exists (lg l). split.
  - intros x Hx. induction H as [|(c, es) l E _ IH]; cbn [lpoly lg fold_right fst snd] in *; [apply zero_int|].
    destruct es as [|a [|b [|]]]; try discriminate. pose proof (is_RInt_plus _ _ _ _ _ _ (is_RInt_scal _ _ _ c _ (int_inner a b x Hx)) IH) as P.
    eapply is_RInt_ext; [|exact P]. intros y _. rewrite mono2. reflexivity.
  - induction H as [|(c, es) l E _ IH]; cbn [lg lmom fold_right fst snd] in *; [apply zero_int|].
    destruct es as [|a [|b [|]]]; try discriminate. assert (Hn : INR (S b) <> 0%R) by (apply not_0_INR; lia).
    pose proof (is_RInt_plus _ _ _ _ _ _ (is_RInt_scal _ _ _ c _ (is_RInt_scal _ _ _ (/ INR (S b))%R _ (beta (S b) a))) IH) as P.
    eapply int_eq; [exact P| |].
    + intros x. unfold lg, gmono, plus, scal; cbn -[INR pow]. unfold mult; cbn -[INR pow]. unfold Rdiv. ring.
    + unfold lmom, plus, scal; cbn -[INR fact mval]. unfold mult; cbn -[INR fact mval]. unfold mval. rewrite mult_INR. replace (a + b + 2) with (S (a + S b)) by lia. rewrite (fact_S_R b).
      field. split; [apply fact_nz|auto].
Qed.
Lemma integral_unique k f I J : integral k f I -> integral k f J -> I = J.
Proof.
  destruct k as [|[|[|]]]; cbn [integral]; try contradiction.
  - intros A B. rewrite <- (is_RInt_unique _ _ _ _ A). now rewrite <- (is_RInt_unique _ _ _ _ B).
  - intros (g & Hg & A) (h & Hh & B). assert (C : is_RInt g 0 1 J).
    { eapply is_RInt_ext; [|exact B]. rewrite Rmin_left, Rmax_right by lra. intros x Hx. pose proof (Hg x ltac:(lra)) as G1. pose proof (Hh x ltac:(lra)) as G2.
      rewrite <- (is_RInt_unique _ _ _ _ G1). now rewrite <- (is_RInt_unique _ _ _ _ G2). }
    rewrite <- (is_RInt_unique _ _ _ _ A). now rewrite <- (is_RInt_unique _ _ _ _ C).
Qed.
Lemma wsum_poly ws ps l : wsum (N := NumR) ws (map (lpoly l) ps) = fold_right (fun p s => fst p * wsum (N := NumR) ws (map (@monomial NumR (snd p)) ps) + s)%R 0%R l.
Proof.
  induction l as [|(c, es) l IH]; cbn [fold_right fst snd].
  - revert ps. induction ws as [|w ws IHw]; intros [|p ps]; cbn [wsum map]; try reflexivity. rewrite IHw. cbn [lpoly fold_right nadd nmul n0 NumR]. change (T NumR) with R. ring.
  - rewrite <- IH. clear IH. revert ps. induction ws as [|w ws IHw]; intros [|p ps]; cbn [wsum map]; cbn [nadd nmul n0 NumR]; change (T NumR) with R; try ring. rewrite IHw. cbn [lpoly fold_right fst snd]. fold (lpoly l p). change (T NumR) with R. ring.
Qed.
Lemma combine_all {A B} (P : B -> Prop) (c : list A) (l : list B) : List.Forall P l -> List.Forall (fun p => P (snd p)) (combine c l).
Proof. revert c. induction l as [|x l IH]; intros [|a c] H; cbn; constructor; inversion H; subst; auto. Qed.
Lemma near_sum eps (c : list R) (l : list (list nat)) (W M : list nat -> R) : length c = length l -> (0 <= eps)%R -> List.Forall (fun es => Rabs (W es - M es) <= eps)%R l ->
  (Rabs (fold_right (fun p s => fst p * W (snd p) + s) 0 (combine c l) - fold_right (fun p s => fst p * M (snd p) + s) 0 (combine c l)) <= eps * abs_total c)%R.
Proof.
  intros Hl He. revert c Hl. induction l as [|es l IH]; intros [|a c] Hl H; try discriminate; cbn [combine fold_right abs_total fst snd].
  - rewrite Rminus_diag_eq by reflexivity. rewrite Rabs_R0. lra.
  - inversion H; subst. specialize (IH c ltac:(now injection Hl) H3). fold (abs_total c).
    match type of IH with (Rabs (?x - ?y) <= _)%R => set (u := x) in *; set (v := y) in * end. clearbody u v.
    replace (a * W es + u - (a * M es + v))%R with (a * (W es - M es) + (u - v))%R by ring.
    eapply Rle_trans; [apply Rabs_triang|]. rewrite Rabs_mult. pose proof (Rabs_pos a). assert (Rabs a * Rabs (W es - M es) <= Rabs a * eps)%R by (apply Rmult_le_compat_l; auto). lra.
Qed.

Definition eps15 : R := (2 / 10 ^ 15)%R.
Lemma moments k o : In (k, o) rules -> List.Forall (fun es => length es = k /\ Rabs (wsum (N := NumR) (nweights k o) (map (@monomial NumR es) (gl_points k o)) - mval es) <= eps15)%R (exponents k (degree k o)).
Proof.
  intros H. caseR H; cbn [degree Nat.mul Nat.add Nat.sub]; cbn [exponents seq flat_map map app Nat.sub];
  repeat (constructor; [split; [reflexivity|]; cbn [nweights gl_points gl_table fst snd map wsum monomial npow]; opsQ; unfold mval, eps15; cbn [fact Nat.mul Nat.add INR]; apply Rabs_le; split; lra|]); constructor.
Qed.
Lemma poly_lpoly k d c x : @poly NumR k d c x = lpoly (combine c (exponents k d)) x.
Proof. reflexivity. Qed.
Theorem eval_exact k o (c : list R) I : In (k, o) rules -> length c = length (exponents k (degree k o)) -> integral k (@poly NumR k (degree k o) c) I ->
  returns (q_eval (N := NumR) k o (fun p => Ok (@poly NumR k (degree k o) c p)) 0%R) (fun v => Rabs (v - I) <= 2 / 10 ^ 15 * abs_total c)%R.
Proof.
  intros H Hc HI. pose proof (moments k o H) as M. eexists. split; [now apply (eval_is NumR_field)|].
  change (map (@poly NumR k (degree k o) c) (@gl_points NumR k o)) with (map (lpoly (combine c (exponents k (degree k o)))) (@gl_points NumR k o)). rewrite wsum_poly.
  assert (E : I = lmom (combine c (exponents k (degree k o)))).
  { apply (integral_unique k (@poly NumR k (degree k o) c)); auto. change (integral k (lpoly (combine c (exponents k (degree k o)))) (lmom (combine c (exponents k (degree k o))))).
    assert (L : List.Forall (fun p => length (snd p) = k) (combine c (exponents k (degree k o)))).
    { apply combine_all with (P := fun es => length es = k). eapply List.Forall_impl; [|exact M]. cbn. tauto. }
    caseR H; (now apply lint1) || (now apply lint2). }
  rewrite E. cbn [nadd NumR n0]. rewrite Rplus_0_l.
  apply (near_sum eps15 c (exponents k (degree k o)) (fun es => wsum (N := NumR) (nweights k o) (map (@monomial NumR es) (gl_points k o))) mval); auto.
  - unfold eps15. lra.
  - eapply List.Forall_impl; [|exact M]. cbn. tauto.
Qed.
(** Every polynomial has an integral. *)
Theorem integrable k o (c : list R) : In (k, o) rules -> exists I, integral k (@poly NumR k (degree k o) c) I.
Proof.
  intros H. exists (lmom (combine c (exponents k (degree k o)))). pose proof (moments k o H) as M.
  change (integral k (lpoly (combine c (exponents k (degree k o)))) (lmom (combine c (exponents k (degree k o))))).
  assert (L : List.Forall (fun p => length (snd p) = k) (combine c (exponents k (degree k o)))).
  { apply combine_all with (P := fun es => length es = k). eapply List.Forall_impl; [|exact M]. cbn. tauto. }
  caseR H; (now apply lint1) || (now apply lint2).
Qed.
Lemma wsum_nonneg (ws ys : list R) : List.Forall (fun w => 0 <= w)%R ws -> List.Forall (fun y => 0 <= y)%R ys -> (0 <= wsum (N := NumR) ws ys)%R.
Proof.
  intros H. revert ys. induction H as [|w ws Hw _ IH]; intros [|y ys] Hy; cbn [wsum]; cbn [nadd nmul n0 NumR]; try lra. inversion Hy; subst. specialize (IH ys H2).
  apply Rplus_le_le_0_compat; auto. now apply Rmult_le_pos.
Qed.
Theorem eval_nonneg k o (f : list R -> R) : In (k, o) rules -> (k, o) <> (2, 3) -> (forall p, length p = k -> in_simplex p -> 0 <= f p)%R ->
  returns (q_eval (N := NumR) k o (fun p => Ok (f p)) 0%R) (fun v => 0 <= v)%R.
Proof.
  intros H Hn Hf. eexists. split; [now apply (eval_is NumR_field)|]. cbn [nadd NumR n0]. rewrite Rplus_0_l. apply wsum_nonneg.
  - caseR H; try congruence; cbn [nweights gl_table snd map]; repeat constructor; opsQ; lra.
  - apply List.Forall_forall. intros y Hy. apply in_map_iff in Hy as (p & <- & Hp). destruct (points_in k o p H Hp) as (A & B). auto.
Qed.
(** *** the sum with the getters' points and weights *)
Section Sum.
Context {N : Num}.
Hypothesis HF : FieldLaws N.
Add Field sfld : (fl_field N HF).
Lemma bigsum_head n (f : nat -> N) : bigsum (S n) f = (f 0 + bigsum n (fun i => f (S i)))%num.
Proof. induction n as [|n IH]; cbn [bigsum] in *; [ring|]. rewrite IH. ring. Qed.
Lemma wsum_nth (ws ys : list N) : length ws = length ys -> wsum ws ys = bigsum (length ws) (fun i => nth i ws n0 * nth i ys n0)%num.
Proof.
  revert ys. induction ws as [|w ws IH]; intros [|y ys] Hl; try discriminate; [reflexivity|]. cbn [wsum length]. rewrite IH by now injection Hl.
  symmetry. rewrite bigsum_head. reflexivity.
Qed.
Theorem eval_sum k o f (s : N) : In (k, o) rules -> exists ws, gl_weights k o = Ok ws /\ length ws = length (@gl_points N k o) /\
  q_eval_index k o (fun i p => Ok (f i p)) s = Ok (s + bigsum (length ws) (fun i => nth i ws n0 * f i (nth i (gl_points k o) [])))%num.
Proof.
  intros H. exists (nweights k o). split; [now apply weights_ok|]. pose proof (rule_len (N := N) k o H) as L. split; [auto|].
  set (ys := map (fun i => f i (nth i (@gl_points N k o) [])) (seq 0 (length (@gl_points N k o)))).
  assert (Hn : forall i, i < length (@gl_points N k o) -> nth i ys n0 = f i (nth i (gl_points k o) [])).
  { intros i Hi. unfold ys. rewrite (nth_indep _ _ (f 0 (nth 0 (gl_points k o) []))) by (rewrite map_length, seq_length; auto).
    rewrite (map_nth (fun i => f i (nth i (@gl_points N k o) []))). now rewrite seq_nth. }
  assert (Ly : length ys = length (@gl_points N k o)) by (unfold ys; now rewrite map_length, seq_length).
  rewrite (eval_index_is HF k o _ ys); auto.
  - f_equal. f_equal. rewrite wsum_nth by congruence. apply bigsum_ext. intros i Hi. now rewrite Hn by congruence.
  - intros i Hi. now rewrite Hn.
Qed.
End Sum.
Theorem weights_total k o : In (k, o) rules -> returns (@gl_weights NumR k o) (fun ws => Rabs (fold_right Rplus 0 ws - @unit_volume NumR k) <= 2 / 10 ^ 15)%R.
Proof.
  intros H. eexists. split; [now apply weights_ok|]. caseR H; cbn [nweights gl_table snd map fold_right]; opsQ; apply Rabs_le; split; lra.
Qed.
Definition top (k o : nat) : list R := repeat 0%R (length (exponents k (S (degree k o))) - 1) ++ [1%R].
Theorem degree_sharp k o : In (k, o) rules -> exists (c : list R) I v, length c = length (exponents k (S (degree k o))) /\ integral k (@poly NumR k (S (degree k o)) c) I /\
  q_eval (N := NumR) k o (fun p => Ok (@poly NumR k (S (degree k o)) c p)) 0%R = Ok v /\ (1 / 10 ^ 4 <= Rabs (v - I))%R.
Proof.
  intros H. exists (top k o), (lmom (combine (top k o) (exponents k (S (degree k o))))). eexists. split; [caseR H; reflexivity|].
  split.
  - change (integral k (lpoly (combine (top k o) (exponents k (S (degree k o))))) (lmom (combine (top k o) (exponents k (S (degree k o)))))).
    caseR H; (apply lint1 || apply lint2); repeat constructor.
  - split; [now apply (eval_is NumR_field)|]. caseR H; cbn -[INR dec Rabs unit_volume nofpos pow]; opsQ; cbn [fact Nat.mul Nat.add INR];
    match goal with |- (_ <= Rabs ?x)%R => destruct (Rle_dec 0 x); [rewrite Rabs_pos_eq by auto|rewrite Rabs_left1 by lra]; lra end.
Qed.
Definition bump (p : list R) : R := match p with x :: _ => ((x - 1 / 5) * (x - 3 / 5) * ((x - 1 / 5) * (x - 3 / 5)))%R | [] => 0%R end.
Theorem nonneg_fails : (forall p, 0 <= bump p)%R /\ returns (q_eval (N := NumR) 2 3 (fun p => Ok (bump p)) 0%R) (fun v => v < 0)%R.
Proof.
  split.
  - intros [|x p]; cbn [bump]; [lra|]. apply Rle_0_sqr.
  - eexists. split; [apply (eval_is NumR_field); cbn; auto 10|]. cbn -[INR dec unit_volume nofpos pow]. opsQ. lra.
Qed.
