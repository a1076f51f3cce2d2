(** cg, pcg and CG::jacobi compute the recurrences of CGMath. *)
From Coq Require Import List Arith Bool Lia Ring Field.
From Verif Require Import Base BaseProofs Num OrdField Spec SpecProofs VectorModel VectorSpec VectorProofs MatI MatIProofs MatOps
  DetSpec DetProofs DetMult LUModel LUProofs CholProofs CGMath IterModel.
Import ListNotations.
Local Open Scope nat_scope.
Open Scope res_scope.

Lemma Nat_iter_succ_r {A} m (f : A -> A) (x : A) : Nat.iter (S m) f x = Nat.iter m f (f x).
Proof. induction m as [|m IH]; [reflexivity|]. change (f (Nat.iter (S m) f x) = f (Nat.iter m f (f x))). now rewrite IH. Qed.

Section V.
Context {N : Num}.
(** The vector with entries f 0, ..., f (n-1). *)
Definition V (n : nat) (f : nat -> N) : list N := map f (seq 0 n).
Lemma V_len n f : length (V n f) = n.
Proof. unfold V. now rewrite map_length, seq_length. Qed.
Lemma V_nth n f i d : i < n -> nth i (V n f) d = f i.
Proof. apply nth_map_seq. Qed.
Lemma V_ext n f g : (forall i, i < n -> f i = g i) -> V n f = V n g.
Proof. intros H. apply map_ext_in. intros i Hi. apply in_seq in Hi. apply H. lia. Qed.
Lemma V_self (v : list N) n d : length v = n -> v = V n (fun i => nth i v d).
Proof. intros <-. unfold V. symmetry. apply list_eq_nth with d; [now rewrite map_length, seq_length|]. intros i Hi.
  rewrite map_length, seq_length in Hi. now rewrite nth_map_seq. Qed.
Lemma V_zip op n (f g : nat -> N) : v_inplace op (V n f) (V n g) = Ok (V n (fun i => op (f i) (g i))).
Proof.
  rewrite inplace_ok by (now rewrite !V_len). f_equal. unfold zip, V. generalize (seq 0 n) as l. induction l; cbn; congruence.
Qed.
Lemma V_sub n (f g : nat -> N) : v_sub (V n f) (V n g) = Ok (V n (fun i => f i - g i)%num).
Proof. apply V_zip. Qed.
Lemma V_sub_eq n (f g : nat -> N) : v_sub_eq (V n f) (V n g) = Ok (V n (fun i => f i - g i)%num).
Proof. apply V_zip. Qed.
Lemma V_add n (f g : nat -> N) : v_add (V n f) (V n g) = Ok (V n (fun i => f i + g i)%num).
Proof. apply V_zip. Qed.
Lemma V_add_eq n (f g : nat -> N) : v_add_eq (V n f) (V n g) = Ok (V n (fun i => f i + g i)%num).
Proof. apply V_zip. Qed.
Lemma V_scale n (f : nat -> N) x : v_scale (V n f) x = Ok (V n (fun i => f i * x)%num).
Proof. unfold v_scale. rewrite scalar_ok. unfold V. now rewrite map_map. Qed.
Lemma V_dot n (f g : nat -> N) : v_dot (V n f) (V n g) = Ok (dot n f g).
Proof.
  rewrite dot_ok by (now rewrite !V_len). rewrite V_len. f_equal. apply bigsum_ext. intros i Hi. now rewrite !V_nth.
Qed.
Lemma V_magSqr n (f : nat -> N) : v_magSqr (V n f) = Ok (dot n f f).
Proof. apply V_dot. Qed.
Lemma V_mulv {M : MatOps N} (HL : OpLaws M) (A : M) n a f : holds A n n a -> mo_mulv A (V n f) = Ok (V n (mulvec n a f)).
Proof.
  intros H. rewrite (ol_mulv M HL A n n a) by (auto; apply V_len). f_equal. apply V_ext. intros i Hi.
  apply bigsum_ext. intros j Hj. now rewrite V_nth.
Qed.
End V.

Section Loops.
Context {N : Num} {M : MatOps N} (HL : OpLaws M).
Variables (A C : M) (n : nat) (a c : nat -> nat -> N).
Hypotheses (HA : holds A n n a).

(** The loop stops after step m: the first one whose residual is small, or the last one allowed. *)
Definition stops (step : cgst N -> cgst N) (fuel : nat) (eps2 : N) (s : cgst N) (m : nat) : Prop :=
  m < fuel /\
  (forall m', m' < m -> let r := sr (Nat.iter (S m') step s) in nltb (dot n r r) eps2 = false) /\
  (S m < fuel -> let r := sr (Nat.iter (S m) step s) in nltb (dot n r r) eps2 = true).

Lemma stops_S step f eps2 s m : nltb (dot n (sr (step s)) (sr (step s))) eps2 = false -> stops step f eps2 (step s) m ->
  stops step (S f) eps2 s (S m).
Proof.
  intros E (H1 & H2 & H3). split; [lia|]. split.
  - intros [|m'] Hm'; [exact E|]. cbn zeta. rewrite Nat_iter_succ_r. apply H2. lia.
  - intros Hm. cbn zeta. rewrite Nat_iter_succ_r. apply H3. lia.
Qed.

Lemma pcg_loop_ok (HC : holds C n n c) maxIter eps2 fuel : forall k s, k + S fuel = maxIter ->
  exists m, stops (pcg_step n a c) (S fuel) eps2 s m /\
    pcg_loop (S fuel) k maxIter eps2 A C (V n (sx s)) (V n (sr s)) (V n (sp s)) (sl s) =
    Ok (V n (sx (Nat.iter (S m) (pcg_step n a c) s)), k + m).
Proof.
  induction fuel as [|f IH]; intros k s Hk.
  - exists 0. split; [split; [lia|split; lia]|]. cbn [pcg_loop].
    rewrite (V_mulv HL A n a) by auto. cbn [bind]. rewrite V_dot. cbn [bind]. rewrite V_scale. cbn [bind].
    rewrite V_add_eq. cbn [bind]. rewrite V_scale. cbn [bind]. rewrite V_sub_eq. cbn [bind]. rewrite V_magSqr. cbn [bind].
    replace (k =? maxIter - 1) with true by (symmetry; apply Nat.eqb_eq; lia). rewrite orb_true_r. rewrite Nat.add_0_r. reflexivity.
  - change (pcg_loop (S (S f)) k) with (fun maxIter eps2 (a c : M) x r p (l1 : N) =>
      let* t := mo_mulv a p in let* tp := v_dot t p in let ak := (l1 / tp)%num in let* dx := v_scale p ak in
      let* x := v_add_eq x dx in let* at_ := v_scale t ak in let* r := v_sub_eq r at_ in let* rr := v_magSqr r in
      if nltb rr eps2 || (k =? maxIter - 1) then Ok (x, k)
      else let* z := mo_mulv c r in let* l2 := v_dot r z in let* bp := v_scale p (l2 / l1)%num in let* p := v_add z bp in
        pcg_loop (S f) (S k) maxIter eps2 a c x r p l2). cbv beta.
    rewrite (V_mulv HL A n a) by auto. cbn [bind]. rewrite V_dot. cbn [bind]. cbv zeta. rewrite V_scale. cbn [bind].
    rewrite V_add_eq. cbn [bind]. rewrite V_scale. cbn [bind]. rewrite V_sub_eq. cbn [bind]. rewrite V_magSqr. cbn [bind].
    replace (k =? maxIter - 1) with false by (symmetry; apply Nat.eqb_neq; lia). rewrite orb_false_r.
    match goal with |- context [nltb ?x eps2] => change x with (dot n (sr (pcg_step n a c s)) (sr (pcg_step n a c s))) end.
    destruct (nltb _ eps2) eqn:E.
    + exists 0. split; [|now rewrite Nat.add_0_r]. split; [lia|]. split; [lia|]. intros _. exact E.
    + rewrite (V_mulv HL C n c) by auto. cbn [bind]. rewrite V_dot. cbn [bind]. rewrite V_scale. cbn [bind]. rewrite V_add. cbn [bind].
      destruct (IH (S k) (pcg_step n a c s)) as (m & Hs & Em); [lia|]. exists (S m). split; [now apply stops_S|].
      rewrite (Nat_iter_succ_r (S m)). etransitivity; [exact Em|]. f_equal. f_equal. lia.
Qed.
Lemma cg_loop_ok maxIter eps2 fuel : forall k s, k + S fuel = maxIter ->
  exists m, stops (cg_step n a) (S fuel) eps2 s m /\
    cg_loop (S fuel) k maxIter eps2 A (V n (sx s)) (V n (sr s)) (V n (sp s)) (sl s) =
    Ok (V n (sx (Nat.iter (S m) (cg_step n a) s)), k + m).
Proof.
  induction fuel as [|f IH]; intros k s Hk.
  - exists 0. split; [split; [lia|split; lia]|]. cbn [cg_loop].
    rewrite (V_mulv HL A n a) by auto. cbn [bind]. rewrite V_dot. cbn [bind]. rewrite V_scale. cbn [bind].
    rewrite V_add_eq. cbn [bind]. rewrite V_scale. cbn [bind]. rewrite V_sub. cbn [bind]. rewrite V_magSqr. cbn [bind].
    replace (k =? maxIter - 1) with true by (symmetry; apply Nat.eqb_eq; lia). rewrite orb_true_r. rewrite Nat.add_0_r. reflexivity.
  - change (cg_loop (S (S f)) k) with (fun maxIter eps2 (a : M) x r p (rs : N) =>
      let* t := mo_mulv a p in let* tp := v_dot t p in let ak := (rs / tp)%num in let* dx := v_scale p ak in
      let* x := v_add_eq x dx in let* at_ := v_scale t ak in let* l := v_sub r at_ in let* ls := v_magSqr l in
      if nltb ls eps2 || (k =? maxIter - 1) then Ok (x, k)
      else let bk := (ls / rs)%num in let* br := v_scale r bk in let* p := v_add l br in
        cg_loop (S f) (S k) maxIter eps2 a x l p ls). cbv beta.
    rewrite (V_mulv HL A n a) by auto. cbn [bind]. rewrite V_dot. cbn [bind]. cbv zeta. rewrite V_scale. cbn [bind].
    rewrite V_add_eq. cbn [bind]. rewrite V_scale. cbn [bind]. rewrite V_sub. cbn [bind]. rewrite V_magSqr. cbn [bind].
    replace (k =? maxIter - 1) with false by (symmetry; apply Nat.eqb_neq; lia). rewrite orb_false_r.
    match goal with |- context [nltb ?x eps2] => change x with (dot n (sr (cg_step n a s)) (sr (cg_step n a s))) end.
    destruct (nltb _ eps2) eqn:E.
    + exists 0. split; [|now rewrite Nat.add_0_r]. split; [lia|]. split; [lia|]. intros _. exact E.
    + rewrite V_scale. cbn [bind]. rewrite V_add. cbn [bind].
      destruct (IH (S k) (cg_step n a s)) as (m & Hs & Em); [lia|]. exists (S m). split; [now apply stops_S|].
      rewrite (Nat_iter_succ_r (S m)). etransitivity; [exact Em|]. f_equal. f_equal. lia.
Qed.

Definition at_step (step : cgst N -> cgst N) (s : cgst N) (maxIter : nat) (eps2 : N) (x : list N) (it : nat) : Prop :=
  (maxIter = 0 /\ x = V n (sx s) /\ it = 1) \/
  exists m, stops step maxIter eps2 s m /\ x = V n (sx (Nat.iter (S m) step s)) /\ it = S m.

Lemma pcg_run_V (HC : holds C n n c) fb fx maxIter eps :
  exists x it, pcg A (V n fb) C (V n fx) maxIter eps = Ok (x, it) /\
    at_step (pcg_step n a c) (pcg_start n a c fb fx) maxIter (eps * eps)%num x it.
Proof.
  unfold pcg. rewrite (holds_rows _ _ _ _ HA), (holds_cols _ _ _ _ HA), (holds_rows _ _ _ _ HC), (holds_cols _ _ _ _ HC).
  rewrite !Nat.eqb_refl. cbn [negb].
  rewrite (V_mulv HL A n a) by auto. cbn [bind].
  rewrite V_sub. cbn [bind]. rewrite (V_mulv HL C n c) by auto. cbn [bind]. rewrite V_dot. cbn [bind].
  destruct maxIter as [|f].
  - cbn [pcg_loop bind fst snd]. eexists _, _. split; [reflexivity|]. left. auto.
  - destruct (pcg_loop_ok HC (S f) (eps * eps)%num f 0 (pcg_start n a c fb fx) eq_refl)
      as (m & Hs & E).
    cbn [pcg_start sx sr sp sl] in E. rewrite E. cbn [bind fst snd]. eexists _, _. split; [reflexivity|]. right.
    exists m. split; auto. split; auto. lia.
Qed.
Lemma cg_run_V fb fx maxIter eps :
  exists x it, cg A (V n fb) (V n fx) maxIter eps = Ok (x, it) /\
    at_step (cg_step n a) (cg_start n a fb fx) maxIter (eps * eps)%num x it.
Proof.
  unfold cg. rewrite (holds_rows _ _ _ _ HA), (holds_cols _ _ _ _ HA).
  rewrite !Nat.eqb_refl. cbn [negb].
  rewrite (V_mulv HL A n a) by auto. cbn [bind].
  rewrite V_sub. cbn [bind]. rewrite V_magSqr. cbn [bind].
  destruct maxIter as [|f].
  - cbn [cg_loop bind fst snd]. eexists _, _. split; [reflexivity|]. left. auto.
  - destruct (cg_loop_ok (S f) (eps * eps)%num f 0 (cg_start n a fb fx) eq_refl)
      as (m & Hs & E).
    cbn [cg_start sx sr sp sl] in E. rewrite E. cbn [bind fst snd]. eexists _, _. split; [reflexivity|]. right.
    exists m. split; auto. split; auto. lia.
Qed.
Lemma pcg_run (HC : holds C n n c) b x0 maxIter eps : length b = n -> length x0 = n ->
  exists x it, pcg A b C x0 maxIter eps = Ok (x, it) /\
    at_step (pcg_step n a c) (pcg_start n a c (fun i => nth i b n0) (fun i => nth i x0 n0)) maxIter (eps * eps)%num x it.
Proof.
  intros Hb Hx. pose proof (pcg_run_V HC (fun i => nth i b n0) (fun i => nth i x0 n0) maxIter eps) as H.
  now rewrite <- (V_self b n n0 Hb), <- (V_self x0 n n0 Hx) in H.
Qed.
Lemma cg_run b x0 maxIter eps : length b = n -> length x0 = n ->
  exists x it, cg A b x0 maxIter eps = Ok (x, it) /\
    at_step (cg_step n a) (cg_start n a (fun i => nth i b n0) (fun i => nth i x0 n0)) maxIter (eps * eps)%num x it.
Proof.
  intros Hb Hx. pose proof (cg_run_V (fun i => nth i b n0) (fun i => nth i x0 n0) maxIter eps) as H.
  now rewrite <- (V_self b n n0 Hb), <- (V_self x0 n n0 Hx) in H.
Qed.
End Loops.

Section Bad.
Context {N : Num} {M : MatOps N} (HL : OpLaws M).
Implicit Types (A C : M) (b x : list N).
Lemma cg_bad A b x0 maxIter eps : mi_ok A -> 
  (mi_rows A <> mi_cols A -> cg A b x0 maxIter eps = Throw NotSquare) /\
  (mi_rows A = mi_cols A -> length x0 <> mi_cols A -> cg A b x0 maxIter eps = Throw MatrixMulMismatch) /\
  (mi_rows A = mi_cols A -> length x0 = mi_cols A -> length b <> mi_rows A -> cg A b x0 maxIter eps = Throw VectorSizeMismatch).
Proof.
  intros Hok. unfold cg. repeat split.
  - intros H. now rewrite (proj2 (Nat.eqb_neq _ _) H).
  - intros H Hx. rewrite H, Nat.eqb_refl. cbn [negb]. rewrite (ol_mulv_bad M HL) by auto. reflexivity.
  - intros H Hx Hb. rewrite H, Nat.eqb_refl. cbn [negb].
    destruct (ok_holds (ol_mat M HL) A Hok) as (a & Ha). rewrite <- H in *.
    rewrite (ol_mulv M HL A _ _ _ x0 Ha) by congruence. cbn [bind]. unfold v_sub, v_sub_eq. rewrite inplace_mismatch; [reflexivity|].
    rewrite map_length, seq_length. auto.
Qed.
End Bad.
Lemma pcg_bad {N : Num} {M : MatOps N} (A C : M) b x0 maxIter eps :
  (mi_rows A <> mi_cols A \/ mi_rows C <> mi_cols C -> pcg A b C x0 maxIter eps = Throw NotSquare) /\
  (mi_rows A = mi_cols A -> mi_rows C = mi_cols C -> mi_rows A <> mi_rows C -> pcg A b C x0 maxIter eps = Throw MatrixSizeMismatch).
Proof.
  unfold pcg. split.
  - intros [H|H]; [now rewrite (proj2 (Nat.eqb_neq _ _) H)|]. rewrite (proj2 (Nat.eqb_neq _ _) H). now destruct (mi_rows A =? mi_cols A).
  - intros H1 H2 H3. rewrite (proj2 (Nat.eqb_eq _ _) H1), (proj2 (Nat.eqb_eq _ _) H2), (proj2 (Nat.eqb_neq _ _) H3). reflexivity.
Qed.
