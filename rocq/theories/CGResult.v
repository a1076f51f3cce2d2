(** Results about cg, pcg and CG::jacobi: certificate, finite termination, diagonal preconditioner. *)
From Coq Require Import List Arith Bool Lia Ring Field.
From Verif Require Import Base BaseProofs Num OrdField Spec SpecProofs VectorModel VectorSpec VectorProofs MatI MatIProofs MatOps
  DetSpec DetProofs DetMult LUModel LUProofs CholProofs CGMath IterModel CGProofs.
Import ListNotations.
Local Open Scope nat_scope.
Open Scope res_scope.

Section Cert.
Context {N : Num}.
(** |b - A x|^2 *)
Definition residual2 (n : nat) (a : nat -> nat -> N) (b x : list N) : N :=
  bigsum n (fun i => (nth i b n0 - mulvec n a (fun j => nth j x n0) i) * (nth i b n0 - mulvec n a (fun j => nth j x n0) i))%num.
(** A x = b *)
Definition solves (n : nat) (a : nat -> nat -> N) (x b : list N) : Prop :=
  forall i, i < n -> mulvec n a (fun j => nth j x n0) i = nth i b n0.

Lemma resid2 n a b f s x : x = V n (sx s) -> (forall i, i < n -> f i = nth i b n0) -> resid_ok n a f s ->
  residual2 n a b x = dot n (sr s) (sr s).
Proof.
  intros -> Hf H. apply bigsum_ext. intros i Hi. rewrite H, Hf by auto.
  replace (mulvec n a (fun j => nth j (V n (sx s)) n0) i) with (mulvec n a (sx s) i); [reflexivity|].
  apply bigsum_ext. intros j Hj. now rewrite V_nth.
Qed.
Lemma solves_of (HF : FieldLaws N) n a b f s x : x = V n (sx s) -> (forall i, i < n -> f i = nth i b n0) -> resid_ok n a f s ->
  (forall i, i < n -> sr s i = n0) -> solves n a x b.
Proof.
  intros -> Hf H Hz i Hi. specialize (H i Hi). rewrite Hz, Hf in H by auto.
  replace (mulvec n a (fun j => nth j (V n (sx s)) n0) i) with (mulvec n a (sx s) i).
  2:{ apply bigsum_ext. intros j Hj. now rewrite V_nth. }
  destruct (fl_field N HF) as [R _ _ _]. pose proof (Ring_theory.Rsub_def R) as Hs.
  assert (E : (nth i b n0 - mulvec n a (sx s) i + mulvec n a (sx s) i)%num = nth i b n0).
  { rewrite Hs, <- (Ring_theory.Radd_assoc R), (Ring_theory.Radd_comm R (- _)%num), (Ring_theory.Ropp_def R),
      (Ring_theory.Radd_comm R), (Ring_theory.Radd_0_l R). reflexivity. }
  rewrite <- H, (Ring_theory.Radd_0_l R) in E. exact E.
Qed.

Lemma certificate n a b step s maxIter eps2 x it : (forall k, resid_ok n a (fun i => nth i b n0) (Nat.iter k step s)) ->
  at_step n step s maxIter eps2 x it ->
  length x = n /\ 1 <= it /\ it <= Nat.max 1 maxIter /\ (it < maxIter -> nltb (residual2 n a b x) eps2 = true).
Proof.
  intros Hr [(-> & -> & ->)|(m & (S1 & S2 & S3) & -> & ->)].
  - rewrite V_len. repeat split; lia.
  - rewrite V_len. repeat split; try lia. intros Hm. rewrite (resid2 n a b _ _ _ eq_refl (fun _ _ => eq_refl) (Hr (S m))). now apply S3.
Qed.
End Cert.

Section Term.
Context {N : Num} (HO : OrdFieldLaws N).
Let HF : FieldLaws N := of_field N HO.
Add Field termfld : (fl_field N HF).
Implicit Types (a c : nat -> nat -> N) (b x : list N).

Lemma dot_zero n (f : nat -> N) : (forall i, i < n -> f i = n0) -> dot n f f = n0.
Proof. intros H. now apply (dot_0_l HF). Qed.
Lemma dot_pos n (f : nat -> N) : nzv n f -> nltb n0 (dot n f f) = true.
Proof.
  intros (i & Hi & Hn). apply (bigsum_pos_term HO n _ i Hi); [intros; apply (ole_0_sqr HO)|now apply (olt_0_sqr HO)].
Qed.
Lemma least_norm n (r : nat -> nat -> N) j : (forall i, i < j -> nzv n (r i)) ->
  exists e, nltb n0 e = true /\ forall i, i < j -> nleb e (dot n (r i) (r i)) = true.
Proof.
  induction j as [|j IH]; intros H.
  - exists n1. split; [apply (olt_0_1 HO)|lia].
  - destruct IH as (e & He & Hj); [intros; apply H; lia|]. pose proof (dot_pos n (r j) (H j ltac:(lia))) as Hp.
    destruct (of_le_total N HO e (dot n (r j) (r j))) as [Hl|Hl].
    + exists e. split; auto. intros i Hi. destruct (Nat.eq_dec i j) as [->|]; [auto|apply Hj; lia].
    + exists (dot n (r j) (r j)). split; auto. intros i Hi. destruct (Nat.eq_dec i j) as [->|]; [apply (ole_refl HO)|].
      apply (ole_trans HO _ e); auto. apply Hj. lia.
Qed.

Section Generic.
Variables (n j : nat) (a : nat -> nat -> N) (b : list N) (step : cgst N -> cgst N) (s : cgst N).
Let r k := sr (Nat.iter k step s).
Hypotheses (Hres : forall k, resid_ok n a (fun i => nth i b n0) (Nat.iter k step s))
  (Hj : j <= n) (Hz : forall i, i < n -> r j i = n0) (Hnz : forall i, i < j -> nzv n (r i)) (H0 : nzv n (r 0)).

Lemma j_pos : 0 < j.
Proof. destruct j; [|lia]. destruct H0 as (i & Hi & Hn). now rewrite Hz in Hn. Qed.
Lemma early maxIter eps2 m : nltb n0 eps2 = true -> stops n step maxIter eps2 s m -> m < j.
Proof.
  intros He (S1 & S2 & S3). destruct (Nat.lt_ge_cases m j) as [|Hge]; auto. exfalso. pose proof j_pos as Hp.
  assert (E := S2 (j - 1) ltac:(lia)). cbn zeta in E. replace (S (j - 1)) with j in E by lia. fold (r j) in E. rewrite dot_zero in E by auto. congruence.
Qed.
Lemma term_eps maxIter eps x it : eps <> n0 -> n <= maxIter -> at_step n step s maxIter (eps * eps)%num x it ->
  it <= n /\ nltb (residual2 n a b x) (eps * eps)%num = true.
Proof.
  intros He Hm H. pose proof (olt_0_sqr HO eps He) as Hp. pose proof j_pos as Hjp.
  destruct H as [(-> & _)|(m & Hs & -> & ->)]; [lia|]. pose proof (early _ _ _ Hp Hs) as Hmj. split; [lia|].
  rewrite (resid2 n a b _ _ _ eq_refl (fun _ _ => eq_refl) (Hres (S m))). destruct Hs as (S1 & S2 & S3).
  destruct (Nat.lt_ge_cases (S m) maxIter) as [Hlt|Hge]; [now apply S3|].
  replace (S m) with j by lia. fold (r j). now rewrite dot_zero.
Qed.
Lemma term_exact : exists e0, nltb n0 e0 = true /\ forall maxIter eps x it, eps <> n0 -> nleb (eps * eps)%num e0 = true -> n <= maxIter ->
  at_step n step s maxIter (eps * eps)%num x it -> it <= n /\ solves n a x b.
Proof.
  destruct (least_norm n r j Hnz) as (e0 & He0 & Hl). exists e0. split; auto. intros maxIter eps x it He Hle Hm H.
  pose proof (olt_0_sqr HO eps He) as Hp. pose proof j_pos as Hjp.
  destruct H as [(-> & _)|(m & Hs & -> & ->)]; [lia|]. pose proof (early _ _ _ Hp Hs) as Hmj. split; [lia|].
  apply (solves_of HF n a b _ _ _ eq_refl (fun _ _ => eq_refl) (Hres (S m))). fold (r (S m)).
  destruct (Nat.eq_dec (S m) j) as [E|Hne]; [now rewrite E|]. exfalso. destruct Hs as (S1 & S2 & S3).
  assert (E : nltb (dot n (r (S m)) (r (S m))) (eps * eps)%num = true) by (apply S3; lia).
  apply (olt_irrefl HO e0). eapply (ole_lt_trans HO); [apply (Hl (S m)); lia|]. eapply (olt_le_trans HO); [exact E|exact Hle].
Qed.
End Generic.

(** A non-zero start residual. *)
Lemma nz_start n a b x0 : ~ solves n a x0 b -> nzv n (fun i => nth i b n0 - mulvec n a (fun j => nth j x0 n0) i)%num.
Proof.
  intros H. destruct (nz_dec' HO (fun i => nth i b n0 - mulvec n a (fun j => nth j x0 n0) i)%num n) as [Hz|Hn]; auto.
  exfalso. apply H. intros i Hi. specialize (Hz i Hi). cbv beta in Hz.
  transitivity (nth i b n0 - (nth i b n0 - mulvec n a (fun j => nth j x0 n0) i))%num; [ring|]. rewrite Hz. ring.
Qed.

Section Run.
Context {M : MatOps N} (HL : OpLaws M).
Variables (A C : M) (n : nat) (a c : nat -> nat -> N) (b x0 : list N).
Hypotheses (HA : holds A n n a) (Hb : length b = n) (Hx : length x0 = n).

Theorem pcg_cert (HC : holds C n n c) maxIter eps : exists x it, pcg A b C x0 maxIter eps = Ok (x, it) /\
  length x = n /\ 1 <= it /\ it <= Nat.max 1 maxIter /\ (it < maxIter -> nltb (residual2 n a b x) (eps * eps)%num = true).
Proof.
  destruct (pcg_run HL A C n a c HA HC b x0 maxIter eps Hb Hx) as (x & it & E & H). exists x, it. split; auto.
  eapply certificate; [|exact H]. intros k. apply (resid_iter_pcg HF).
Qed.
Theorem cg_cert maxIter eps : exists x it, cg A b x0 maxIter eps = Ok (x, it) /\
  length x = n /\ 1 <= it /\ it <= Nat.max 1 maxIter /\ (it < maxIter -> nltb (residual2 n a b x) (eps * eps)%num = true).
Proof.
  destruct (cg_run HL A n a HA b x0 maxIter eps Hb Hx) as (x & it & E & H). exists x, it. split; auto.
  eapply certificate; [|exact H]. intros k. apply (resid_iter_cg HF).
Qed.
Theorem pcg_term (HC : holds C n n c) : symmetric2 n a -> pos_def n a -> symmetric2 n c -> pos_def n c -> ~ solves n a x0 b ->
  (forall maxIter eps, eps <> n0 -> n <= maxIter -> exists x it, pcg A b C x0 maxIter eps = Ok (x, it) /\
     length x = n /\ it <= n /\ nltb (residual2 n a b x) (eps * eps)%num = true) /\
  exists e0, nltb n0 e0 = true /\ forall maxIter eps, eps <> n0 -> nleb (eps * eps)%num e0 = true -> n <= maxIter ->
    exists x it, pcg A b C x0 maxIter eps = Ok (x, it) /\ length x = n /\ it <= n /\ solves n a x b.
Proof.
  intros Sa Pa Sc Pc H0. destruct (finite_termination HO n a c (fun i => nth i b n0) (fun j => nth j x0 n0) Sa Pa Sc Pc) as (j & Hj & Hz & Hnz).
  assert (Hlen : forall step s maxIter eps2 x it, at_step n step s maxIter eps2 x it -> length x = n).
  { intros step s maxIter eps2 x it [(_ & -> & _)|(m & _ & -> & _)]; apply V_len. }
  split.
  - intros maxIter eps He Hm. destruct (pcg_run HL A C n a c HA HC b x0 maxIter eps Hb Hx) as (x & it & E & H).
    exists x, it. split; auto. split; [eapply Hlen; eauto|]. eapply (term_eps n j); eauto.
    + intros k. apply (resid_iter_pcg HF).
    + apply nz_start. auto.
  - destruct (term_exact n j a b (pcg_step n a c) (pcg_start n a c (fun i => nth i b n0) (fun j => nth j x0 n0))) as (e0 & He0 & H); auto.
    + intros k. apply (resid_iter_pcg HF).
    + apply nz_start. auto.
    + exists e0. split; auto. intros maxIter eps He Hle Hm.
      destruct (pcg_run HL A C n a c HA HC b x0 maxIter eps Hb Hx) as (x & it & E & H1).
      exists x, it. split; auto. split; [eapply Hlen; eauto|]. eapply H; eauto.
Qed.
End Run.

(** A positive diagonal is positive definite. *)
Lemma diag_pos_def n (d : nat -> N) (c : nat -> nat -> N) : (forall i j, i < n -> j < n -> c i j = if i =? j then d i else n0) ->
  (forall i, i < n -> nltb n0 (d i) = true) -> symmetric2 n c /\ pos_def n c.
Proof.
  intros Hc Hd. split.
  - intros i j Hi Hj. rewrite !Hc by auto. bcase; subst; auto; congruence.
  - intros x (k & Hk & Hn).
    rewrite (bigsum_ext n _ (fun i => d i * (x i * x i))%num).
    + apply (bigsum_pos_term HO n _ k Hk).
      * intros i Hi. apply (ole_0_mul HO); [apply (olt_le HO); auto|apply (ole_0_sqr HO)].
      * apply (olt_0_mul HO); auto. now apply (olt_0_sqr HO).
    + intros i Hi. rewrite (bigsum_single HF n i); auto.
      * rewrite Hc, Nat.eqb_refl by auto. ring.
      * intros j Hj Hne. rewrite Hc by auto. bcase; try congruence; ring.
Qed.
Lemma pos_def_diag n a i : pos_def n a -> i < n -> nltb n0 (a i i) = true.
Proof.
  intros H Hi. specialize (H (fun k => if k =? i then n1 else n0)). rewrite (bigsum_single HF n i), (bigsum_single HF n i) in H; auto.
  - rewrite Nat.eqb_refl in H. replace (n1 * a i i * n1)%num with (a i i) in H by ring. apply H. exists i. rewrite Nat.eqb_refl.
    split; auto. apply (one_neq_zero HO).
  - intros j Hj Hne. rewrite (proj2 (Nat.eqb_neq _ _) Hne). ring.
  - intros j Hj Hne. apply (bigsum_0 HF). intros k Hk. rewrite (proj2 (Nat.eqb_neq _ _) Hne). ring.
Qed.

(** cg is pcg with C = I for the first two steps. *)
Section CG2.
Variables (n : nat) (a : nat -> nat -> N) (b x0 : nat -> N).
Let dl (i j : nat) : N := if i =? j then n1 else n0.
Lemma mulvec_id f i : i < n -> mulvec n dl f i = f i.
Proof.
  intros Hi. unfold mulvec. rewrite (bigsum_single HF n i); auto.
  - unfold dl. rewrite Nat.eqb_refl. ring.
  - intros j Hj Hne. unfold dl. bcase; try congruence; ring.
Qed.
Definition same (s t : cgst N) : Prop :=
  (forall i, i < n -> sr s i = sr t i) /\ (forall i, i < n -> sp s i = sp t i) /\ sl s = sl t.
Lemma mv_ext f g i : (forall j, j < n -> f j = g j) -> mulvec n a f i = mulvec n a g i.
Proof. intros H. apply bigsum_ext. intros j Hj. now rewrite H. Qed.
Lemma same_r s t : same s t -> forall i, i < n -> sr (cg_step n a s) i = sr (pcg_step n a dl t) i.
Proof.
  intros (H1 & H2 & H3) i Hi. cbn. unfold pcg_alpha. rewrite H1, H3, (mv_ext (sp s) (sp t)) by auto.
  rewrite (dot_ext n (mulvec n a (sp s)) (mulvec n a (sp t)) (sp s) (sp t)); auto. intros; now apply mv_ext.
Qed.
Lemma same_l s t : same s t -> sl (cg_step n a s) = sl (pcg_step n a dl t).
Proof.
  intros H. change (dot n (sr (cg_step n a s)) (sr (cg_step n a s)) = dot n (sr (pcg_step n a dl t)) (mulvec n dl (sr (pcg_step n a dl t)))).
  apply dot_ext; intros; [|rewrite mulvec_id by auto]; now apply same_r.
Qed.
Lemma same_0 : same (cg_start n a b x0) (pcg_start n a dl b x0).
Proof.
  split; [|split]; cbn; auto.
  - intros i Hi. now rewrite mulvec_id.
  - apply dot_ext; auto. intros. now rewrite mulvec_id.
Qed.
Lemma same_1 : same (cg_step n a (cg_start n a b x0)) (pcg_step n a dl (pcg_start n a dl b x0)).
Proof.
  split; [|split].
  - apply same_r, same_0.
  - intros i Hi. pose proof (same_l _ _ same_0) as El. pose proof (same_r _ _ same_0 i Hi) as Er.
    set (s := cg_start n a b x0) in *. set (t := pcg_start n a dl b x0) in *.
    change (sr (cg_step n a s) i + sr s i * (sl (cg_step n a s) / sl s) = mulvec n dl (sr (pcg_step n a dl t)) i + sp t i * (sl (pcg_step n a dl t) / sl t))%num.
    rewrite mulvec_id, Er, El by auto. destruct same_0 as (_ & H2 & H3). fold s t in H2, H3. rewrite H3, <- H2 by auto. reflexivity.
  - apply same_l, same_0.
Qed.
Lemma same_upto2 k : k <= 2 -> forall i, i < n ->
  sr (Nat.iter k (cg_step n a) (cg_start n a b x0)) i = sr (Nat.iter k (pcg_step n a dl) (pcg_start n a dl b x0)) i.
Proof.
  intros Hk i Hi. destruct k as [|[|[|k]]]; [| | |lia].
  - now apply same_0.
  - now apply same_1.
  - apply same_r; auto. apply same_1.
Qed.
End CG2.

Theorem cg_term2 {M : MatOps N} (HL : OpLaws M) (A : M) n a b x0 : n <= 2 -> holds A n n a -> length b = n -> length x0 = n ->
  symmetric2 n a -> pos_def n a -> ~ solves n a x0 b ->
  (forall maxIter eps, eps <> n0 -> n <= maxIter -> exists x it, cg A b x0 maxIter eps = Ok (x, it) /\
     length x = n /\ it <= n /\ nltb (residual2 n a b x) (eps * eps)%num = true) /\
  exists e0, nltb n0 e0 = true /\ forall maxIter eps, eps <> n0 -> nleb (eps * eps)%num e0 = true -> n <= maxIter ->
    exists x it, cg A b x0 maxIter eps = Ok (x, it) /\ length x = n /\ it <= n /\ solves n a x b.
Proof.
  intros Hn HA Hb Hx Sa Pa H0.
  destruct (diag_pos_def n (fun _ => n1) (fun i j => if i =? j then n1 else n0) (fun _ _ _ _ => eq_refl) (fun _ _ => olt_0_1 HO)) as [Sc Pc].
  destruct (finite_termination HO n a _ (fun i => nth i b n0) (fun j => nth j x0 n0) Sa Pa Sc Pc) as (j & Hj & Hz & Hnz).
  pose proof (same_upto2 n a (fun i => nth i b n0) (fun j => nth j x0 n0)) as Hs.
  assert (Hlen : forall step s maxIter eps2 x it, at_step n step s maxIter eps2 x it -> length x = n).
  { intros step s maxIter eps2 x it [(_ & -> & _)|(m & _ & -> & _)]; apply V_len. }
  set (s := cg_start n a (fun i => nth i b n0) (fun j => nth j x0 n0)) in *.
  assert (Hz' : forall i, i < n -> sr (Nat.iter j (cg_step n a) s) i = n0).
  { intros i Hi. rewrite Hs by (auto; lia). auto. }
  assert (Hnz' : forall i, i < j -> nzv n (sr (Nat.iter i (cg_step n a) s))).
  { intros i Hi. destruct (Hnz i Hi) as (k & Hk & Hne). exists k. split; auto. rewrite Hs by (auto; lia). auto. }
  split.
  - intros maxIter eps He Hm. destruct (cg_run HL A n a HA b x0 maxIter eps Hb Hx) as (x & it & E & H).
    exists x, it. split; auto. split; [eapply Hlen; eauto|]. eapply (term_eps n j); eauto.
    + intros k. apply (resid_iter_cg HF).
    + apply nz_start. auto.
  - destruct (term_exact n j a b (cg_step n a) s) as (e0 & He0 & H); auto.
    + intros k. apply (resid_iter_cg HF).
    + apply nz_start. auto.
    + exists e0. split; auto. intros maxIter eps He Hle Hm.
      destruct (cg_run HL A n a HA b x0 maxIter eps Hb Hx) as (x & it & E & H1).
      exists x, it. split; auto. split; [eapply Hlen; eauto|]. eapply H; eauto.
Qed.
End Term.

Section Jac.
Context {N : Num} {M : MatOps N} (HL : OpLaws M).
Implicit Types (A C : M).
(** CG::jacobi writes the reciprocal diagonal and leaves the rest of C. *)
Lemma jac_ok A C n a c : holds A n n a -> holds C n n c ->
  post (cg_jacobi A C) (fun C' => (forall i, i < n -> tiny (a i i) = false) /\
      holds C' n n (fun i j => if i =? j then (n1 / a i i)%num else c i j))
    (fun e => e = Singular /\ exists i, i < n /\ tiny (a i i) = true).
Proof.
  intros HA HC. unfold cg_jacobi. rewrite (holds_rows _ _ _ _ HA), (holds_cols _ _ _ _ HA), (holds_rows _ _ _ _ HC), (holds_cols _ _ _ _ HC), !Nat.eqb_refl.
  cbn [negb].
  eapply post_mono; [apply (for_post (fun k C' => (forall i, i < k -> tiny (a i i) = false) /\
      holds C' n n (fun i j => if (i =? j) && (i <? k) then (n1 / a i i)%num else c i j)) (fun e => e = Singular /\ exists i, i < n /\ tiny (a i i) = true)); try lia| |auto].
  - split; [lia|]. eapply holds_ext; [exact HC|]. intros i j Hi Hj. cbv beta. bcase; auto.
  - intros i C' Hi (Ht & H). rewrite (holds_at _ _ _ _ _ _ HA) by lia. cbn [bind]. destruct (tiny (a i i)) eqn:E.
    + cbn. split; auto. exists i. split; [lia|auto].
    + destruct (holds_set (ol_mat M HL) C' n n _ i i (n1 / a i i)%num H ltac:(lia) ltac:(lia)) as (C'' & -> & H'). cbn. split.
      * intros k Hk. destruct (Nat.eq_dec k i) as [->|]; auto. apply Ht. lia.
      * eapply holds_ext; [exact H'|]. intros i' j' Hi' Hj'. unfold put2. cbv beta. bcase; subst; auto; try lia; try congruence.
  - intros C' (Ht & H). split; [auto|]. eapply holds_ext; [exact H|]. intros i j Hi Hj. cbv beta. bcase; auto.
Qed.
Lemma jac_bad A C : (mi_rows A <> mi_cols A \/ mi_rows C <> mi_cols C -> cg_jacobi A C = Throw NotSquare) /\
  (mi_rows A = mi_cols A -> mi_rows C = mi_cols C -> mi_rows A <> mi_rows C -> cg_jacobi A C = Throw MatrixSizeMismatch).
Proof.
  unfold cg_jacobi. split.
  - intros [H|H]; [now rewrite (proj2 (Nat.eqb_neq _ _) H)|]. rewrite (proj2 (Nat.eqb_neq _ _) H). now destruct (mi_rows A =? mi_cols A).
  - intros H1 H2 H3. rewrite (proj2 (Nat.eqb_eq _ _) H1), (proj2 (Nat.eqb_eq _ _) H2), (proj2 (Nat.eqb_neq _ _) H3). reflexivity.
Qed.
End Jac.
