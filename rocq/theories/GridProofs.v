(** Assembly loops as lists of writes; data files. *)
From Coq Require Import List Arith Bool Lia Ring Field.
From Verif Require Import Base BaseProofs Num Spec SpecProofs VectorModel VectorProofs MatI MatIProofs MatOps SparseModel LUModel
  DetSpec DetProofs GridModel GridSpec ObjProofs.
Import ListNotations.
Local Open Scope nat_scope.
Open Scope res_scope.

Section Rows.
Context {N : Num} (HF : FieldLaws N).
Add Field rwfld : (fl_field N HF).
(** Rows of a sparse table: (column, value) pairs. *)
Definition tab (rows : nat -> list (nat * N)) (i j : nat) : N :=
  fold_right (fun e s => ((if j =? fst e then snd e else n0) + s)%num) n0 (rows i).
Definition rowsum (row : list (nat * N)) (u : nat -> N) : N := fold_right (fun e s => (snd e * u (fst e) + s)%num) n0 row.
Lemma tab_in rows i j v : NoDup (map fst (rows i)) -> In (j, v) (rows i) -> tab rows i j = v.
Proof.
  unfold tab. induction (rows i) as [|[c w] l IH]; cbn [map fst snd fold_right In]; [tauto|]. intros Hd [E|H].
  - injection E as -> ->. rewrite Nat.eqb_refl. inversion Hd as [|? ? Hn _]; subst.
    replace (fold_right _ n0 l) with (@n0 N); [ring|]. clear - Hn HF. induction l as [|[c w] l IH]; cbn in *; auto.
    rewrite <- IH by tauto. destruct (Nat.eqb_spec j c) as [->|]; [tauto|ring].
  - inversion Hd as [|? ? Hn Hd']; subst. rewrite IH by auto. destruct (Nat.eqb_spec j c) as [->|]; [|ring].
    exfalso. apply Hn. now apply (in_map fst) in H.
Qed.
Lemma tab_out rows i j : (forall v, ~ In (j, v) (rows i)) -> tab rows i j = n0.
Proof.
  unfold tab. induction (rows i) as [|[c w] l IH]; cbn [fold_right fst snd In]; auto. intros H. rewrite IH by firstorder.
  destruct (Nat.eqb_spec j c) as [->|]; [|ring]. exfalso. apply (H w). now left.
Qed.
Lemma mulvec_tab rows n i u : (forall e, In e (rows i) -> fst e < n) -> mulvec n (tab rows) u i = rowsum (rows i) u.
Proof.
  unfold mulvec, tab, rowsum. induction (rows i) as [|[c w] l IH]; cbn [fold_right fst snd]; intros H.
  - apply bigsum_0; auto. intros. ring.
  - rewrite <- IH by (intros; apply H; now right).
    rewrite (bigsum_ext n _ (fun j => (if j =? c then w else n0) * u j +
       fold_right (fun e s => (if j =? fst e then snd e else n0) + s) n0 l * u j)%num) by (intros; ring).
    rewrite bigsum_plus by auto. f_equal. rewrite (bigsum_single HF n c) by
      (try (apply (H (c, w)); now left); intros k _ Hk; rewrite (proj2 (Nat.eqb_neq _ _) Hk); ring). now rewrite Nat.eqb_refl.
Qed.

End Rows.

Section Assembly.
Context {N : Num} (HF : FieldLaws N) {I : MatI N} (HL : MatLaws I).
Add Field asfld : (fl_field N HF).

(** A write: A.set(i,j,v) or B.set(i,v). *)
Inductive gop := SetA (i j : nat) (v : N) | SetB (i : nat) (v : N).
Definition gstep (o : gop) (s : I * list N) : res (I * list N) :=
  match o with
  | SetA i j v => let* A := mi_set (fst s) i j v in Ok (A, snd s)
  | SetB i v => let* B := v_set (snd s) i v in Ok (fst s, B)
  end.
Lemma for_ops lo hi (body : nat -> I * list N -> res (I * list N)) g :
  (forall k s, lo <= k < hi -> body k s = foreach (g k) gstep s) ->
  forall s, for_ lo hi body s = foreach (flat_map g (seq lo (hi - lo))) gstep s.
Proof.
  intros H s. unfold for_. rewrite for_foreach. assert (Hin : forall k, In k (seq lo (hi - lo)) -> lo <= k < hi) by (intros k Hk; apply in_seq in Hk; lia).
  revert s Hin. generalize (seq lo (hi - lo)) as l. induction l as [|k l IH]; intros s Hin; cbn [foreach flat_map]; auto.
  rewrite foreach_app, H by (apply Hin; now left). destruct (foreach (g k) gstep s); cbn [bind]; auto. apply IH. intros; apply Hin; now right.
Qed.

(** The writes ops agree with the rows and the right-hand side and cover them. *)
Definition covers D (rows : nat -> list (nat * N)) (rhs : nat -> N) (ops : list gop) : Prop :=
  (forall i, i < D -> NoDup (map fst (rows i))) /\
  (forall i j v, In (SetA i j v) ops -> i < D /\ j < D /\ In (j, v) (rows i)) /\
  (forall i v, In (SetB i v) ops -> i < D /\ v = rhs i) /\
  (forall i j v, i < D -> In (j, v) (rows i) -> In (SetA i j v) ops) /\
  (forall i, i < D -> In (SetB i (rhs i)) ops).
(** Executing writes that all agree with given rows and right-hand side and cover them builds that system. *)
Lemma run_ops D rows (rhs : nat -> N) ops A0 B0 : covers D rows rhs ops ->
  holds A0 D D (fun _ _ => n0) -> length B0 = D ->
  returns (foreach ops gstep (A0, B0)) (fun s => holds (fst s) D D (tab rows) /\ snd s = map rhs (seq 0 D)).
Proof.
  intros (Hd & Ha & Hb & Ca & Cb) HA0 HB0.
  assert (P : forall l done a A B, ops = done ++ l -> holds A D D a -> length B = D ->
     (forall i j, i < D -> j < D -> (exists v, In (SetA i j v) done) /\ a i j = tab rows i j \/ (forall v, ~ In (SetA i j v) done) /\ a i j = n0) ->
     (forall i, (exists v, In (SetB i v) done) -> nth i B n0 = rhs i) ->
     returns (foreach l gstep (A, B)) (fun s => holds (fst s) D D (tab rows) /\ snd s = map rhs (seq 0 D))).
  { induction l as [|o l IH]; intros done a A B E HA HB Ia Ib.
    - rewrite app_nil_r in E. subst done. eexists. split; [reflexivity|]. cbn [fst snd]. split.
      + eapply holds_ext; [exact HA|]. intros i j Hi Hj. destruct (Ia i j Hi Hj) as [[_ H]|[H1 H2]]; auto.
        rewrite H2. symmetry. apply (tab_out HF). intros v Hv. apply (H1 v). now apply Ca.
      + apply list_eq_nth with (d := n0); [now rewrite map_length, seq_length|]. intros i Hi. rewrite HB in Hi.
        rewrite (nth_indep (map rhs _) n0 (rhs 0)) by (rewrite map_length, seq_length; lia). rewrite map_nth, seq_nth by lia. cbn.
        apply Ib. exists (rhs i). auto.
    - assert (Ho : In o ops) by (rewrite E; apply in_or_app; right; now left).
      assert (E' : ops = (done ++ [o]) ++ l) by (now rewrite <- app_assoc).
      destruct o as [i j v|i v]; cbn [foreach gstep fst snd].
      + destruct (Ha i j v Ho) as (Hi & Hj & Hv).
        destruct (holds_set HL A D D a i j v HA Hi Hj) as (A' & EA & HA'). rewrite EA. cbn [bind].
        apply (IH (done ++ [SetA i j v]) (put2 a i j v)); auto.
        * intros i' j' Hi' Hj'. unfold put2. destruct (Nat.eqb_spec i' i) as [->|Ni]; [destruct (Nat.eqb_spec j' j) as [->|Nj]|]; cbn [andb].
          { left. split; [exists v; apply in_or_app; right; now left|]. symmetry. apply (tab_in HF); auto. }
          { destruct (Ia i j' Hi Hj') as [[(w & H1) H2]|[H1 H2]]; [left; split; auto; exists w; apply in_or_app; now left|].
            right. split; auto. intros w Hw. apply in_app_or in Hw as [Hw|[Hw|[]]]; [now apply (H1 w)|congruence]. }
          { destruct (Ia i' j' Hi' Hj') as [[(w & H1) H2]|[H1 H2]]; [left; split; auto; exists w; apply in_or_app; now left|].
            right. split; auto. intros w Hw. apply in_app_or in Hw as [Hw|[Hw|[]]]; [now apply (H1 w)|congruence]. }
        * intros i' (w & Hw). apply Ib. exists w. apply in_app_or in Hw as [Hw|[Hw|[]]]; [auto|congruence].
      + destruct (Hb i v Ho) as (Hi & ->). rewrite v_set_ok by lia. cbn [bind].
        apply (IH (done ++ [SetB i (rhs i)]) a); auto.
        * now rewrite upd_length.
        * intros i' j' Hi' Hj'. destruct (Ia i' j' Hi' Hj') as [[(w & H1) H2]|[H1 H2]]; [left; split; auto; exists w; apply in_or_app; now left|].
          right. split; auto. intros w Hw. apply in_app_or in Hw as [Hw|[Hw|[]]]; [now apply (H1 w)|congruence].
        * intros i' (w & Hw). rewrite nth_upd. destruct (Nat.eq_dec i' i) as [->|Hne].
          { rewrite Nat.eqb_refl, (proj2 (Nat.ltb_lt _ _)) by lia. reflexivity. }
          { rewrite (proj2 (Nat.eqb_neq _ _)) by auto. cbn. apply Ib. exists w. apply in_app_or in Hw as [Hw|[Hw|[]]]; [auto|congruence]. } }
  apply (P ops [] (fun _ _ => n0) A0 B0 eq_refl HA0 HB0).
  - intros i j _ _. right. split; auto.
  - intros i (v & []).
Qed.
End Assembly.
