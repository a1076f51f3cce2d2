(** From the storage invariant to the interface-level statements of PropSparse.v. *)
From Coq Require Import List Arith Lia Bool Sorted Field_theory Ring Field.
From Verif Require Import Base BaseProofs Num Spec SpecProofs VectorModel SparseModel SparseSpec
  SparseProofs SparseIter SparseEntries SparseOps SparseOps2 SparseOps3.
Import ListNotations.
Open Scope res_scope.

Section Facts.
Context {N : Num}.
Hypothesis HZ : ZeroLaws N.
Let Hz : zero_refl N := zero_laws_refl N HZ.
Implicit Types m : smat N.
Implicit Types a b : nat -> nat -> N.

Definition inv m : Prop := exists a, srep m (s_rows m) (s_cols m) (fun i j => nz (a i j)).

Lemma val_nz (x : N) : val (nz x) = norm0 x.
Proof. unfold val, nz, norm0, is0. now destruct (neqb x n0). Qed.
Lemma nz_norm0 (x : N) : nz (norm0 x) = nz x.
Proof. unfold nz, norm0, is0. destruct (neqb x n0) eqn:E; rewrite ?E; auto. now rewrite Hz. Qed.
Lemma nz_n0 : nz (@n0 N) = None.
Proof. unfold nz. now rewrite Hz. Qed.
Lemma nz_some (x : N) : is0 x = false -> nz x = Some x.
Proof. unfold nz, is0. now intros ->. Qed.
Lemma nz_none (x : N) : is0 x = true -> nz x = None.
Proof. unfold nz, is0. now intros ->. Qed.
Lemma nz_iff (x : N) : nz x = None <-> is0 x = true.
Proof. unfold nz, is0. destruct (neqb x n0); split; congruence. Qed.
Lemma norm0_nz (x : N) : is0 x = false -> norm0 x = x.
Proof. unfold norm0. now intros ->. Qed.
Lemma norm0_0 (x : N) : is0 x = true -> norm0 x = n0.
Proof. unfold norm0. now intros ->. Qed.
Lemma norm0_idem (x : N) : norm0 (norm0 x) = norm0 x.
Proof. unfold norm0. destruct (is0 x) eqn:E; rewrite ?E; auto. unfold is0. now rewrite Hz. Qed.

Lemma srep_reads m d1 d2 f : srep m d1 d2 f -> reads m d1 d2 (fun i j => val (f i j)).
Proof.
  intros H. destruct (srep_dims m d1 d2 f H) as (? & ? & ? & ?). split; [|split]; auto.
  intros i j Hi Hj. rewrite (srep_at Hz m d1 d2 f i j H Hi Hj). reflexivity.
Qed.

Lemma reads_ext m d1 d2 a b : reads m d1 d2 a -> (forall i j, i < d1 -> j < d2 -> a i j = b i j) -> reads m d1 d2 b.
Proof. intros (H1 & H2 & H3) E. split; [|split]; auto. intros i j Hi Hj. now rewrite H3, E. Qed.

Lemma srep_reads_nz m d1 d2 a : srep m d1 d2 (fun i j => nz (a i j)) -> reads m d1 d2 (fun i j => norm0 (a i j)).
Proof. intros H. eapply reads_ext; [eapply srep_reads; exact H|]. intros; apply val_nz. Qed.

Lemma inv_intro m d1 d2 f : srep m d1 d2 f ->
  (forall i j v, i < d1 -> j < d2 -> f i j = Some v -> is0 v = false) -> inv m.
Proof.
  intros H Hc. destruct (srep_dims m d1 d2 f H) as (E1 & E2 & ? & ?). exists (fun i j => val (f i j)).
  rewrite E1, E2. eapply srep_ext; [exact H|]. intros i j Hi Hj. cbn beta. destruct (f i j) as [v|] eqn:E; simpl.
  - now rewrite nz_some by eauto.
  - now rewrite nz_n0.
Qed.
Lemma inv_nz m d1 d2 a : srep m d1 d2 (fun i j => nz (a i j)) -> inv m.
Proof.
  intros H. eapply inv_intro; [exact H|]. intros i j v _ _ E. unfold nz in E. fold (is0 (a i j)) in E.
  destruct (is0 (a i j)) eqn:E0; [discriminate|]. congruence.
Qed.
Lemma inv_reads m d1 d2 a : inv m -> reads m d1 d2 a ->
  srep m d1 d2 (fun i j => nz (a i j)) /\ (forall i j, i < d1 -> j < d2 -> norm0 (a i j) = a i j).
Proof.
  intros (a0 & H) (E1 & E2 & E3). rewrite E1, E2 in H.
  assert (Ha : forall i j, i < d1 -> j < d2 -> a i j = norm0 (a0 i j)).
  { intros i j Hi Hj. specialize (E3 i j Hi Hj). rewrite (srep_at Hz m d1 d2 _ i j H Hi Hj) in E3.
    injection E3 as <-. apply val_nz. }
  split.
  - eapply srep_ext; [exact H|]. intros i j Hi Hj. cbn beta. now rewrite Ha, nz_norm0 by auto.
  - intros i j Hi Hj. rewrite Ha by auto. apply norm0_idem.
Qed.
Lemma inv_has_reads m : inv m -> exists a, reads m (s_rows m) (s_cols m) a.
Proof. intros (a & H). eexists. eapply srep_reads. exact H. Qed.

(** *** walks *)
Lemma walks_at (R : list (list (nat * N))) cn it : rows_ok cn R -> walks (crs R cn) it -> exists l, at_list R cn it l.
Proof.
  intros HR H. induction H as [it H|it it' Hw IH H].
  - destruct (begins_ok R cn HR) as (_ & it0 & E & Hl). rewrite E in H. injection H as <-. eauto.
  - destruct IH as (l & Hl). destruct l as [|x l].
    + simpl in Hl. unfold it_inc in H. rewrite Hl in H. injection H as <-. exists []. exact Hl.
    + destruct Hl as [-> (v & Hp)]. destruct (pos_inc R x v l cn HR Hp) as (p & E).
      rewrite E in H. injection H as <-. exists l. eapply at_list_next; eauto.
Qed.

(** erase and set(it, v) *)
Lemma inv_erase m it m' it' a d1 d2 : inv m -> reads m d1 d2 a -> walks m it -> s_erase m it = Ok (m', it') ->
  inv m' /\ reads m' d1 d2 (fun i j => if (i =? it1 it) && (j =? it2 it) then n0 else a i j).
Proof.
  intros Hi Hr Hw He. destruct (inv_reads m d1 d2 a Hi Hr) as [Hs Hn].
  destruct Hs as (R & -> & HR & Hl & H1 & H2 & Hf).
  destruct (walks_at R d2 it HR Hw) as (l & Hat). destruct l as [|x l].
  - simpl in Hat. unfold s_erase in He. rewrite Hat in He. injection He as <- <-. split; auto.
    eapply reads_ext; [exact Hr|]. intros i j Hi' Hj. unfold it_valid in Hat. rewrite rows_crs, cols_crs in Hat.
    destruct ((i =? it1 it) && (j =? it2 it)) eqn:E; auto. apply andb_true_iff in E as [Ea Eb].
    apply Nat.eqb_eq in Ea, Eb. subst i j. apply andb_false_iff in Hat as [Hat|Hat]; apply Nat.ltb_ge in Hat; lia.
  - destruct Hat as [-> (v & Hp)]. destruct (srep_erase R d2 x v l HR Hp) as (R' & it1' & E & HR' & Hl' & Hlook).
    rewrite E in He. injection He as <- _.
    assert (Hs' : srep (crs R' d2) d1 d2 (fun i j => nz (if (i =? it1 x) && (j =? it2 x) then n0 else a i j))).
    { exists R'. split; [reflexivity|]. split; [|split; [|split; [|split]]]; auto; try lia.
      intros i j Hi' Hj. specialize (Hlook i j). unfold lookR in Hlook; cbn [fst snd] in Hlook. rewrite Hlook.
      destruct ((i =? it1 x) && (j =? it2 x)); [now rewrite nz_n0|]. apply Hf; auto. }
    split; [eapply inv_nz; exact Hs'|]. eapply reads_ext; [apply srep_reads_nz; exact Hs'|].
    intros i j Hi' Hj. cbn beta. destruct ((i =? it1 x) && (j =? it2 x)).
    + unfold norm0, is0. now rewrite Hz.
    + auto.
Qed.

Lemma inv_setit m it v m' it' a d1 d2 : inv m -> reads m d1 d2 a -> walks m it -> s_set_it m it v = Ok (m', it') ->
  inv m' /\ reads m' d1 d2 (fun i j => if (i =? it1 it) && (j =? it2 it) then norm0 v else a i j).
Proof.
  intros Hi Hr Hw He. unfold s_set_it in He.
  destruct (it_valid m it) eqn:Ev.
  - fold (is0 v) in He. destruct (is0 v) eqn:E0.
    + destruct (inv_erase m it m' it' a d1 d2 Hi Hr Hw He) as [H1 H2]. split; auto. now rewrite norm0_0.
    + destruct (inv_reads m d1 d2 a Hi Hr) as [Hs Hn].
      destruct Hs as (R & -> & HR & Hl & H1 & H2 & Hf).
      destruct (walks_at R d2 it HR Hw) as (l & Hat). destruct l as [|x l]; [simpl in Hat; congruence|].
      destruct Hat as [-> (w & Hp)].
      destruct (put_pos d2 R x w l v HR Hp) as (R' & E & HR' & Hl' & _ & Hlook & _).
      unfold it_put in E. rewrite Ev in E.
      destruct (vset (sv (crs R d2)) (itp x) v) as [u| | | | |]; try discriminate. cbn [bind] in *.
      assert (Hm' : m' = crs R' d2) by congruence. subst m'. clear E He.
      assert (Hs' : srep (crs R' d2) d1 d2 (fun i j => nz (if (i =? it1 x) && (j =? it2 x) then v else a i j))).
      { exists R'. split; [reflexivity|]. split; [|split; [|split; [|split]]]; auto; try lia.
        intros i j Hi' Hj. specialize (Hlook i j). unfold lookR in Hlook; cbn [fst snd] in Hlook. rewrite Hlook.
        destruct ((i =? it1 x) && (j =? it2 x)) eqn:Eq; auto. now rewrite nz_some by auto. }
      split; [eapply inv_nz; exact Hs'|]. eapply reads_ext; [apply srep_reads_nz; exact Hs'|].
      intros i j Hi' Hj. cbn beta. destruct ((i =? it1 x) && (j =? it2 x)); auto.
  - injection He as <- <-. split; auto. eapply reads_ext; [exact Hr|].
    destruct Hr as (E1 & E2 & _). intros i j Hi' Hj. unfold it_valid in Ev. rewrite E1, E2 in Ev.
    destruct ((i =? it1 it) && (j =? it2 it)) eqn:E; auto. apply andb_true_iff in E as [Ea Eb].
    apply Nat.eqb_eq in Ea, Eb. subst i j. apply andb_false_iff in Ev as [Hat|Hat]; apply Nat.ltb_ge in Hat; lia.
Qed.

(** *** Single calls *)
Definition put a (i j : nat) (v : N) : nat -> nat -> N := fun x y => if (x =? i) && (y =? j) then v else a x y.

Lemma fact_set m d1 d2 a i j v : inv m -> reads m d1 d2 a -> i < d1 -> j < d2 ->
  exists m', s_set m i j v = Ok m' /\ inv m' /\ reads m' d1 d2 (put a i j (norm0 v)).
Proof.
  intros Hi Hr Hx Hy. destruct (inv_reads m d1 d2 a Hi Hr) as [Hs Hn].
  destruct (srep_set Hz m d1 d2 _ i j v Hs Hx Hy) as (m' & E & Hs'). exists m'. split; auto.
  assert (Hs2 : srep m' d1 d2 (fun x y => nz (put a i j v x y))).
  { eapply srep_ext; [exact Hs'|]. intros x y _ _. unfold fset, put. now destruct ((x =? i) && (y =? j)). }
  split; [eapply inv_nz; exact Hs2|]. eapply reads_ext; [apply srep_reads_nz; exact Hs2|].
  intros x y Hx' Hy'. unfold put. destruct ((x =? i) && (y =? j)); auto.
Qed.

Lemma set_inv m i j v m' : s_set m i j v = Ok m' -> i < s_rows m /\ j < s_cols m.
Proof.
  unfold s_set. destruct (Nat.ltb_spec i (s_rows m)); [|discriminate].
  destruct (Nat.ltb_spec j (s_cols m)); [|discriminate]. auto.
Qed.
Lemma set_out m i j v : s_rows m <= i \/ s_cols m <= j -> s_set m i j v = Abort.
Proof.
  intros H. unfold s_set. destruct (Nat.ltb_spec i (s_rows m)); [|reflexivity].
  destruct (Nat.ltb_spec j (s_cols m)); [lia|reflexivity].
Qed.
Lemma at_out m i j : s_rows m <= i \/ s_cols m <= j -> s_at m i j = Abort.
Proof.
  intros H. unfold s_at. destruct (Nat.ltb_spec i (s_rows m)); [|reflexivity].
  destruct (Nat.ltb_spec j (s_cols m)); [lia|reflexivity].
Qed.
Lemma has_out m i j : s_rows m <= i \/ s_cols m <= j -> s_has m i j = Abort.
Proof.
  intros H. unfold s_has. destruct (Nat.ltb_spec i (s_rows m)); [|reflexivity].
  destruct (Nat.ltb_spec j (s_cols m)); [lia|reflexivity].
Qed.

Lemma lset_eq m k v : k < s_rows m * s_cols m -> s_linear_set m k v = s_set m (k / s_cols m) (k mod s_cols m) v.
Proof. intros H. unfold s_linear_set, s_size. bdec. reflexivity. Qed.
Lemma lset_out m k v : s_rows m * s_cols m <= k -> s_linear_set m k v = Abort.
Proof. intros H. unfold s_linear_set, s_size. bdec. reflexivity. Qed.
Lemma lat_out m k : s_rows m * s_cols m <= k -> s_linear_at m k = Abort.
Proof. intros H. unfold s_linear_at, s_size. bdec. reflexivity. Qed.
Lemma lset_inv m k v m' : s_linear_set m k v = Ok m' ->
  s_set m (k / s_cols m) (k mod s_cols m) v = Ok m'.
Proof. unfold s_linear_set. destruct (k <? s_size m); [auto|discriminate]. Qed.

Lemma lin_range d1 d2 k : k < d1 * d2 -> k / d2 < d1 /\ k mod d2 < d2.
Proof.
  intros H. assert (d2 <> 0) by (intros ->; lia). split.
  - apply Nat.div_lt_upper_bound; lia.
  - apply Nat.mod_upper_bound; auto.
Qed.

Lemma reads_has m d1 d2 a i j : inv m -> reads m d1 d2 a -> i < d1 -> j < d2 -> s_has m i j = Ok (negb (is0 (a i j))).
Proof.
  intros Hi Hr Hx Hy. destruct (inv_reads m d1 d2 a Hi Hr) as [Hs _].
  rewrite (srep_has Hz m d1 d2 _ i j Hs Hx Hy). unfold nz, is0. now destruct (neqb (a i j) n0).
Qed.

(** *** built *)
Lemma new_inv d1 d2 m : s_new d1 d2 = Ok m -> inv m /\ reads m d1 d2 (fun _ _ => n0) /\ 0 < d1 /\ 0 < d2.
Proof.
  intros H. assert (Hd : 0 < d1 /\ 0 < d2).
  { unfold s_new in H. destruct (Nat.ltb_spec 0 d1); [|discriminate]. destruct (Nat.ltb_spec 0 d2); [|discriminate]. auto. }
  destruct Hd as [H1 H2]. destruct (srep_new (N := N) d1 d2 H1 H2) as (m0 & E & Hs). rewrite E in H. injection H as <-.
  split; [|split]; auto.
  - eapply inv_intro; [exact Hs|]. discriminate.
  - eapply reads_ext; [eapply srep_reads; exact Hs|]. reflexivity.
Qed.

Lemma list_inv (l : list (list N)) m : s_of_list l = Ok m ->
  inv m /\ reads m (length l) (list_max (map (@length N) l)) (fun i j => norm0 (nth j (nth i l []) n0)).
Proof.
  intros H. assert (Hne : l <> []) by (intros ->; discriminate).
  assert (Hex : exists r, In r l /\ r <> []).
  { assert (Hd : 0 < list_max (map (@length N) l)).
    { unfold s_of_list in H. destruct l as [|r0 l]; [congruence|].
      destruct (list_max (map (@length N) (r0 :: l))) eqn:E; [|lia]. exfalso.
      unfold s_new in H. discriminate H. }
    clear H Hne. induction l as [|r l IH]; simpl in Hd; [lia|].
    destruct r as [|x r]; [|exists (x :: r); split; [now left|congruence]].
    destruct IH as (r & Hr & Hn); [simpl in Hd; lia|]. exists r. split; auto. now right. }
  destruct (srep_of_list Hz l Hne Hex) as (m0 & E & Hs). rewrite E in H. injection H as <-.
  split; [eapply inv_nz; exact Hs|apply srep_reads_nz; exact Hs].
Qed.

Lemma fact_combine op A B d1 d2 a b :
  (forall x, is0 x = false -> op x n0 = x) -> is0 (op n0 n0) = true ->
  inv A -> inv B -> reads A d1 d2 a -> reads B d1 d2 b ->
  exists C, s_combine_eq op A B = Ok C /\ inv C /\ reads C d1 d2 (fun i j => norm0 (op (a i j) (b i j))).
Proof.
  intros Ho1 Ho2 HA HB Ra Rb. destruct (inv_reads A d1 d2 a HA Ra) as [Sa Na].
  destruct (inv_reads B d1 d2 b HB Rb) as [Sb Nb].
  destruct (srep_combine Hz op A B d1 d2 _ _ Sa Sb) as (C & E & Sc). exists C. split; auto.
  assert (Sc' : srep C d1 d2 (fun i j => nz (op (a i j) (b i j)))).
  { eapply srep_ext; [exact Sc|]. intros i j Hi Hj. cbn beta.
    destruct (is0 (b i j)) eqn:Eb.
    - rewrite (nz_none _ Eb). rewrite <- (Nb i j Hi Hj), (norm0_0 _ Eb).
      destruct (is0 (a i j)) eqn:Ea.
      + rewrite <- (Na i j Hi Hj), (norm0_0 _ Ea), nz_n0. symmetry. now apply nz_none.
      + now rewrite Ho1.
    - rewrite (nz_some _ Eb), val_nz, Na by auto. reflexivity. }
  split; [eapply inv_nz; exact Sc'|]. apply srep_reads_nz. exact Sc'.
Qed.

Lemma fact_add A B d1 d2 a b : inv A -> inv B -> reads A d1 d2 a -> reads B d1 d2 b ->
  exists C, s_add A B = Ok C /\ inv C /\ reads C d1 d2 (fun i j => norm0 (a i j + b i j)%num).
Proof. apply fact_combine; [apply (zl_add_r HZ)|apply (zl_add_00 HZ)]. Qed.
Lemma fact_sub A B d1 d2 a b : inv A -> inv B -> reads A d1 d2 a -> reads B d1 d2 b ->
  exists C, s_sub A B = Ok C /\ inv C /\ reads C d1 d2 (fun i j => norm0 (a i j - b i j)%num).
Proof. apply fact_combine; [apply (zl_sub_r HZ)|apply (zl_sub_00 HZ)]. Qed.

Lemma dotfold_sparse d (x y : nat -> N) : dotfold (rlist d (fun j => nz (x j))) y = sparse_dot d x y.
Proof. unfold dotfold, sparse_dot. now rewrite rlist_nonzeros, fold_left_map. Qed.

Lemma dotfold_ext E (h h' : nat -> N) : (forall e, In e E -> h (fst e) = h' (fst e)) -> dotfold E h = dotfold E h'.
Proof.
  unfold dotfold. generalize (@n0 N). induction E as [|e E IH]; intros s H; auto. simpl.
  rewrite (H e) by now left. apply IH. intros; apply H; now right.
Qed.

Lemma fact_mul A B d1 d2 d3 a b : inv A -> inv B -> reads A d1 d2 a -> reads B d2 d3 b ->
  exists C, s_mul A B = Ok C /\ inv C /\
  reads C d1 d3 (fun i k => norm0 (sparse_dot d2 (a i) (fun j => b j k))).
Proof.
  intros HA HB Ra Rb. destruct (inv_reads A d1 d2 a HA Ra) as [Sa Na].
  destruct (inv_reads B d2 d3 b HB Rb) as [Sb Nb].
  destruct (srep_mul Hz A B d1 d2 d3 _ _ Sa Sb) as (C & E & Sc). exists C. split; auto.
  split; [eapply inv_nz; exact Sc|]. eapply reads_ext; [apply srep_reads_nz; exact Sc|].
  intros i k Hi Hk. cbn beta. f_equal. rewrite <- dotfold_sparse. apply dotfold_ext.
  intros e He. rewrite val_nz. apply Nb; auto.
  destruct e as [j v]. apply (rlist_row d2 (fun j => nz (a i j))) in He. apply He.
Qed.

Lemma fact_scale m d1 d2 a f : inv m -> reads m d1 d2 a ->
  exists m', s_scale m f = Ok m' /\
  srep m' d1 d2 (fun i j => if is0 f then None else option_map (fun y => (y * f)%num) (nz (a i j))) /\
  reads m' d1 d2 (fun i j => if is0 f || is0 (a i j) then n0 else (a i j * f)%num).
Proof.
  intros Hi Hr. destruct (inv_reads m d1 d2 a Hi Hr) as [Hs Hn].
  destruct (srep_scale m d1 d2 _ f Hs) as (m' & E & Hs'). exists m'. split; auto. split; [exact Hs'|].
  eapply reads_ext; [eapply srep_reads; exact Hs'|]. intros i j _ _. cbn beta. fold (is0 f).
  destruct (is0 f); auto. cbn [orb]. destruct (is0 (a i j)) eqn:E0.
  - now rewrite (nz_none _ E0).
  - now rewrite (nz_some _ E0).
Qed.
Lemma scale_inv_clean m d1 d2 a f m' : inv m -> reads m d1 d2 a -> s_scale m f = Ok m' ->
  (forall i j, i < d1 -> j < d2 -> is0 (a i j) = false -> is0 f = false -> is0 (a i j * f)%num = false) -> inv m'.
Proof.
  intros Hi Hr E Hg. destruct (fact_scale m d1 d2 a f Hi Hr) as (m1 & E1 & Hs & _).
  rewrite E1 in E. injection E as <-. eapply inv_intro; [exact Hs|]. intros i j v Hi' Hj Hv. cbn beta in Hv.
  destruct (is0 f) eqn:Ef; [discriminate|]. destruct (is0 (a i j)) eqn:E0.
  - rewrite (nz_none _ E0) in Hv. discriminate.
  - rewrite (nz_some _ E0) in Hv. injection Hv as <-. auto.
Qed.

Lemma fact_transpose m d1 d2 a : inv m -> reads m d1 d2 a ->
  exists m', s_transpose m = Ok m' /\ inv m' /\ reads m' d2 d1 (fun i j => a j i).
Proof.
  intros Hi Hr. destruct (inv_reads m d1 d2 a Hi Hr) as [Hs Hn].
  destruct (srep_transpose Hz m d1 d2 _ Hs) as (m' & E & Hs'). exists m'. split; auto.
  assert (Hs2 : srep m' d2 d1 (fun i j => nz (a j i))).
  { eapply srep_ext; [exact Hs'|]. intros i j _ _. cbn beta. destruct (is0 (a j i)) eqn:E0.
    - now rewrite (nz_none _ E0).
    - now rewrite !(nz_some _ E0). }
  split; [eapply inv_nz; exact Hs2|]. eapply reads_ext; [apply srep_reads_nz; exact Hs2|]. cbn beta. auto.
Qed.
Definition cj0 (x : N) : N := if is0 x then n0 else norm0 (nconj x).
Lemma cj_case (x : N) : match nz x with Some v => nz (nconj v) | None => None end = nz (cj0 x).
Proof.
  unfold cj0. destruct (is0 x) eqn:E0.
  - now rewrite (nz_none _ E0), nz_n0.
  - now rewrite (nz_some _ E0), nz_norm0.
Qed.
Lemma cj0_norm (x : N) : norm0 (cj0 x) = cj0 x.
Proof. unfold cj0. destruct (is0 x). { unfold norm0, is0. now rewrite Hz. } apply norm0_idem. Qed.
Lemma fact_conjugate m d1 d2 a : inv m -> reads m d1 d2 a ->
  exists m', s_conjugate m = Ok m' /\ inv m' /\ reads m' d1 d2 (fun i j => cj0 (a i j)).
Proof.
  intros Hi Hr. destruct (inv_reads m d1 d2 a Hi Hr) as [Hs Hn].
  destruct (srep_conjugate Hz m d1 d2 _ Hs) as (m' & E & Hs'). exists m'. split; auto.
  assert (Hs2 : srep m' d1 d2 (fun i j => nz (cj0 (a i j)))).
  { eapply srep_ext; [exact Hs'|]. intros i j _ _. apply cj_case. }
  split; [eapply inv_nz; exact Hs2|]. eapply reads_ext; [apply srep_reads_nz; exact Hs2|]. intros; apply cj0_norm.
Qed.
Lemma fact_adjugate m d1 d2 a : inv m -> reads m d1 d2 a ->
  exists m', s_adjugate m = Ok m' /\ inv m' /\ reads m' d2 d1 (fun i j => cj0 (a j i)).
Proof.
  intros Hi Hr. destruct (inv_reads m d1 d2 a Hi Hr) as [Hs Hn].
  destruct (srep_adjugate Hz m d1 d2 _ Hs) as (m' & E & Hs'). exists m'. split; auto.
  assert (Hs2 : srep m' d2 d1 (fun i j => nz (cj0 (a j i)))).
  { eapply srep_ext; [exact Hs'|]. intros i j _ _. apply cj_case. }
  split; [eapply inv_nz; exact Hs2|]. eapply reads_ext; [apply srep_reads_nz; exact Hs2|]. intros; apply cj0_norm.
Qed.

Lemma built_inv m : built m -> inv m.
Proof.
  induction 1 as [d1 d2 m H|l m H|m i j v m' Hb IH H|m k v m' Hb IH H|m it m' it' Hb IH Hw H
                 |m it v m' it' Hb IH Hw H|A B m HA IHA HB IHB E1 E2 H|A B m HA IHA HB IHB E1 E2 H
                 |A B m HA IHA HB IHB H|A f m HA IH Hg H|A m HA IH H|A m HA IH H|A m HA IH H|A d1 d2 m HA IH H].
  - now apply new_inv in H.
  - now apply list_inv in H.
  - destruct (inv_has_reads m IH) as (a & Hr). destruct (set_inv _ _ _ _ _ H) as [Hi Hj].
    destruct (fact_set m _ _ a i j v IH Hr Hi Hj) as (m1 & E & Hi1 & _). rewrite E in H. congruence.
  - destruct (inv_has_reads m IH) as (a & Hr). apply lset_inv in H. destruct (set_inv _ _ _ _ _ H) as [Hi Hj].
    destruct (fact_set m _ _ a _ _ v IH Hr Hi Hj) as (m1 & E & Hi1 & _). rewrite E in H. congruence.
  - destruct (inv_has_reads m IH) as (a & Hr). eapply inv_erase; eauto.
  - destruct (inv_has_reads m IH) as (a & Hr). eapply inv_setit; eauto.
  - destruct (inv_has_reads A IHA) as (a & Ra). destruct (inv_has_reads B IHB) as (b & Rb). rewrite <- E1, <- E2 in Rb.
    destruct (fact_add A B _ _ a b IHA IHB Ra Rb) as (C & E & Hc & _). congruence.
  - destruct (inv_has_reads A IHA) as (a & Ra). destruct (inv_has_reads B IHB) as (b & Rb). rewrite <- E1, <- E2 in Rb.
    destruct (fact_sub A B _ _ a b IHA IHB Ra Rb) as (C & E & Hc & _). congruence.
  - destruct (inv_has_reads A IHA) as (a & Ra). destruct (inv_has_reads B IHB) as (b & Rb).
    destruct (Nat.eq_dec (s_cols A) (s_rows B)) as [Ed|Ed]; [|rewrite s_mul_mismatch in H by auto; discriminate].
    rewrite Ed in Ra. destruct (fact_mul A B _ _ _ a b IHA IHB Ra Rb) as (C & E & Hc & _). congruence.
  - destruct (inv_has_reads A IH) as (a & Ra). eapply scale_inv_clean; eauto.
    intros i j Hi Hj. apply Hg with i j; auto. now apply Ra.
  - destruct (inv_has_reads A IH) as (a & Ra). destruct (fact_transpose A _ _ a IH Ra) as (C & E & Hc & _). congruence.
  - destruct (inv_has_reads A IH) as (a & Ra). destruct (fact_conjugate A _ _ a IH Ra) as (C & E & Hc & _). congruence.
  - destruct (inv_has_reads A IH) as (a & Ra). destruct (fact_adjugate A _ _ a IH Ra) as (C & E & Hc & _). congruence.
  - unfold s_resize in H. destruct (0 <? d1); [|discriminate]. destruct (0 <? d2); [|discriminate]. injection H as <-. auto.
Qed.

(** *** Histories of writes *)
Lemma run_inv : forall ops m d1 d2 a, inv m -> reads m d1 d2 a -> Forall (in_range d1 d2) ops ->
  exists m', run m ops = Ok m' /\ inv m' /\
    reads m' d1 d2 (fun i j => norm0 (last_write d2 ops i j (a i j))).
Proof.
  induction ops as [|o ops IH]; intros m d1 d2 a Hi Hr Hops.
  - exists m. split; [reflexivity|]. split; auto. eapply reads_ext; [exact Hr|]. intros i j Hx Hy.
    destruct (inv_reads m d1 d2 a Hi Hr) as [_ Hn]. symmetry. apply Hn; auto.
  - inversion Hops as [|? ? Ho Hops']; subst.
    assert (Hstep : exists m1, do_op m o = Ok m1 /\ inv m1 /\
        reads m1 d1 d2 (put a (fst (target d2 o)) (snd (target d2 o)) (norm0 (payload o)))).
    { destruct Hr as (E1 & E2 & E3). assert (Hr : reads m d1 d2 a) by (split; [|split]; auto).
      destruct o as [i j v|k v]; simpl in *.
      - destruct Ho. now apply fact_set.
      - destruct (lin_range d1 d2 k Ho). rewrite lset_eq by (rewrite E1, E2; auto). rewrite E2. now apply fact_set. }
    destruct Hstep as (m1 & E1 & Hi1 & Hr1). cbn [run]. rewrite E1. cbn [bind].
    destruct (IH m1 d1 d2 _ Hi1 Hr1 Hops') as (m' & E & Hi' & Hr'). exists m'. split; auto. split; auto.
    eapply reads_ext; [exact Hr'|]. intros i j Hx Hy. cbn [last_write]. unfold put.
    rewrite (Nat.eqb_sym i), (Nat.eqb_sym j).
    destruct ((fst (target d2 o) =? i) && (snd (target d2 o) =? j)); auto.
    generalize (payload o). clear - HZ Hz. intros x. revert x.
    induction ops as [|o ops IH]; intros x; simpl; [apply norm0_idem|].
    destruct ((fst (target d2 o) =? i) && (snd (target d2 o) =? j)); auto.
Qed.

(** *** Counting *)
Lemma filter_length_all {X} (p : X -> bool) l : length (filter p l) = length l <-> forall x, In x l -> p x = true.
Proof.
  induction l as [|x l IH]; simpl; [split; auto; tauto|].
  assert (Hle : length (filter p l) <= length l) by (clear; induction l as [|y l IH]; simpl; auto; destruct (p y); simpl; lia).
  destruct (p x) eqn:E; simpl; split.
  - intros H y [<-|Hy]; auto. apply IH; auto.
  - intros H. f_equal. apply IH. auto.
  - intros H. lia.
  - intros H. rewrite H in E by auto. discriminate.
Qed.
Lemma positions_length d1 d2 : length (positions d1 d2) = d1 * d2.
Proof. unfold positions. now rewrite prod_length, !seq_length. Qed.

Lemma fact_filled m d1 d2 a : inv m -> reads m d1 d2 a -> s_filled m = length (nonzeros d1 d2 a).
Proof.
  intros Hi Hr. destruct (inv_reads m d1 d2 a Hi Hr) as [Hs _].
  destruct (for_elist m d1 d2 _ Hs) as (E & _). now rewrite E, elist_nonzeros, map_length.
Qed.
Lemma fact_has_zero m d1 d2 a : inv m -> reads m d1 d2 a ->
  (s_has_zero m = true <-> exists i j, i < d1 /\ j < d2 /\ is0 (a i j) = true).
Proof.
  intros Hi Hr. unfold s_has_zero. rewrite (fact_filled m d1 d2 a Hi Hr). unfold s_size.
  destruct Hr as (-> & -> & _). rewrite <- (positions_length d1 d2). unfold nonzeros.
  rewrite negb_true_iff, Nat.eqb_neq. split.
  - intros H. destruct (existsb (fun p => is0 (a (fst p) (snd p))) (positions d1 d2)) eqn:E.
    + apply existsb_exists in E as ((i, j) & Hin & E). apply in_positions in Hin. exists i, j. intuition.
    + exfalso. apply H. apply filter_length_all. intros p Hp.
      destruct (is0 (a (fst p) (snd p))) eqn:E0; auto. exfalso.
      assert (Ht : existsb (fun p => is0 (a (fst p) (snd p))) (positions d1 d2) = true) by (apply existsb_exists; eauto).
      congruence.
  - intros (i & j & H1 & H2 & E) H. pose proof (proj1 (filter_length_all _ _) H (i, j)) as Hp.
    rewrite in_positions in Hp. specialize (Hp (conj H1 H2)). cbn [fst snd] in Hp. rewrite E in Hp. discriminate.
Qed.
Lemma fact_empty m d1 d2 a : inv m -> reads m d1 d2 a ->
  (s_empty m = true <-> forall i j, i < d1 -> j < d2 -> is0 (a i j) = true).
Proof.
  intros Hi Hr. unfold s_empty. rewrite (fact_filled m d1 d2 a Hi Hr), Nat.eqb_eq. split.
  - intros H i j H1 H2. apply length_zero_iff_nil in H. destruct (is0 (a i j)) eqn:E; auto. exfalso.
    assert (Hin : In (i, j) (nonzeros d1 d2 a)).
    { apply filter_In. cbn [fst snd]. rewrite E. split; auto. now apply in_positions. }
    rewrite H in Hin. destruct Hin.
  - intros H. apply length_zero_iff_nil. destruct (nonzeros d1 d2 a) as [|(i, j) l] eqn:E; auto. exfalso.
    assert (Hin : In (i, j) (nonzeros d1 d2 a)) by (rewrite E; now left).
    apply filter_In in Hin as [Hin Hp]. apply in_positions in Hin. cbn [fst snd] in Hp. rewrite H in Hp by tauto. discriminate.
Qed.
Definition nzs (d : nat) (x : nat -> N) : list nat := filter (fun j => negb (is0 (x j))) (seq 0 d).
Lemma fact_row_filled m d1 d2 a i : inv m -> reads m d1 d2 a -> i < d1 -> s_row_filled m i = Ok (length (nzs d2 (a i))).
Proof.
  intros Hi Hr Hx. destruct (inv_reads m d1 d2 a Hi Hr) as [Hs _].
  destruct (for_rlist m d1 d2 _ i Hs Hx) as (E & _). rewrite E, rlist_nonzeros, map_length. reflexivity.
Qed.
Lemma fact_row_filled_out m d1 d2 a i : inv m -> reads m d1 d2 a -> d1 <= i -> s_row_filled m i = Ok 0.
Proof.
  intros Hi Hr Hx. destruct (inv_reads m d1 d2 a Hi Hr) as [Hs _].
  unfold s_row_filled. eapply s_row_out; eauto.
Qed.

(** *** Iteration *)
Lemma foreach_collect {X Y} (h : X -> Y) (l : list X) : forall acc,
  foreach l (fun e s => Ok (s ++ [h e])) acc = Ok (acc ++ map h l).
Proof.
  induction l as [|x l IH]; intros acc; simpl; [now rewrite app_nil_r|]. rewrite IH, <- app_assoc. reflexivity.
Qed.
Lemma fact_entries m d1 d2 a : inv m -> reads m d1 d2 a -> s_entries m = Ok (map (with_value a) (nonzeros d1 d2 a)).
Proof.
  intros Hi Hr. destruct (inv_reads m d1 d2 a Hi Hr) as [Hs _].
  destruct (for_elist m d1 d2 _ Hs) as (_ & _ & E). unfold s_entries.
  rewrite (E _ (fun i j v acc => Ok (acc ++ [(i, j, v)]))).
  rewrite (foreach_collect (fun e => (fst (fst e), snd (fst e), snd e))). simpl. rewrite elist_nonzeros, map_map. f_equal.
Qed.
Lemma fact_begins m : inv m -> s_begin m = s_cbegin m.
Proof.
  intros (a & R & E & HR & _). rewrite E. destruct (begins_ok R _ HR) as [(x & Ex & Hx) (y & Ey & Hy)].
  rewrite Ex, Ey. destruct (iters 0 0 R) as [|z l] eqn:El.
  - apply iters_empty in El. clear - Ex Ey El. unfold s_begin, s_cbegin in *.
    assert (H : s_empty (crs R (s_cols m)) = true) by (unfold s_empty; rewrite filled_crs, El; reflexivity).
    rewrite H in *. congruence.
  - destruct Hx as [-> _], Hy as [-> _]. reflexivity.
Qed.
Lemma fact_row_entries m d1 d2 a i : inv m -> reads m d1 d2 a -> i < d1 ->
  s_row_entries m i = Ok (map (fun j => (i, j, a i j)) (nzs d2 (a i))).
Proof.
  intros Hi Hr Hx. destruct (inv_reads m d1 d2 a Hi Hr) as [Hs _].
  destruct (for_rlist m d1 d2 _ i Hs Hx) as (_ & E). unfold s_row_entries.
  rewrite (E _ (fun i j v acc => Ok (acc ++ [(i, j, v)]))).
  rewrite (foreach_collect (fun e => (i, fst e, snd e))). simpl. rewrite rlist_nonzeros, map_map. reflexivity.
Qed.
Lemma fact_col_entries m d1 d2 a j : inv m -> reads m d1 d2 a -> j < d2 ->
  s_col_entries m j = match nzs d1 (fun i => a i j) with
    | [] => if s_empty m then Ok [] else Abort
    | l => Ok (map (fun i => (i, j, a i j)) l) end.
Proof.
  intros Hi Hr Hx. destruct (inv_reads m d1 d2 a Hi Hr) as [Hs _].
  pose proof (for_clist Hz m d1 d2 _ j Hs Hx) as E. unfold s_col_entries.
  rewrite (E _ (fun i j v acc => Ok (acc ++ [(i, j, v)]))).
  rewrite (foreach_collect (fun e => (fst e, j, snd e))). simpl. rewrite (rlist_nonzeros d1 (fun i => a i j)), map_map.
  fold (nzs d1 (fun i => a i j)). destruct (nzs d1 (fun i => a i j)); reflexivity.
Qed.
Lemma it_loop_get {St} m inc (f : sit -> St -> res St) : forall fuel it s r,
  it_loop fuel m inc it (fun it s => let* _ := it_get m it in f it s) s = Ok r ->
  it_loop fuel m inc it f s = Ok r.
Proof.
  induction fuel as [|fuel IH]; intros it s r H; [discriminate|]. cbn [it_loop] in *.
  destruct (s_end m); try discriminate. cbn [bind] in *. destruct (negb (it_eq m it a)); auto.
  destruct (it_get m it); try discriminate. cbn [bind] in *.
  destruct (f it s); try discriminate. cbn [bind] in *. destruct (inc m it); try discriminate. cbn [bind] in *. auto.
Qed.
Lemma fact_col_filled m d1 d2 a j : inv m -> reads m d1 d2 a -> j < d2 ->
  (exists i, i < d1 /\ is0 (a i j) = false) ->
  s_col_filled m j = Ok (length (nzs d1 (fun i => a i j))).
Proof.
  intros Hi Hr Hx (i0 & Hi0 & Hn0). destruct (inv_reads m d1 d2 a Hi Hr) as [Hs _].
  pose proof (for_clist Hz m d1 d2 _ j Hs Hx nat (fun _ _ _ n => Ok (S n)) 0) as E. cbn beta in E.
  rewrite (rlist_nonzeros d1 (fun i => a i j)) in E. fold (nzs d1 (fun i => a i j)) in E.
  assert (Hin : In i0 (nzs d1 (fun i => a i j))).
  { apply filter_In. rewrite Hn0. split; auto. apply in_seq. lia. }
  assert (Hc : forall (l : list (nat * N)) k, foreach l (fun _ n => Ok (S n)) k = Ok (k + length l)).
  { induction l as [|e l IH]; intros k; simpl; [f_equal; lia|]. rewrite IH. f_equal. lia. }
  unfold s_col_filled. unfold s_for_col in *. destruct (s_col_begin m j) as [it| | | | |]; cbn [bind] in *;
    try (destruct (nzs d1 (fun i => a i j)) as [|y l]; [destruct Hin|cbn [map] in E; rewrite Hc in E; discriminate]).
  eapply it_loop_get. rewrite E.
  destruct (nzs d1 (fun i => a i j)) as [|y l]; [destruct Hin|]. cbn [map]. rewrite Hc. simpl. now rewrite map_length.
Qed.
End Facts.
