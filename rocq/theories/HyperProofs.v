(** HyperCube<T,2>::generate builds a grid. *)
From Coq Require Import List Arith Bool Lia Ring Field.
From Verif Require Import Base BaseProofs Num OrdField Spec VectorModel VectorProofs SimplexModel SimplexSpec UtilsSpec
  MeshModel MeshSpec MeshPool MeshProofs MeshResult.
Import ListNotations.
Local Open Scope nat_scope.
Open Scope res_scope.

Section Hyper.
Context {N : Num} (HF : FieldLaws N) (HN : NatLaws N).
Add Field hfld : (fl_field N HF).
Notation mst := (mst N).
Variables (e0 e1 : nat) (hx hy ox oy : N).
Hypothesis H0 : 1 <= e0.
Hypothesis H1 : 1 <= e1.
Notation w := (e1 + 1).
(** vertex number k, and element number e, of the grid with rows of w vertices *)
Definition gpos (k : nat) : list N := [ox + hx * nofnat (k mod w); oy + hy * nofnat (k / w)]%num.
Definition gcell (c : nat) : nat := c / e1 * w + c mod e1.
Definition gtri (e : nat) : list nat :=
  let a := gcell (e / 2) in if Nat.even e then [a; a + w; a + w + 1] else [a; a + w + 1; a + 1].
Definition rim (k : nat) : Prop := k < (e0 + 1) * w /\ (k mod w = 0 \/ k mod w = e1 \/ k / w = 0 \/ k / w = e0).
Notation gV n := (map gpos (seq 0 n)).
Notation gT n := (map gtri (seq 0 n)).
Lemma gV_len n : length (gV n) = n. Proof. now rewrite map_length, seq_length. Qed.
Lemma gT_len n : length (gT n) = n. Proof. now rewrite map_length, seq_length. Qed.
Lemma gV_snoc n : gV (S n) = gV n ++ [gpos n]. Proof. now rewrite seq_S, map_app. Qed.
Lemma gT_snoc n : gT (S n) = gT n ++ [gtri n]. Proof. now rewrite seq_S, map_app. Qed.

Lemma or_flags_mesh (V : list (list N)) F T i : i < length V -> or_flags (mesh_of V F T) i true false = Ok (mesh_of V (fup F i true) T).
Proof.
  intros Hi. pose proof (mark_vertex V F T i Hi) as E. unfold do_op, m_vertex, mesh_of in E. cbn [mV] in E. rewrite vget_seq in E by auto. exact E.
Qed.
Lemma marked_vertex (V : list (list N)) F T x : okT (length V) T -> F (length V) = false ->
  (let '(s, p) := new_vertex (mesh_of V F T) x in let* s := or_flags s p true false in m_addVertex s (Some p)) =
  Ok (mesh_of (V ++ [x]) (fup F (length V) true) T).
Proof.
  intros HT HFv. unfold new_vertex, m_addVertex, or_flags, set_hv, mesh_of. cbn [hv he hd mV mE mD].
  rewrite pool_len, pool_snoc, deref_pool by lia. cbn [bind]. rewrite store_pool by lia. cbn [bind hv he hd mV mE mD]. rewrite deref_pool by lia. cbn [bind].
  rewrite store_pool by lia. cbn [bind].
  rewrite !fup_eq, seq_length. unfold mk_vertex. cbn [mv_bound mv_impl mv_pos mv_el orb]. f_equal. f_equal.
  - rewrite app_length, Nat.add_1_r. apply pool_ext. intros k Hk. unfold vtx.
    destruct (Nat.eq_dec k (length V)) as [->|Hn].
    + rewrite !fup_eq, app_nth2, Nat.sub_diag by lia. cbn. f_equal. symmetry. apply length_zero_iff_nil.
      destruct (owners T (length V)) eqn:E; auto. exfalso. assert (H : In n (owners T (length V))) by (rewrite E; now left).
      apply owners_in in H as (He & H). apply (HT (nth n T [])) in H; [lia|]. now apply nth_In.
    + rewrite !fup_ne by auto. rewrite app_nth1 by lia. reflexivity.
  - apply pool_ext. intros e He. unfold elt. f_equal. f_equal. apply map_ext_in. intros k Hk.
    symmetry. apply app_nth1. eapply HT; [|exact Hk]. now apply nth_In.
  - rewrite app_length, Nat.add_1_r, seq_S. reflexivity.
Qed.
Lemma plain_vertex (V : list (list N)) F T x : okT (length V) T -> F (length V) = false ->
  hc_add (mesh_of V F T) x = Ok (mesh_of (V ++ [x]) F T, length V).
Proof.
  intros HT HFv. pose proof (add_vertex V F T x HT HFv) as E. unfold hc_add. unfold do_op in E.
  destruct (new_vertex (mesh_of V F T) x) as [s p] eqn:En. rewrite E. cbn [bind]. unfold new_vertex in En. inversion En. cbn [mesh_of hv]. now rewrite pool_len.
Qed.
Lemma tri_mesh (V : list (list N)) F T a b c : a < length V -> b < length V -> c < length V -> a <> b -> a <> c -> b <> c ->
  hc_tri (mesh_of V F T) a b c = Ok (mesh_of V F (T ++ [[a; b; c]])).
Proof.
  intros Ha Hb Hc A B C. pose proof (add_element V F T a b c Ha Hb Hc A B C) as E. unfold do_op, m_vertex in E. cbn [mV mesh_of] in E.
  rewrite !vget_seq in E by auto. exact E.
Qed.
Lemma mesh_F (V : list (list N)) F G T : (forall k, k < length V -> F k = G k) -> mesh_of V F T = mesh_of V G T.
Proof. intros H. unfold mesh_of. f_equal. apply pool_ext. intros k Hk. unfold vtx. now rewrite H. Qed.

(** the vector arithmetic *)
Lemma scale_ex j : v_scale [hx; n0] (nofnat j) = Ok [hx * nofnat j; n0]%num.
Proof. change (Ok [hx * nofnat j; n0 * nofnat j]%num = Ok [hx * nofnat j; n0]%num). do 3 f_equal. ring. Qed.
Lemma scale_ey j : v_scale [n0; hy] (nofnat j) = Ok [n0; hy * nofnat j]%num.
Proof. change (Ok [n0 * nofnat j; hy * nofnat j]%num = Ok [n0; hy * nofnat j]%num). do 2 f_equal. ring. Qed.
Lemma add2 (a b c d : N) : v_add [a; b] [c; d] = Ok [a + c; b + d]%num.
Proof. reflexivity. Qed.

Lemma divw i j : j < w -> (i * w + j) / w = i.
Proof. intros H. symmetry. apply (Nat.div_unique _ _ _ j); lia. Qed.
Lemma modw i j : j < w -> (i * w + j) mod w = j.
Proof. intros H. symmetry. apply (Nat.mod_unique _ _ i); lia. Qed.
Lemma gcell_lt c : c < e0 * e1 -> c / e1 < e0.
Proof. intros H. apply Nat.div_lt_upper_bound; lia. Qed.
Lemma gtri_even c : gtri (2 * c) = [gcell c; gcell c + w; gcell c + w + 1].
Proof. unfold gtri. replace (Nat.even (2 * c)) with true. 2: { symmetry. apply Nat.even_spec. now exists c. }
  replace (2 * c / 2) with c by (symmetry; rewrite Nat.mul_comm; apply Nat.div_mul; lia). reflexivity. Qed.
Lemma gtri_odd c : gtri (2 * c + 1) = [gcell c; gcell c + w + 1; gcell c + 1].
Proof.
  unfold gtri. replace (Nat.even (2 * c + 1)) with false. 2: { symmetry. apply not_true_iff_false. rewrite Nat.even_spec. intros (k & Hk). lia. }
  replace ((2 * c + 1) / 2) with c. 2: { apply (Nat.div_unique _ _ _ 1); lia. } reflexivity.
Qed.
Lemma gcell_at i j : j < e1 -> gcell (i * e1 + j) = i * w + j.
Proof.
  intros H. unfold gcell. replace ((i * e1 + j) / e1) with i by (apply (Nat.div_unique _ _ _ j); lia).
  replace ((i * e1 + j) mod e1) with j by (apply (Nat.mod_unique _ _ i); lia). reflexivity.
Qed.
Lemma gtri_ok c n : (c / e1 + 1) * w + c mod e1 + 1 < n -> okT n [gtri (2 * c); gtri (2 * c + 1)].
Proof.
  intros H t [<-|[<-|[]]]; rewrite ?gtri_even, ?gtri_odd; (split; [reflexivity|]); (split; [repeat constructor; cbn; lia|]); intros k Hk; cbn in Hk; unfold gcell in *; nia.
Qed.
Lemma okT_gT nc n : (forall c, c < nc -> (c / e1 + 1) * w + c mod e1 + 1 < n) -> okT n (gT (2 * nc)).
Proof.
  intros H t Ht. apply in_map_iff in Ht as (e & <- & He). apply in_seq in He.
  assert (Hc : e / 2 < nc) by (apply Nat.div_lt_upper_bound; lia).
  destruct (Nat.Even_or_Odd e) as [(c & Hc')|(c & Hc')]; subst e.
  - apply (gtri_ok c n); [apply H; lia|now left].
  - apply (gtri_ok c n); [apply H; lia|right; now left].
Qed.
(** cells of complete rows plus part of a row fit below the vertices made so far *)
Lemma cells_fit i j n : j <= e1 -> (i + 1) * w + j < n + 0 \/ (j = 0 /\ (i + 1) * w <= n) -> forall c, c < i * e1 + j -> (c / e1 + 1) * w + c mod e1 + 1 < n.
Proof.
  intros Hj Hn c Hc. assert (He : e1 <> 0) by lia. pose proof (Nat.div_mod c e1 He) as D. pose proof (Nat.mod_upper_bound c e1 He) as M.
  set (q := c / e1) in *. set (r := c mod e1) in *.
  assert (Q : q < i \/ (q = i /\ r < j)) by nia.
  destruct Q as [Q|(-> & Q)]; [|nia].
  assert ((q + 1) * w + w <= (i + 1) * w) by nia. nia.
Qed.

Definition part (n full : nat) (F : nat -> bool) : Prop :=
  forall k, F k = true <-> k < n /\ (k < w \/ k mod w = 0 \/ (k mod w = e1 /\ k < full)).

Lemma first_row : returns (hc_first [hx; n0] [ox; oy] e1 m_new) (fun st =>
  snd st = seq 0 w /\ exists F, fst st = mesh_of (gV w) F [] /\ part w w F).
Proof.
  unfold hc_first.
  eapply returns_mono; [apply (for_returns (fun j (st : mst * list nat) => length (snd st) = w /\ (forall i, i < j -> nth i (snd st) 0 = i) /\
     exists F, fst st = mesh_of (gV j) F [] /\ forall k, F k = true <-> k < j))|].
  - lia.
  - cbn [fst snd]. split; [apply repeat_length|]. split; [intros; lia|]. exists (fun _ => false). split; [reflexivity|]. intros k. split; [discriminate|lia].
  - intros j [s row] Hj (Hl & Hr & F & Hs & HFk). cbn [fst snd] in *. subst s. rewrite scale_ex. cbn [bind]. rewrite add2. cbn [bind].
    assert (Hg : [ox + hx * nofnat j; oy + n0]%num = gpos j).
    { unfold gpos. rewrite Nat.mod_small, Nat.div_small by lia. rewrite (nl_0 N HN). do 2 f_equal. ring. }
    rewrite Hg. pose proof (marked_vertex (gV j) F [] (gpos j)) as M. rewrite gV_len in M.
    destruct (new_vertex (mesh_of (gV j) F []) (gpos j)) as [s p] eqn:En.
    assert (Ep : p = j) by (unfold new_vertex in En; inversion En; cbn [mesh_of hv]; now rewrite pool_len, gV_len). subst p.
    assert (Fj : F j = false) by (apply not_true_iff_false; rewrite HFk; lia).
    specialize (M ltac:(intros t []) Fj). destruct (or_flags s j true false); cbn [bind] in M |- *; try discriminate. rewrite M. cbn [bind].
    rewrite vset_ok by lia. cbn [bind]. apply returns_ok. cbn [fst snd]. split; [now rewrite upd_length|]. split.
    + intros i Hi. destruct (Nat.eq_dec i j) as [->|Hn]; [apply nth_upd_eq; lia|]. rewrite nth_upd_ne by auto. apply Hr. lia.
    + exists (fup F j true). rewrite <- gV_snoc. split; [reflexivity|]. intros k. destruct (Nat.eq_dec k j) as [->|Hn]; [rewrite fup_eq; intuition lia|].
      rewrite fup_ne, HFk by auto. lia.
  - cbn beta. intros [s row] (Hl & Hr & F & Hs & HFk). cbn [fst snd] in *. split.
    + apply (list_eq_nth _ _ 0); [now rewrite seq_length|]. intros i Hi. rewrite seq_nth by lia. apply Hr. lia.
    + exists F. split; auto. intros k. rewrite HFk. intuition lia.
Qed.

Lemma part_false n full F : part n full F -> F n = false.
Proof. intros H. apply not_true_iff_false. rewrite (H n). lia. Qed.
Definition rows_ok (i : nat) (st : mst * list nat) : Prop := (* i complete rows *)
  snd st = seq ((i - 1) * w) w /\ exists F, fst st = mesh_of (gV (i * w)) F (gT (2 * ((i - 1) * e1))) /\ part (i * w) (i * w) F.
Lemma row_step i st : 1 <= i -> rows_ok i st -> returns (hc_row [hx; n0] [n0; hy] [ox; oy] e1 i st) (rows_ok (S i)).
Proof.
  intros Hi (Hr & F & Hs & HFk). destruct st as [s row]. cbn [fst snd] in *. subst s row. unfold hc_row.
  rewrite scale_ey. cbn [bind]. rewrite add2. cbn [bind].
  assert (Hg : [ox + n0; oy + hy * nofnat i]%num = gpos (i * w)).
  { unfold gpos. replace (i * w) with (i * w + 0) by lia. rewrite divw, modw by lia. rewrite (nl_0 N HN). f_equal. ring. }
  rewrite Hg. destruct i as [|i]; [lia|]. replace (S i - 1) with i in * by lia. clear Hi.
  set (nc := i * e1). assert (HT0 : okT (S i * w) (gT (2 * nc))).
  { apply okT_gT. replace nc with (i * e1 + 0) by (unfold nc; lia). apply cells_fit; [lia|]. right. split; nia. }
  pose proof (marked_vertex (gV (S i * w)) F (gT (2 * nc)) (gpos (S i * w))) as M. rewrite gV_len in M.
  destruct (new_vertex _ _) as [s p] eqn:En.
  assert (Ep : p = S i * w) by (unfold new_vertex in En; inversion En; cbn [mesh_of hv]; now rewrite pool_len, gV_len). subst p.
  specialize (M HT0 (part_false _ _ _ HFk)). destruct (or_flags s (S i * w) true false) as [s1| | | | |]; cbn [bind] in M |- *; try discriminate.
  rewrite M. cbn [bind]. clear M En s1 s. rewrite <- gV_snoc.
  assert (HF1 : part (S i * w + 1) (S i * w) (fup F (S i * w) true)).
  { intros k. destruct (Nat.eq_dec k (S i * w)) as [->|Hn].
    - rewrite fup_eq. split; auto. intros _. split; [lia|]. right. left. replace (S i * w) with (S i * w + 0) by lia. apply modw. lia.
    - rewrite fup_ne, (HFk k) by auto. intuition lia. }
  eapply returns_bind.
  eapply returns_mono; [apply (for_returns (fun j (st : mst * list nat * nat) => let '(s, row, lastv) := st in
     lastv = S i * w + j - 1 /\ length row = w /\ (forall k, k < w -> nth k row 0 = if k <? j - 1 then S i * w + k else i * w + k) /\
     exists F, s = mesh_of (gV (S i * w + j)) F (gT (2 * (nc + (j - 1)))) /\ part (S i * w + j) (S i * w) F))|].
  - lia.
  - split; [lia|]. split; [apply seq_length|]. split; [intros k Hk; replace (k <? 1 - 1) with false by (symmetry; apply Nat.ltb_ge; lia); now rewrite seq_nth|].
    exists (fup F (S i * w) true). split; [|exact HF1]. replace (S i * w + 1) with (S (S i * w)) by lia. replace (nc + (1 - 1)) with nc by lia. reflexivity.
  - intros j [[s row] lastv] Hj (Hlast & Hlen & Hrow & G & Hs & HG). subst s lastv.
    rewrite scale_ex. cbn [bind]. rewrite add2. cbn [bind]. rewrite add2. cbn [bind].
    assert (Hgj : [ox + hx * nofnat j + n0; oy + n0 + hy * nofnat (S i)]%num = gpos (S i * w + j)).
    { unfold gpos. rewrite divw, modw by lia. f_equal; [ring|]. f_equal. ring. }
    rewrite Hgj. destruct j as [|j]; [lia|]. replace (S j - 1) with j in * by lia.
    assert (HTj : okT (S i * w + S j) (gT (2 * (nc + j)))).
    { apply okT_gT. unfold nc. apply cells_fit; [lia|]. left. nia. }
    rewrite plain_vertex; [|now rewrite gV_len|rewrite gV_len; eapply part_false; eauto]. cbn [bind]. rewrite gV_len, <- gV_snoc.
    replace (S i * w + S j - 1) with (S i * w + j) by lia. set (v := S i * w + S j). rewrite (vget_ok _ _ 0) by lia. cbn [bind]. rewrite Hrow by lia. rewrite Nat.ltb_irrefl.
    rewrite tri_mesh; [|rewrite gV_len; unfold v; nia|rewrite gV_len; unfold v; nia|rewrite gV_len; unfold v; nia|nia|unfold v; nia|unfold v; nia]. cbn [bind].
    rewrite (vget_ok _ _ 0) by lia. cbn [bind]. rewrite Hrow by lia. replace (S j <? j) with false by (symmetry; apply Nat.ltb_ge; lia).
    rewrite tri_mesh; [|rewrite gV_len; unfold v; nia|rewrite gV_len; unfold v; nia|rewrite gV_len; unfold v; nia|unfold v; nia|nia|unfold v; nia]. cbn [bind].
    rewrite vset_ok by lia. cbn [bind]. apply returns_ok. split; [unfold v; lia|]. split; [now rewrite upd_length|]. split.
    + intros k Hk. replace (S (S j) - 1) with (S j) by lia. destruct (Nat.eq_dec k j) as [->|Hn].
      * rewrite nth_upd_eq by lia. replace (j <? S j) with true by (symmetry; apply Nat.ltb_lt; lia). reflexivity.
      * rewrite nth_upd_ne, Hrow by auto. destruct (k <? j) eqn:E.
        -- apply Nat.ltb_lt in E. replace (k <? S j) with true by (symmetry; apply Nat.ltb_lt; lia). reflexivity.
        -- apply Nat.ltb_ge in E. replace (k <? S j) with false by (symmetry; apply Nat.ltb_ge; lia). reflexivity.
    + exists G. split.
      * replace (S i * w + S (S j)) with (S v) by (unfold v; lia). f_equal. replace (2 * (nc + (S (S j) - 1))) with (S (S (2 * (nc + j)))) by lia.
        rewrite !gT_snoc. replace (S (2 * (nc + j))) with (2 * (nc + j) + 1) by lia. rewrite gtri_even, gtri_odd. unfold nc. rewrite gcell_at by lia.
        rewrite <- !app_assoc. cbn [app]. replace (i * w + j + w + 1) with v by (unfold v; nia). replace (i * w + j + w) with (S i * w + j) by nia.
        replace (i * w + S j) with (i * w + j + 1) by nia. reflexivity.
      * intros k. rewrite (HG k). split; [intuition lia|]. intros (Hk & Hc). split; [|exact Hc].
        destruct (Nat.eq_dec k (S i * w + S j)) as [->|]; [|lia]. rewrite modw in Hc by lia. lia.
  - cbn beta. intros [[s row] lastv] (Hlast & Hlen & Hrow & G & Hs & HG). subst s lastv.
    replace (S i * w + w - 1) with (S i * w + e1) by lia. replace (w - 1) with e1 in * by lia.
    rewrite or_flags_mesh by (rewrite gV_len; lia). cbn [bind]. rewrite vset_ok by lia. cbn [bind]. apply returns_ok. split; cbn [fst snd].
    + replace (S (S i) - 1) with (S i) by lia. apply (list_eq_nth _ _ 0); [now rewrite upd_length, seq_length|]. rewrite upd_length. intros k Hk. rewrite seq_nth by lia.
      destruct (Nat.eq_dec k e1) as [->|Hn]; [apply nth_upd_eq; lia|]. rewrite nth_upd_ne, Hrow by (auto; lia). replace (k <? e1) with true by (symmetry; apply Nat.ltb_lt; lia). reflexivity.
    + exists (fup G (S i * w + e1) true). split.
      * replace (S (S i) - 1) with (S i) by lia. replace (S (S i) * w) with (S i * w + w) by lia. replace (2 * (S i * e1)) with (2 * (nc + e1)) by (unfold nc; nia). reflexivity.
      * intros k. destruct (Nat.eq_dec k (S i * w + e1)) as [->|Hn].
        -- rewrite fup_eq. split; auto. intros _. split; [lia|]. right. right. split; [apply modw; lia|lia].
        -- rewrite fup_ne, (HG k) by auto. split; [intuition lia|]. intros (Hk & Hc). split; [lia|]. destruct Hc as [Hc|[Hc|(Hc & Hc')]]; auto.
           right. right. split; auto. destruct (lt_dec k (S i * w)); auto. exfalso. apply Hn.
           pose proof (Nat.div_mod k w ltac:(lia)) as D. rewrite Hc in D. assert (k / w = S i) by nia. nia.
Qed.
Lemma rim_part k F : part ((e0 + 1) * w) ((e0 + 1) * w) F -> (F k = true \/ (k < (e0 + 1) * w /\ k / w = e0)) <-> rim k.
Proof.
  intros HFk. unfold rim. rewrite (HFk k).
  assert (D : k < w <-> k / w = 0). { split; [apply Nat.div_small|]. intros E. apply Nat.div_small_iff in E; lia. }
  rewrite D. intuition lia.
Qed.
Theorem generate_mesh (s0 s1 : N) : hx = (s0 / nofnat e0)%num -> hy = (s1 / nofnat e1)%num ->
  exists F, hc_generate e0 e1 [s0; s1] [ox; oy] = m_setupNeighbors (mesh_of (gV ((e0 + 1) * w)) F (gT (2 * (e0 * e1)))) /\
    (forall k, F k = true <-> rim k) /\ okT ((e0 + 1) * w) (gT (2 * (e0 * e1))).
Proof.
  intros Ex Ey. unfold hc_generate. replace ((e0 <? 1) || (e1 <? 1)) with false by (symmetry; apply orb_false_iff; rewrite !Nat.ltb_ge; lia).
  assert (X : hc_ex [s0; s1] e0 = Ok [hx; n0]) by (rewrite Ex; reflexivity). assert (Y : hc_ey [s0; s1] e1 = Ok [n0; hy]) by (rewrite Ey; reflexivity).
  rewrite X, Y. cbn [bind]. destruct first_row as (st & -> & Hrow & F0 & Hs & HF0). cbn [bind].
  assert (R1 : rows_ok 1 st).
  { split; [rewrite Hrow; f_equal; lia|]. exists F0. rewrite Hs. replace (1 * w) with w by lia. replace (2 * ((1 - 1) * e1)) with 0 by lia. split; [reflexivity|exact HF0]. }
  destruct (for_returns (fun i st => rows_ok i st) 1 (e0 + 1) (fun i st => hc_row [hx; n0] [n0; hy] [ox; oy] e1 i st) st ltac:(lia) R1) as (st' & E & R).
  { intros i st1 Hi R. apply row_step; auto; lia. }
  rewrite E. cbn [bind]. destruct R as (Hr & F & Hst & HFk). destruct st' as [s row]. cbn [fst snd] in *. subst s row.
  replace (e0 + 1 - 1) with e0 by lia. replace (e0 + 1 - 1) with e0 in HFk by lia.
  assert (L : returns (for_ 0 (e1 + 1) (fun j s => let* p := vget (seq (e0 * w) w) j in or_flags s p true false) (mesh_of (gV ((e0 + 1) * w)) F (gT (2 * (e0 * e1)))))
    (fun s => exists G, s = mesh_of (gV ((e0 + 1) * w)) G (gT (2 * (e0 * e1))) /\ forall k, G k = true <-> F k = true \/ (e0 * w <= k < e0 * w + w))).
  { apply (for_returns (fun j s => exists G, s = mesh_of (gV ((e0 + 1) * w)) G (gT (2 * (e0 * e1))) /\ forall k, G k = true <-> F k = true \/ (e0 * w <= k < e0 * w + j))).
    - lia.
    - exists F. split; auto. intros k. intuition lia.
    - intros j s Hj (G & -> & HG). rewrite (vget_ok _ _ 0) by (rewrite seq_length; lia). cbn [bind]. rewrite seq_nth by lia.
      rewrite or_flags_mesh by (rewrite gV_len; nia). apply returns_ok. exists (fup G (e0 * w + j) true). split; auto.
      intros k. destruct (Nat.eq_dec k (e0 * w + j)) as [->|Hn]; [rewrite fup_eq; intuition lia|]. rewrite fup_ne, HG by auto. intuition lia. }
  destruct L as (s & -> & G & -> & HG). cbn [bind]. exists G. split; [reflexivity|]. split.
  - intros k. rewrite HG, <- (rim_part k F HFk). assert (Q : e0 * w <= k < e0 * w + w <-> k < (e0 + 1) * w /\ k / w = e0); [|rewrite Q; tauto].
    split.
    + intros Hk. split; [nia|]. replace k with (e0 * w + (k - e0 * w)) by lia. apply divw. lia.
    + intros (Hk & D). pose proof (Nat.div_mod k w ltac:(lia)) as DM. pose proof (Nat.mod_upper_bound k w ltac:(lia)). nia.
  - apply okT_gT. replace (e0 * e1) with (e0 * e1 + 0) by lia. apply cells_fit; [lia|]. right. split; lia.
Qed.
End Hyper.
