(** prepareMesh after setupNeighbors. *)
From Coq Require Import List Arith Bool Lia Ring Field.
From Verif Require Import Base BaseProofs Num OrdField UtilsSpec VectorModel SimplexModel MeshModel MeshSpec MeshPool MeshProofs MeshResult MeshDofSpec.
Import ListNotations.
Local Open Scope nat_scope.
Open Scope res_scope.

(** *** first occurrences and their numbers *)
Fixpoint index (d : nat) (l : list nat) : nat := match l with [] => 0 | x :: r => if x =? d then 0 else S (index d r) end.
Definition firsts (l : list nat) : list nat := fold_left (fun a x => if inb x a then a else a ++ [x]) l [].
Lemma firsts_snoc l x : firsts (l ++ [x]) = if inb x (firsts l) then firsts l else firsts l ++ [x].
Proof. unfold firsts. rewrite fold_left_app. reflexivity. Qed.
Lemma firsts_in l : forall x, In x (firsts l) <-> In x l.
Proof.
  induction l as [|y l IH] using rev_ind; [reflexivity|]. intros x. rewrite firsts_snoc, in_app_iff. destruct (inb y (firsts l)) eqn:E.
  - apply inb_spec in E. apply IH in E. rewrite IH. cbn. split; [tauto|]. intros [H|[->|[]]]; auto.
  - rewrite in_app_iff, IH. reflexivity.
Qed.
Lemma firsts_nodup l : NoDup (firsts l).
Proof.
  induction l as [|y l IH] using rev_ind; [constructor|]. rewrite firsts_snoc. destruct (inb y (firsts l)) eqn:E; auto.
  apply inb_false in E.   rewrite <- (rev_involutive (firsts l ++ [y])). apply NoDup_rev. rewrite rev_app_distr. cbn. constructor; [now rewrite <- in_rev|]. now apply NoDup_rev.
Qed.
Lemma index_lt d l : In d l -> index d l < length l.
Proof. induction l as [|x l IH]; [intros []|]. intros H. cbn. destruct (x =? d) eqn:E; [lia|]. apply Nat.eqb_neq in E. destruct H; [congruence|]. apply IH in H. lia. Qed.
Lemma nth_index d l : In d l -> nth (index d l) l 0 = d.
Proof. induction l as [|x l IH]; [intros []|]. intros H. cbn. destruct (x =? d) eqn:E; [now apply Nat.eqb_eq|]. apply Nat.eqb_neq in E. destruct H; [congruence|]. now apply IH. Qed.
Lemma index_app d l k : In d l -> index d (l ++ k) = index d l.
Proof. induction l as [|x l IH]; [intros []|]. intros H. cbn. destruct (x =? d) eqn:E; auto. apply Nat.eqb_neq in E. destruct H; [congruence|]. now rewrite IH. Qed.
Lemma index_new d l : ~ In d l -> index d (l ++ [d]) = length l.
Proof. induction l as [|x l IH]; cbn; intros H; [now rewrite Nat.eqb_refl|]. destruct (x =? d) eqn:E; [apply Nat.eqb_eq in E; tauto|]. now rewrite IH by tauto. Qed.

Section Dof.
Context {N : Num}.
Notation mst := (mst N).
Variables (nv : nat) (fv : nat -> mvert N) (fs : nat -> simplex N) (T : list (list nat)).
Let m := length T.
Let tr e := nth e T [].
Variables (nb : nat -> list (option nat)) (nd : nat) (xs : nat -> list nat) (o : nat -> nat) (q : nat -> option nat).
Hypothesis HT : okT nv T.
Hypothesis G : graph T nb nd xs o q.
Hypothesis Hset : forall e i, e < m -> i < 3 -> setp nb e i.
Hypothesis Hpos : forall k, k < nv -> length (mv_pos (fv k)) = 2.

Definition dn (ed : nat -> list (option nat)) (dd : nat -> list (option nat)) : mst :=
  mkM (pool nv fv) (pool m (fun e => mkME (fs e) (map Some (tr e)) (nb e) (ed e)))
      (pool nd (fun d => mkED (map Some (xs d)) (Some (o d)) (q d) (dd d))) (seq 0 nv) (seq 0 m) (seq 0 nd).
Lemma dn_ext ed dd ed' dd' : (forall e, e < m -> ed e = ed' e) -> (forall d, d < nd -> dd d = dd' d) -> dn ed dd = dn ed' dd'.
Proof. intros A B. unfold dn. f_equal; apply pool_ext; intros k Hk; f_equal; auto. Qed.
Lemma the_edge e i : e < m -> i < 3 -> exists d, d < nd /\ nth_error (nb e) i = Some (Some d) /\ vget (nb e) i = Ok (Some d) /\ same_set (xs d) (without i (tr e)).
Proof.
  intros He Hi. destruct (Hset e i He Hi) as (d & Hd). destruct (g_nb _ _ _ _ _ _ G e i d He Hd) as (A & B). exists d. split; auto. split; auto. split; auto.
  unfold vget. now rewrite Hd.
Qed.
Lemma edge_two d : d < nd -> exists x y, xs d = [x; y] /\ x < nv /\ y < nv /\ x <> y.
Proof.
  intros Hd. destruct (g_edge _ _ _ _ _ _ G d Hd) as (A & (i & Hi & Ei) & C). fold (tr (o d)) in Ei.
  destruct (without_two (tr (o d)) i (tr_triple nv T HT _ A) Hi) as (x & y & Ew & Hxy & Hx & Hy). rewrite Ew in Ei.
  exists x, y. split; auto. split; [eapply (tr_lt nv T HT); eauto|]. split; [eapply (tr_lt nv T HT); eauto|]. auto.
Qed.
Definition all_v (e : nat) : list (option nat) := map Some (tr e).
Definition all_x (d : nat) : list (option nat) := map Some (xs d).
Definition pm_one (e i : nat) (ns : list (option nat)) (s : mst) : res mst :=
      let* n := vget ns i in
      let* d := nn n in
      let* ed := deref (hd s) d in
      if negb (length (ed_dof ed) =? 0) then Ok s
      else
        let* h := store (hd s) d (mkED (ed_v ed) (ed_e0 ed) (ed_e1 ed) (ed_dof ed ++ ed_v ed)) in
        Ok (mkM (hv s) (he s) h (mV s) (mE s) (mD s)).
Lemma one_edge e i d ed dd : vget (nb e) i = Ok (Some d) -> d < nd -> dd d = [] \/ dd d = all_x d ->
  pm_one e i (nb e) (dn ed dd) = Ok (dn ed (fup dd d (all_x d))).
Proof.
  unfold all_x. intros E Hd D. unfold pm_one. rewrite E. cbn [bind nn dn hd]. rewrite deref_pool by auto. cbn [bind ed_dof].
  destruct (edge_two d Hd) as (x & y & Exy & _). destruct D as [D|D]; rewrite D.
  - cbn [length Nat.eqb negb app]. rewrite store_pool by auto. cbn [bind hv he mV mE mD ed_v ed_e0 ed_e1]. unfold dn. f_equal. f_equal. apply pool_ext. intros k Hk.
    destruct (Nat.eq_dec k d) as [->|Hn]; [now rewrite !fup_eq|now rewrite !fup_ne].
  - rewrite Exy. cbn [map length Nat.eqb negb]. f_equal. apply dn_ext; auto. intros k Hk. destruct (Nat.eq_dec k d) as [->|Hn]; [rewrite fup_eq, D, Exy; auto|now rewrite fup_ne].
Qed.
Lemma first_done : pm_first (net nv fv fs T nb nd xs o q) = Ok (dn all_v all_x).
Proof.
  assert (K : forall j k ed dd, k + j = m -> (forall e, e < m -> ed e = if e <? k then all_v e else []) -> (forall d, d < nd -> dd d = [] \/ dd d = all_x d) ->
    (forall e i d, e < k -> i < 3 -> nth_error (nb e) i = Some (Some d) -> dd d = all_x d) ->
    foreach (seq k j) (fun p s => let* e := deref (he s) p in let* g := store (he s) p (mkME (me_sx e) (me_v e) (me_n e) (me_dof e ++ me_v e)) in
      for_ 0 3 (fun i s => pm_one p i (me_n e) s) (set_he s g)) (dn ed dd) = Ok (dn all_v all_x)).
  { induction j as [|j IH]; intros k ed dd Hk He Hd Hn; cbn [seq foreach].
    - f_equal. apply dn_ext.
      + intros e He'. rewrite He by auto. replace (e <? k) with true by (symmetry; apply Nat.ltb_lt; lia). reflexivity.
      + intros d Hd'. destruct (g_edge _ _ _ _ _ _ G d Hd') as (A & (i & Hi & Ei) & C). fold m in A. apply (Hn (o d) i d); auto; [lia|].
        apply (g_all _ _ _ _ _ _ G); auto. rewrite Ei. intros z; reflexivity.
    - assert (Hkm : k < m) by lia. cbn [dn he]. rewrite deref_pool by auto. cbn [bind]. rewrite store_pool by auto. cbn [bind me_n me_v me_sx me_dof].
      assert (E : set_he (dn ed dd) (pool m (fup (fun e => mkME (fs e) (map Some (tr e)) (nb e) (ed e)) k (mkME (fs k) (map Some (tr k)) (nb k) (ed k ++ map Some (tr k))))) =
        dn (fup ed k (all_v k)) dd).
      { unfold set_he, dn. cbn [hv hd mV mE mD]. f_equal. apply pool_ext. intros e He'. destruct (Nat.eq_dec e k) as [->|Hne]; [|now rewrite !fup_ne].
        rewrite !fup_eq. rewrite He by auto. now rewrite Nat.ltb_irrefl. }
      rewrite E. clear E.
      destruct (the_edge k 0 Hkm ltac:(lia)) as (d0 & D0 & E0 & V0 & _). destruct (the_edge k 1 Hkm ltac:(lia)) as (d1 & D1 & E1 & V1 & _).
      destruct (the_edge k 2 Hkm ltac:(lia)) as (d2 & D2 & E2 & V2 & _).
      change (for_ 0 3) with (@for_n mst 3 0). cbn [for_n].
      assert (Step : forall dd d d', (forall d, d < nd -> dd d = [] \/ dd d = all_x d) -> d < nd -> fup dd d' (all_x d') d = [] \/ fup dd d' (all_x d') d = all_x d).
      { intros f d d' Hf Hd'. destruct (Nat.eq_dec d d') as [->|Hne]; [rewrite fup_eq; auto|rewrite fup_ne by auto; auto]. }
      rewrite (one_edge k 0 d0) by auto. cbn [bind]. rewrite (one_edge k 1 d1) by (auto; apply Step; auto). cbn [bind].
      rewrite (one_edge k 2 d2) by (auto; apply Step; auto). cbn [bind]. apply (IH (S k)).
      + lia.
      + intros e He'. destruct (Nat.eq_dec e k) as [->|Hne].
        * rewrite fup_eq. replace (k <? S k) with true by (symmetry; apply Nat.ltb_lt; lia). reflexivity.
        * rewrite fup_ne, He by auto. destruct (e <? k) eqn:E; [apply Nat.ltb_lt in E; replace (e <? S k) with true by (symmetry; apply Nat.ltb_lt; lia); auto|].
          apply Nat.ltb_ge in E. replace (e <? S k) with false by (symmetry; apply Nat.ltb_ge; lia). auto.
      + intros d Hd'. apply Step; auto; try (intros; apply Step; auto; intros; apply Step; auto).
      + intros e i d He' Hi Ei. unfold fup. destruct (d =? d2) eqn:Q2; [apply Nat.eqb_eq in Q2; subst; auto|]. destruct (d =? d1) eqn:Q1; [apply Nat.eqb_eq in Q1; subst; auto|].
        destruct (d =? d0) eqn:Q0; [apply Nat.eqb_eq in Q0; subst; auto|]. destruct (Nat.eq_dec e k) as [->|Hne]; [|apply (Hn e i); auto; lia].
        apply Nat.eqb_neq in Q0, Q1, Q2. destruct i as [|[|[|]]]; try lia; congruence. }
  unfold pm_first. cbn [net mE]. fold m.
  change (net nv fv fs T nb nd xs o q) with (dn (fun _ => []) (fun _ => [])). apply (K m 0 (fun _ => []) (fun _ => [])); auto.
  intros; lia.
Qed.

(** *** the midpoints *)
Definition midpos (d : nat) : list N :=
  let p := mv_pos (fv (nth 0 (xs d) 0)) in let r := mv_pos (fv (nth 1 (xs d) 0)) in
  [(nth 0 p n0 + nth 0 r n0) * (n1 / nofnat 2); (nth 1 p n0 + nth 1 r n0) * (n1 / nofnat 2)]%num.
Definition stL (P : list (nat * nat)) : list nat := firsts (map snd P).
Definition stv (P : list (nat * nat)) (k : nat) : mvert N :=
  if k <? nv then fv k
  else let d := nth (k - nv) (stL P) 0 in
       mkMV (match q d with None => true | Some _ => false end) true k (midpos d) (map fst (filter (fun p => snd p =? d) P)).
Definition ste (P : list (nat * nat)) (e : nat) : melem N :=
  mkME (fs e) (map Some (tr e)) (nb e) (map Some (tr e) ++ map (fun p => Some (nv + index (snd p) (stL P))) (filter (fun p => fst p =? e) P)).
Definition std (P : list (nat * nat)) (d : nat) : medge :=
  mkED (map Some (xs d)) (Some (o d)) (q d) (map Some (xs d) ++ (if inb d (stL P) then [Some (nv + index d (stL P))] else [])).
Definition st (P : list (nat * nat)) : mst :=
  mkM (pool (nv + length (stL P)) (stv P)) (pool m (ste P)) (pool nd (std P)) (seq 0 (nv + length (stL P))) (seq 0 m) (seq 0 nd).
Lemma st_start : dn all_v all_x = st [].
Proof.
  unfold dn, st. unfold stL. cbn [map firsts length fold_left]. rewrite Nat.add_0_r. f_equal.
  - apply pool_ext. intros k Hk. unfold stv. replace (k <? nv) with true by (symmetry; apply Nat.ltb_lt; auto). reflexivity.
  - apply pool_ext. intros e He. unfold ste, all_v. cbn [filter map]. now rewrite app_nil_r.
  - apply pool_ext. intros d Hd. unfold std, stL, all_x. cbn. now rewrite app_nil_r.
Qed.
Lemma filter_snoc {A} (f : A -> bool) l x : filter f (l ++ [x]) = filter f l ++ (if f x then [x] else []).
Proof. rewrite filter_app. cbn. destruct (f x); auto. Qed.
Lemma midcalc d : d < nd -> forall x y, xs d = [x; y] -> (let* s := v_add (mv_pos (fv x)) (mv_pos (fv y)) in v_divs s (nofnat 2)) = Ok (midpos d).
Proof.
  intros Hd x y E. destruct (edge_two d Hd) as (x' & y' & E' & Hx & Hy & _). rewrite E in E'. inversion E'; subst x' y'.
  unfold midpos. rewrite E. cbn [nth]. pose proof (Hpos x Hx) as Lx. pose proof (Hpos y Hy) as Ly.
  destruct (mv_pos (fv x)) as [|a [|b [|]]]; try discriminate. destruct (mv_pos (fv y)) as [|c [|e [|]]]; try discriminate. reflexivity.
Qed.
Lemma stv_old P k : k < nv -> stv P k = fv k.
Proof. intros H. unfold stv. replace (k <? nv) with true by (symmetry; apply Nat.ltb_lt; auto). reflexivity. Qed.
Lemma pm_edge_step P e i d : e < m -> vget (nb e) i = Ok (Some d) -> d < nd -> pm_edge i e (st P) = Ok (st (P ++ [(e, d)])).
Proof.
  intros He E Hd. unfold pm_edge. cbn [st he hd hv]. rewrite deref_pool by auto. cbn [bind ste me_n]. rewrite E. cbn [bind nn].
  rewrite deref_pool by auto. cbn [bind std ed_dof ed_v ed_e0 ed_e1]. destruct (edge_two d Hd) as (x & y & Exy & Hx & Hy & Hne).
  pose proof (firsts_nodup (map snd P)) as ND. fold (stL P) in ND.
  assert (SL : stL (P ++ [(e, d)]) = if inb d (stL P) then stL P else stL P ++ [d]) by (unfold stL; rewrite map_app; cbn [map snd]; apply firsts_snoc).
  assert (InP : forall p, In p P -> In (snd p) (stL P)) by (intros p Hp; unfold stL; apply firsts_in; now apply in_map).
  destruct (inb d (stL P)) eqn:Eb.
  - (* the vertex exists *)
    apply inb_spec in Eb. pose proof (index_lt d (stL P) Eb) as Li. pose proof (nth_index d (stL P) Eb) as Ni.
    rewrite Exy. cbn [map app length Nat.eqb last bind nn]. unfold push_el. cbn [hv]. rewrite deref_pool by lia. cbn [bind]. rewrite store_pool by lia. cbn [bind].
    unfold push_dof. cbn [he]. rewrite deref_pool by auto. cbn [bind]. rewrite store_pool by auto. cbn [bind mV mE mD hd]. unfold st. rewrite SL. f_equal. f_equal.
    + apply pool_ext. intros k Hk. destruct (lt_dec k nv) as [Hkn|Hkn].
      * rewrite fup_ne by lia. rewrite !stv_old by auto. reflexivity.
      * unfold stv at 1 2 3 4 5 6 7. rewrite SL. replace (nv + index d (stL P) <? nv) with false by (symmetry; apply Nat.ltb_ge; lia).
        replace (nv + index d (stL P) - nv) with (index d (stL P)) by lia. rewrite Ni. cbn [mv_bound mv_impl mv_gi mv_pos mv_el].
        destruct (Nat.eq_dec k (nv + index d (stL P))) as [->|Hk'].
        -- rewrite fup_eq. replace (nv + index d (stL P) <? nv) with false by (symmetry; apply Nat.ltb_ge; lia).
           replace (nv + index d (stL P) - nv) with (index d (stL P)) by lia. rewrite Ni. f_equal. rewrite filter_snoc. cbn [snd]. rewrite Nat.eqb_refl, map_app. reflexivity.
        -- rewrite fup_ne by auto. unfold stv. replace (k <? nv) with false by (symmetry; apply Nat.ltb_ge; lia). f_equal. rewrite filter_snoc. cbn [snd].
           replace (d =? nth (k - nv) (stL P) 0) with false; [now rewrite app_nil_r|]. symmetry. apply Nat.eqb_neq. intros Ed. apply Hk'.
           assert (k - nv = index d (stL P)); [|lia]. apply (proj1 (NoDup_nth (stL P) 0) ND); lia || congruence.
    + apply pool_ext. intros f Hf. unfold ste. rewrite SL. destruct (Nat.eq_dec f e) as [->|Hfe].
      * rewrite fup_eq. f_equal. cbn [me_dof]. rewrite filter_snoc. cbn [fst]. rewrite Nat.eqb_refl, map_app, app_assoc. reflexivity.
      * rewrite fup_ne by auto. f_equal. rewrite filter_snoc. cbn [fst]. replace (e =? f) with false by (symmetry; apply Nat.eqb_neq; auto). now rewrite app_nil_r.
    + apply pool_ext. intros k Hk. unfold std. now rewrite SL.
  - (* a new vertex *)
    apply inb_false in Eb. rewrite Exy. cbn [map app length Nat.eqb].
    change (vget [Some x; Some y] 0) with (Ok (Some x)). change (vget [Some x; Some y] 1) with (Ok (Some y)). cbn [bind nn].
    rewrite !deref_pool by lia. cbn [bind]. rewrite !stv_old by auto.
    pose proof (midcalc d Hd x y Exy) as Mc. destruct (v_add (mv_pos (fv x)) (mv_pos (fv y))) as [z| | | | |]; cbn [bind] in Mc |- *; try discriminate. rewrite Mc. cbn [bind]. clear Mc z.
    set (n := nv + length (stL P)).
    assert (NV : new_vertex (st P) (midpos d) = (mkM (pool (S n) (fup (stv P) n (mk_vertex (midpos d)))) (pool m (ste P)) (pool nd (std P)) (seq 0 n) (seq 0 m) (seq 0 nd), n)).
    { unfold new_vertex, set_hv. cbn [st hv he hd mV mE mD]. now rewrite pool_len, pool_snoc. }
    rewrite NV. clear NV.
    unfold or_flags. cbn [hv]. rewrite deref_pool by lia. cbn [bind]. rewrite store_pool by lia. cbn [bind]. unfold set_hv. cbn [hv he hd mV mE mD].
    rewrite !fup_eq. unfold mk_vertex. cbn [mv_bound mv_impl mv_gi mv_pos mv_el orb].
    set (bd := match q d with None => true | Some _ => false end).
    match goal with |- (let* s := match q d with Some _ => Ok ?s0 | None => ?t end in _) = _ =>
      assert (B : match q d with Some _ => Ok s0 | None => t end =
        Ok (mkM (pool (S n) (fup (stv P) n (mkMV bd true 0 (midpos d) []))) (pool m (ste P)) (pool nd (std P)) (seq 0 n) (seq 0 m) (seq 0 nd)))
    end.
    { unfold bd. destruct (q d).
      - f_equal. f_equal. apply pool_ext. intros k Hk. destruct (Nat.eq_dec k n) as [->|]; [now rewrite !fup_eq|now rewrite !fup_ne].
      - cbn [hv]. rewrite deref_pool by lia. cbn [bind]. rewrite store_pool by lia. cbn [bind he hd mV mE mD]. f_equal. f_equal. apply pool_ext. intros k Hk.
        destruct (Nat.eq_dec k n) as [->|]; [rewrite !fup_eq; reflexivity|now rewrite !fup_ne]. }
    rewrite B. clear B. cbn [bind]. unfold m_addVertex. cbn [hv he hd mV mE mD]. rewrite deref_pool by lia. cbn [bind]. rewrite store_pool by lia. cbn [bind hv he hd mV mE mD].
    rewrite !fup_eq. cbn [mv_bound mv_impl mv_gi mv_pos mv_el]. rewrite seq_length. unfold push_el. rewrite deref_pool by lia. cbn [bind]. rewrite store_pool by lia. cbn [bind].
    rewrite !fup_eq. cbn [mv_bound mv_impl mv_gi mv_pos mv_el app]. unfold push_dof. rewrite deref_pool by auto. cbn [bind]. rewrite store_pool by auto. cbn [bind]. rewrite store_pool by auto. cbn [bind].
    unfold st. rewrite SL. rewrite app_length. cbn [length]. replace (nv + (length (stL P) + 1)) with (S n) by (unfold n; lia). f_equal. f_equal.
    + apply pool_ext. intros k Hk. destruct (Nat.eq_dec k n) as [->|Hkn].
      * rewrite fup_eq. unfold stv. rewrite SL. replace (n <? nv) with false by (symmetry; apply Nat.ltb_ge; unfold n; lia).
        replace (n - nv) with (length (stL P)) by (unfold n; lia). rewrite app_nth2, Nat.sub_diag by lia. cbn [nth]. fold bd. f_equal.
        rewrite filter_snoc. cbn [snd]. rewrite Nat.eqb_refl, map_app. cbn [map fst].
        replace (filter (fun p => snd p =? d) P) with (@nil (nat * nat)); [reflexivity|]. symmetry. destruct (filter _ P) as [|p l] eqn:Ef; auto. exfalso.
        assert (Hp : In p (filter (fun p => snd p =? d) P)) by (rewrite Ef; now left). apply filter_In in Hp as (Hp & Hs). apply Nat.eqb_eq in Hs. apply Eb. rewrite <- Hs. auto.
      * rewrite !fup_ne by auto. unfold stv. rewrite SL. destruct (k <? nv) eqn:Ek; auto. apply Nat.ltb_ge in Ek. rewrite app_nth1 by (unfold n in *; lia). f_equal.
        rewrite filter_snoc. cbn [snd]. replace (d =? nth (k - nv) (stL P) 0) with false; [now rewrite app_nil_r|]. symmetry. apply Nat.eqb_neq. intros ->. apply Eb. apply nth_In. unfold n in *; lia.
    + apply pool_ext. intros f Hf. unfold ste. rewrite SL.
      assert (Ix : forall p, In p (filter (fun p => fst p =? f) P) -> Some (nv + index (snd p) (stL P ++ [d])) = Some (nv + index (snd p) (stL P))).
      { intros p Hp. apply filter_In in Hp as (Hp & _). rewrite index_app; auto. }
      destruct (Nat.eq_dec f e) as [->|Hfe].
      * rewrite fup_eq. f_equal. cbn [me_dof]. rewrite filter_snoc. cbn [fst]. rewrite Nat.eqb_refl, map_app, app_assoc. cbn [map snd]. rewrite index_new by auto.
        rewrite (map_ext_in _ _ _ Ix). reflexivity.
      * rewrite fup_ne by auto. f_equal. rewrite filter_snoc. cbn [fst]. replace (e =? f) with false by (symmetry; apply Nat.eqb_neq; auto). rewrite app_nil_r.
        rewrite (map_ext_in _ _ _ Ix). reflexivity.
    + apply pool_ext. intros k Hk. unfold std. rewrite SL. destruct (Nat.eq_dec k d) as [->|Hkd].
      * rewrite fup_eq. replace (inb d (stL P ++ [d])) with true by (symmetry; apply inb_spec, in_or_app; right; now left). rewrite index_new, Exy by auto.
        reflexivity.
      * rewrite fup_ne by auto. f_equal. f_equal. destruct (inb k (stL P)) eqn:Ek.
        -- apply inb_spec in Ek. replace (inb k (stL P ++ [d])) with true by (symmetry; apply inb_spec, in_or_app; auto). now rewrite index_app.
        -- apply inb_false in Ek. replace (inb k (stL P ++ [d])) with false; auto. symmetry. apply inb_false. rewrite in_app_iff. cbn. intuition.
    + rewrite seq_S. reflexivity.
Qed.
End Dof.
