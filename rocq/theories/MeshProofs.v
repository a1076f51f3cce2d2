(** setupNeighbors and setupBoundaries. *)
From Coq Require Import List Arith Bool Lia.
From Verif Require Import Base BaseProofs Num VectorModel SimplexModel MeshModel MeshSpec MeshPool.
Import ListNotations.
Local Open Scope nat_scope.
Open Scope res_scope.

Lemma foreach_ext_in {X S} (f g : X -> S -> res S) l : (forall x s, In x l -> f x s = g x s) -> forall s, foreach l f s = foreach l g s.
Proof.
  induction l as [|x l IH]; intros H s; cbn [foreach]; auto.
  rewrite H by now left. destruct (g x s); cbn [bind]; auto. apply IH. intros; apply H; now right.
Qed.

(** *** Triples *)
Definition triple (t : list nat) : Prop := length t = 3 /\ NoDup t.
Lemma triple_abc t : triple t -> exists a b c, t = [a; b; c] /\ a <> b /\ a <> c /\ b <> c.
Proof.
  intros (L & H). destruct t as [|a [|b [|c [|]]]]; try discriminate. exists a, b, c. split; auto.
  inversion H as [|? ? H1 H2]; subst. inversion H2 as [|? ? H3 H4]; subst. cbn in *. intuition.
Qed.
Lemma without_two t i : triple t -> i < 3 -> exists x y, without i t = [x; y] /\ x <> y /\ In x t /\ In y t.
Proof.
  intros H Hi. apply triple_abc in H as (a & b & c & -> & H1 & H2 & H3).
  destruct i as [|[|[|]]]; try lia; cbn; eauto 12.
Qed.
Lemma without_inj t i j : triple t -> i < 3 -> j < 3 -> same_set (without i t) (without j t) -> i = j.
Proof.
  intros H Hi Hj S. apply triple_abc in H as (a & b & c & -> & H1 & H2 & H3).
  assert (X : forall z, In z (without i [a; b; c]) -> ~ In z (without j [a; b; c]) -> i = j) by (intros z A B; destruct B; now apply S).
  assert (Na := not_eq_sym H1). assert (Nb := not_eq_sym H2). assert (Nc := not_eq_sym H3).
  destruct i as [|[|[|]]]; try lia; destruct j as [|[|[|]]]; try lia; auto;
    [apply (X b)|apply (X c)|apply (X a)|apply (X c)|apply (X a)|apply (X b)]; cbn; auto; intros [E|[E|[]]]; congruence.
Qed.
Lemma firstn_in {A} (l : list A) n x : In x (firstn n l) -> In x l.
Proof. intros H. rewrite <- (firstn_skipn n l). apply in_app_iff. auto. Qed.
Lemma skipn_in {A} (l : list A) n x : In x (skipn n l) -> In x l.
Proof. intros H. rewrite <- (firstn_skipn n l). apply in_app_iff. auto. Qed.
Lemma without_in t i x : In x (without i t) -> In x t.
Proof. unfold without. rewrite in_app_iff. intros [H|H]; [eapply firstn_in|eapply skipn_in]; eauto. Qed.
Lemma face_of t x y : triple t -> x <> y -> In x t -> In y t -> exists j, j < 3 /\ same_set [x; y] (without j t).
Proof.
  intros H Hxy Hx Hy. apply triple_abc in H as (a & b & c & -> & H1 & H2 & H3).
  cbn in Hx, Hy.
  assert (K0 : forall z, z = b \/ z = c <-> In z (without 0 [a; b; c])) by (intros z; cbn; intuition congruence).
  assert (K1 : forall z, z = a \/ z = c <-> In z (without 1 [a; b; c])) by (intros z; cbn; intuition congruence).
  assert (K2 : forall z, z = a \/ z = b <-> In z (without 2 [a; b; c])) by (intros z; cbn; intuition congruence).
  destruct Hx as [<-|[<-|[<-|[]]]], Hy as [<-|[<-|[<-|[]]]]; try (now destruct Hxy);
    [exists 2|exists 1|exists 2|exists 0|exists 1|exists 0];
    (split; [lia|]; intros z; (rewrite <- K0 || rewrite <- K1 || rewrite <- K2); cbn; intuition congruence).
Qed.

Lemma shared_ok t i : triple t -> i < 3 -> sn_shared (map Some t) i = Ok (map Some (without i t)).
Proof.
  intros H Hi. apply triple_abc in H as (a & b & c & -> & _).
  destruct i as [|[|[|]]]; try lia; reflexivity.
Qed.
Lemma in_shared_ok l v : in_shared (map Some l) (Some v) = inb v l.
Proof. unfold in_shared, inb. induction l as [|x l IH]; cbn; auto. rewrite IH. f_equal. apply Nat.eqb_sym. Qed.
Lemma matches_ok x y t : triple t -> x <> y -> (sn_matches (map Some [x; y]) (map Some t) =? 2) = inb x t && inb y t.
Proof.
  intros H Hxy. apply triple_abc in H as (a & b & c & -> & H1 & H2 & H3). unfold sn_matches. cbn [map filter].
  pose proof (in_shared_ok [x; y]) as E. cbn [map] in E. rewrite !E. unfold inb. cbn [existsb].
  rewrite !orb_false_r.
  repeat match goal with |- context [?u =? ?v] => is_var u; is_var v; let W := fresh in destruct (Nat.eq_dec u v) as [W|W]; [subst; rewrite ?Nat.eqb_refl | let W2 := fresh in pose proof W as W2; apply Nat.eqb_neq in W2; rewrite ?W2; rewrite (Nat.eqb_sym v u), ?W2; clear W2] end;
    cbn; try reflexivity; try congruence.
Qed.
Lemma opposite_ok x y t : triple t -> x <> y -> In x t -> In y t ->
  exists j, sn_opposite (map Some [x; y]) (map Some t) 0 = Some j /\ j < 3 /\ same_set [x; y] (without j t).
Proof.
  intros H Hxy Hx Hy. destruct (face_of t x y H Hxy Hx Hy) as (j & Hj & S). exists j. split; [|auto].
  apply triple_abc in H as (a & b & c & -> & H1 & H2 & H3). cbn [map sn_opposite].
  pose proof (in_shared_ok [x; y]) as E. cbn [map] in E. rewrite !E.
  assert (B : forall z, inb z [x; y] = inb z (without j [a; b; c])).
  { intros z. destruct (inb z (without j [a; b; c])) eqn:F.
    - apply inb_spec. apply inb_spec in F. now apply S.
    - apply inb_false. apply inb_false in F. intros G. apply F. now apply S. }
  rewrite !B. destruct j as [|[|[|]]]; try lia; unfold without, inb; cbn;
    rewrite ?Nat.eqb_refl, ?orb_true_r;
    repeat match goal with H : ?u <> ?v |- _ => apply Nat.eqb_neq in H; rewrite ?H; rewrite (Nat.eqb_sym u v) in H; rewrite ?H; clear H end; reflexivity.
Qed.

(** *** The search for the other element *)
Definition find_step (p : nat) (g : nat -> bool) (oe : nat) (e1 : option nat) : res (option nat) :=
  if oe =? p then Ok e1
  else if g oe then
    match e1 with
    | Some f => if negb (f =? oe) then Throw TooManySharedFaces else Ok (Some oe)
    | None => Ok (Some oe)
    end
  else Ok e1.
Definition cand p (g : nat -> bool) l (e1 : option nat) f : Prop := e1 = Some f \/ (In f l /\ f <> p /\ g f = true).
Lemma find_post p g l : forall e1,
  post (foreach l (find_step p g) e1) (fun r => forall f, r = Some f <-> cand p g l e1 f)
       (fun x => x = TooManySharedFaces /\ exists f f', f <> f' /\ cand p g l e1 f /\ cand p g l e1 f').
Proof.
  induction l as [|oe l IH]; intros e1; cbn [foreach].
  - cbn. intros f. unfold cand. cbn. tauto.
  - apply post_bind. unfold find_step at 1. unfold cand in *.
    destruct (oe =? p) eqn:Ep; [|destruct (g oe) eqn:Eg; [destruct e1 as [f0|]|]].
    + cbn [post]. apply Nat.eqb_eq in Ep. eapply post_mono; [apply IH| |]; cbn beta.
      * intros r H f. rewrite H. cbn [In]. intuition congruence.
      * intros x (-> & f & f' & H1 & H2 & H3). split; auto. exists f, f'. cbn [In]. tauto.
    + apply Nat.eqb_neq in Ep. destruct (f0 =? oe) eqn:E0; cbn [negb post].
      * apply Nat.eqb_eq in E0. subst f0. eapply post_mono; [apply IH| |]; cbn beta.
        -- intros r H f. rewrite H. cbn [In]. intuition congruence.
        -- intros x (-> & f & f' & H1 & H2 & H3). split; auto. exists f, f'. cbn [In]. tauto.
      * apply Nat.eqb_neq in E0. split; auto. exists f0, oe. cbn [In]. tauto.
    + apply Nat.eqb_neq in Ep. cbn [post]. eapply post_mono; [apply IH| |]; cbn beta.
      * intros r H f. rewrite H. cbn [In]. intuition congruence.
      * intros x (-> & f & f' & H1 & H2 & H3). split; auto. exists f, f'. cbn [In]. intuition congruence.
    + cbn [post]. eapply post_mono; [apply IH| |]; cbn beta.
      * intros r H f. rewrite H. cbn [In]. intuition congruence.
      * intros x (-> & f & f' & H1 & H2 & H3). split; auto. exists f, f'. cbn [In]. intuition congruence.
Qed.

Section Net.
Context {N : Num}.
Notation mst := (mst N).
Variable nv : nat.
Variable fv : nat -> mvert N.
Variable fs : nat -> simplex N.
Variable T : list (list nat).
Let m := length T.
Let tr e := nth e T [].
Hypothesis HT : okT nv T.
Hypothesis Hown : forall k, k < nv -> mv_el (fv k) = owners T k.
Lemma tr_triple e : e < m -> triple (tr e).
Proof. intros H. destruct (HT (tr e)) as (A & B & _); [now apply nth_In|]. split; auto. Qed.
Lemma tr_lt e k : e < m -> In k (tr e) -> k < nv.
Proof. intros H. destruct (HT (tr e)) as (_ & _ & C); [now apply nth_In|]. auto. Qed.

Definition nelt (nb : nat -> list (option nat)) (e : nat) : melem N := mkME (fs e) (map Some (tr e)) (nb e) [].
Definition nedg (xs : nat -> list nat) (o : nat -> nat) (q : nat -> option nat) (d : nat) : medge :=
  mkED (map Some (xs d)) (Some (o d)) (q d) [].
Definition net nb nd xs o q : mst :=
  mkM (pool nv fv) (pool m (nelt nb)) (pool nd (nedg xs o q)) (seq 0 nv) (seq 0 m) (seq 0 nd).
Record graph nb nd xs (o : nat -> nat) (q : nat -> option nat) : Prop := {
  g_len : forall e, e < m -> length (nb e) = 3;
  g_edge : forall d, d < nd -> o d < m /\ (exists i, i < 3 /\ xs d = without i (tr (o d))) /\
             forall f, q d = Some f <-> (f <> o d /\ f < m /\ incl (xs d) (tr f));
  g_nb : forall e i d, e < m -> nth_error (nb e) i = Some (Some d) -> d < nd /\ same_set (xs d) (without i (tr e));
  g_all : forall e i d, e < m -> i < 3 -> d < nd -> same_set (xs d) (without i (tr e)) -> nth_error (nb e) i = Some (Some d) }.

Lemma find_ok nb nd xs o q p x y : p < m -> x <> y -> In x (tr p) -> In y (tr p) ->
  post (sn_find (net nb nd xs o q) p (map Some [x; y])) (fun r => forall f, r = Some f <-> (f <> p /\ f < m /\ In x (tr f) /\ In y (tr f)))
    (fun e => e = TooManySharedFaces /\ three_share_a_face T).
Proof.
  intros Hp Hxy Hx Hy. unfold sn_find. change (for_ 0 2) with (@for_n (option nat) 2 0). cbn [for_n].
  assert (E : forall z e1, In z (tr p) ->
     (let* v := deref (hv (net nb nd xs o q)) z in
      foreach (mv_el v) (fun oe e1 => if oe =? p then Ok e1 else let* o0 := deref (he (net nb nd xs o q)) oe in
         if sn_matches (map Some [x; y]) (me_v o0) =? 2 then
           match e1 with Some f => if negb (f =? oe) then Throw TooManySharedFaces else Ok (Some oe) | None => Ok (Some oe) end
         else Ok e1) e1) =
     foreach (owners T z) (find_step p (fun e => inb x (tr e) && inb y (tr e))) e1).
  { intros z e1 Hz. cbn [net hv he]. rewrite deref_pool by (eapply tr_lt; eauto). cbn [bind].
    rewrite Hown by (eapply tr_lt; eauto). apply foreach_ext_in. intros oe e Ho. apply owners_in in Ho as (Ho & _).
    unfold find_step. destruct (oe =? p); auto. rewrite deref_pool by auto. cbn [bind nelt me_v].
    rewrite matches_ok by (auto; now apply tr_triple). reflexivity. }
  change (vget (map Some [x; y]) 0) with (Ok (Some x)). change (vget (map Some [x; y]) 1) with (Ok (Some y)). cbn [bind nn].
  assert (C : forall z e1 f, cand p (fun e => inb x (tr e) && inb y (tr e)) (owners T z) e1 f <->
     (e1 = Some f \/ (f <> p /\ f < m /\ In z (tr f) /\ In x (tr f) /\ In y (tr f)))).
  { intros z e1 f. unfold cand. rewrite andb_true_iff, !inb_spec, owners_in. fold m. fold (tr f). tauto. }
  assert (Q : forall f f' e1, e1 = None \/ (exists g, e1 = Some g /\ g <> p /\ g < m /\ In x (tr g) /\ In y (tr g)) -> f <> f' ->
     (e1 = Some f \/ (f <> p /\ f < m /\ In x (tr f) /\ In y (tr f))) -> (e1 = Some f' \/ (f' <> p /\ f' < m /\ In x (tr f') /\ In y (tr f'))) ->
     three_share_a_face T).
  { intros f f' e1 He Hff H1 H2.
    assert (K : forall h, (e1 = Some h \/ (h <> p /\ h < m /\ In x (tr h) /\ In y (tr h))) -> h <> p /\ h < m /\ In x (tr h) /\ In y (tr h)).
    { intros h [E1|H]; auto. destruct He as [He|(g & He & Hg)]; [congruence|]. assert (g = h) by congruence. now subst. }
    apply K in H1 as (A1 & A2 & A3 & A4). apply K in H2 as (B1 & B2 & B3 & B4).
    exists x, y, p, f, f'. unfold has_face. repeat split; auto. }
  apply post_bind. rewrite E by auto. eapply post_mono; [apply find_post| |]; cbn beta.
  - intros r0 H0. rewrite E by auto. rewrite bind_ok_r. eapply post_mono; [apply find_post| |]; cbn beta.
    + intros r H f. rewrite H, C, H0, C. intuition congruence.
    + intros e (-> & f & f' & Hff & H1 & H2). split; auto. rewrite C in H1, H2.
      apply (Q f f' r0); auto; [|tauto|tauto]. destruct r0 as [g|]; auto. right. exists g. split; auto.
      destruct (proj1 (C x None g) (proj1 (H0 g) eq_refl)) as [X|X]; [discriminate|tauto].
  - intros e (-> & f & f' & Hff & H1 & H2). split; auto. rewrite C in H1, H2. apply (Q f f' None); auto; tauto.
Qed.

Definition nset (nb : nat -> list (option nat)) e i d := fup nb e (upd (nb e) i (Some d)).
Lemma set_neighbor_ok nb p i d : p < m -> i < length (nb p) -> set_neighbor (pool m (nelt nb)) p i d = Ok (pool m (nelt (nset nb p i d))).
Proof.
  intros Hp Hi. unfold set_neighbor. rewrite deref_pool by auto. cbn [bind nelt me_n]. rewrite vset_ok by auto. cbn [bind].
  rewrite store_pool by auto. f_equal. apply pool_ext. intros k Hk. unfold nset, nelt. cbn.
  destruct (Nat.eq_dec k p) as [->|H]; [now rewrite !fup_eq|now rewrite !fup_ne].
Qed.
Lemma nset_get nb p i d e k : i < length (nb p) -> nth_error (nset nb p i d e) k = if (e =? p) && (k =? i) then Some (Some d) else nth_error (nb e) k.
Proof.
  intros Hi. unfold nset, fup. destruct (e =? p) eqn:E; cbn [andb]; auto. apply Nat.eqb_eq in E. subst e.
  rewrite nth_error_upd. apply Nat.ltb_lt in Hi. rewrite Hi, andb_true_r. reflexivity.
Qed.
Lemma nset_len nb p i d e : length (nset nb p i d e) = length (nb e).
Proof. unfold nset, fup. destruct (e =? p) eqn:E; auto. apply Nat.eqb_eq in E. subst. apply upd_length. Qed.

Definition setp (nb : nat -> list (option nat)) e i : Prop := exists d, nth_error (nb e) i = Some (Some d).
Lemma same_sym l k : same_set l k -> same_set k l. Proof. intros H x. symmetry. apply H. Qed.
Lemma same_trans l k j : same_set l k -> same_set k j -> same_set l j. Proof. intros H G x. rewrite (H x). apply G. Qed.

Lemma face_step nb nd xs o q p i : graph nb nd xs o q -> p < m -> i < 3 ->
  post (sn_face p i (net nb nd xs o q)) (fun s => exists nb' nd' xs' o' q', s = net nb' nd' xs' o' q' /\ graph nb' nd' xs' o' q' /\
      setp nb' p i /\ forall e k, setp nb e k -> setp nb' e k)
    (fun e => e = TooManySharedFaces /\ three_share_a_face T).
Proof.
  intros G Hp Hi. unfold sn_face. cbn [net he]. rewrite deref_pool by auto. cbn [bind nelt me_n me_v].
  pose proof (g_len _ _ _ _ _ G p Hp) as L. rewrite (vget_ok _ _ None) by (rewrite L; auto). cbn [bind].
  destruct (nth i (nb p) None) as [d|] eqn:En.
  - cbn [post]. exists nb, nd, xs, o, q. split; [reflexivity|]. split; [exact G|]. split; [|auto].
    exists d. rewrite (nth_error_nth' _ None) by (rewrite L; auto). now rewrite En.
  - assert (Enone : nth_error (nb p) i = Some None) by (rewrite (nth_error_nth' _ None) by (rewrite L; auto); now rewrite En).
    rewrite shared_ok by (auto; now apply tr_triple). cbn [bind].
    destruct (without_two (tr p) i (tr_triple p Hp) Hi) as (x & y & Ew & Hxy & Hx & Hy). rewrite Ew. cbn [map length Nat.eqb negb].
    replace (length (hd (net nb nd xs o q))) with nd by (symmetry; apply pool_len). rewrite set_neighbor_ok by (auto; lia). cbn [bind]. set (nb1 := nset nb p i nd).
    change (post (let* e1 := sn_find (net nb1 nd xs o q) p (map Some [x; y]) in
       let* g := match e1 with None => Ok (pool m (nelt nb1)) | Some f => let* o0 := deref (pool m (nelt nb1)) f in
            match sn_opposite (map Some [x; y]) (me_v o0) 0 with None => Ok (pool m (nelt nb1)) | Some j => set_neighbor (pool m (nelt nb1)) f j nd end end in
       Ok (mkM (pool nv fv) g (pool nd (nedg xs o q) ++ [Some (mkED [Some x; Some y] (Some p) e1 [])]) (seq 0 nv) (seq 0 m) (seq 0 nd ++ [nd])))
      (fun s => exists nb' nd' xs' o' q', s = net nb' nd' xs' o' q' /\ graph nb' nd' xs' o' q' /\
         setp nb' p i /\ forall e k, setp nb e k -> setp nb' e k) (fun e => e = TooManySharedFaces /\ three_share_a_face T)).
    apply post_bind. eapply post_mono; [apply find_ok; auto| |auto]. cbn beta. intros e1 He1.
    (* no edge has this face yet *)
    assert (New : forall d, d < nd -> ~ same_set (xs d) [x; y]).
    { intros d Hd S. rewrite <- Ew in S. pose proof (g_all _ _ _ _ _ G p i d Hp Hi Hd S). congruence. }
    set (xs' := fup xs nd [x; y]). set (o' := fup o nd p). set (q' := fup q nd e1).
    assert (Hhd : pool nd (nedg xs o q) ++ [Some (mkED [Some x; Some y] (Some p) e1 [])] = pool (S nd) (nedg xs' o' q')).
    { rewrite pool_snoc. apply pool_ext. intros d Hd. unfold nedg, xs', o', q'.
      destruct (Nat.eq_dec d nd) as [->|H]; [now rewrite !fup_eq|now rewrite !fup_ne]. }
    assert (L1 : forall e, length (nb1 e) = length (nb e)) by (intros; apply nset_len).
    assert (Main : forall nb', (forall e, e < m -> length (nb' e) = 3) ->
       (forall e k, e < m -> k < 3 -> nth_error (nb' e) k = if (inb x (without k (tr e)) && inb y (without k (tr e))) then Some (Some nd) else nth_error (nb e) k) ->
       graph nb' (S nd) xs' o' q' /\ setp nb' p i /\ forall e k, e < m -> k < 3 -> setp nb e k -> setp nb' e k).
    { intros nb' Hl Hn.
      assert (F : forall e k, e < m -> k < 3 -> same_set [x; y] (without k (tr e)) <-> inb x (without k (tr e)) && inb y (without k (tr e)) = true).
      { intros e k He Hk. rewrite andb_true_iff, !inb_spec. split.
        - intros S. split; apply S; cbn; auto.
        - intros (A & B). destruct (without_two (tr e) k (tr_triple e He) Hk) as (u & v & Eu & Huv & _). rewrite Eu in *.
          intros z. cbn in *. intuition congruence. }
      split; [split|split].
      - exact Hl.
      - intros d Hd. destruct (Nat.eq_dec d nd) as [->|Hne].
        + unfold o', xs', q'. rewrite !fup_eq. split; auto. split; [exists i; auto|]. intros f. rewrite He1.
          split; intros (A & B & C); repeat split; auto.
          * intros z [<-|[<-|[]]]; tauto.
          * apply C; cbn; auto.
          * apply C; cbn; auto.
        + unfold o', xs', q'. rewrite !fup_ne by auto. apply (g_edge _ _ _ _ _ G). lia.
      - intros e k d He E. assert (Hk : k < 3) by (rewrite <- (Hl e He); apply nth_error_Some; congruence).
        rewrite Hn in E by auto. destruct (inb x (without k (tr e)) && inb y (without k (tr e))) eqn:Eb.
        + inversion E; subst d. split; [lia|]. unfold xs'. rewrite fup_eq. now apply F.
        + destruct (g_nb _ _ _ _ _ G e k d He E) as (A & B). split; [lia|]. unfold xs'. rewrite fup_ne by lia. auto.
      - intros e k d He Hk Hd S. rewrite Hn by auto. destruct (Nat.eq_dec d nd) as [->|Hne].
        + unfold xs' in S. rewrite fup_eq in S. apply F in S; auto. now rewrite S.
        + unfold xs' in S. rewrite fup_ne in S by auto. assert (Hd' : d < nd) by lia.
          destruct (inb x (without k (tr e)) && inb y (without k (tr e))) eqn:Eb.
          * exfalso. apply F in Eb; auto. apply (New d Hd'). eapply same_trans; [exact S|]. now apply same_sym.
          * now apply (g_all _ _ _ _ _ G).
      - exists nd. rewrite Hn by auto. rewrite Ew. unfold inb. cbn. rewrite !Nat.eqb_refl, orb_true_r. reflexivity.
      - intros e k He Hk (d & E). unfold setp. rewrite Hn by auto. destruct (_ && _); eauto. }
    assert (Out : forall nb', (forall e k, ~ (e < m /\ k < 3) -> forall d, nth_error (nb e) k = Some (Some d) -> exists d', nth_error (nb' e) k = Some (Some d')) ->
       (graph nb' (S nd) xs' o' q' /\ setp nb' p i /\ forall e k, e < m -> k < 3 -> setp nb e k -> setp nb' e k) ->
       exists nb'0 nd' xs'0 o'0 q'0, mkM (pool nv fv) (pool m (nelt nb')) (pool nd (nedg xs o q) ++ [Some (mkED [Some x; Some y] (Some p) e1 [])]) (seq 0 nv) (seq 0 m) (seq 0 nd ++ [nd]) = net nb'0 nd' xs'0 o'0 q'0 /\
         graph nb'0 nd' xs'0 o'0 q'0 /\ setp nb'0 p i /\ forall e k, setp nb e k -> setp nb'0 e k).
    { intros nb' Hout (H1 & H2 & H3). exists nb', (S nd), xs', o', q'. split; [|split; [exact H1|split; [exact H2|]]].
      - rewrite Hhd. unfold net. f_equal. rewrite seq_S. reflexivity.
      - intros e k (d & E). destruct (lt_dec e m), (lt_dec k 3); try (apply (Hout e k) in E; [exact E|lia]).
        apply H3; auto. exists d; auto. }
    assert (Kp : forall k, k < 3 -> inb x (without k (tr p)) && inb y (without k (tr p)) = (k =? i)).
    { intros k Hk. destruct (k =? i) eqn:Ek.
      - apply Nat.eqb_eq in Ek. subst k. rewrite Ew. unfold inb. cbn. rewrite !Nat.eqb_refl, orb_true_r. reflexivity.
      - apply Nat.eqb_neq in Ek. apply not_true_iff_false. rewrite andb_true_iff, !inb_spec. intros (A & B). apply Ek.
        apply (without_inj (tr p)); auto; [now apply tr_triple|]. rewrite Ew.
        destruct (without_two (tr p) k (tr_triple p Hp) Hk) as (u & v & Eu & Huv & _). rewrite Eu in *.
        intros z. cbn in *. intuition congruence. }
    destruct e1 as [f|].
    + destruct (proj1 (He1 f) eq_refl) as (Hfp & Hf & Hfx & Hfy).
      rewrite deref_pool by auto. cbn [bind nelt me_v].
      destruct (opposite_ok x y (tr f) (tr_triple f Hf) Hxy Hfx Hfy) as (j & Ej & Hj & Sj). rewrite Ej.
      assert (Lf : length (nb f) = 3) by (apply (g_len _ _ _ _ _ G); auto).
      rewrite set_neighbor_ok by (auto; rewrite L1; lia). cbn [bind post]. set (nb2 := nset nb1 f j nd).
      apply Out.
      * intros e k _ d E. unfold nb2. rewrite nset_get by (rewrite L1; lia).
        destruct ((e =? f) && (k =? j)); eauto. unfold nb1. rewrite nset_get by lia. destruct ((e =? p) && (k =? i)); eauto.
      * apply Main.
        -- intros e He. unfold nb2. rewrite nset_len, L1. apply (g_len _ _ _ _ _ G); auto.
        -- intros e k He Hk. unfold nb2. rewrite nset_get by (rewrite L1; lia). unfold nb1. rewrite nset_get by lia.
           destruct (Nat.eq_dec e p) as [->|Hep].
           { rewrite Kp by auto. assert (E : p =? f = false) by (apply Nat.eqb_neq; auto). rewrite E, Nat.eqb_refl. cbn [andb].
             destruct (k =? i) eqn:Ek; auto. }
           assert (E : e =? p = false) by now apply Nat.eqb_neq. rewrite E. cbn [andb].
           destruct (Nat.eq_dec e f) as [->|Hef].
           { rewrite Nat.eqb_refl. cbn [andb]. 
             assert (Kf : inb x (without k (tr f)) && inb y (without k (tr f)) = (k =? j)).
             { destruct (k =? j) eqn:Ek.
               - apply Nat.eqb_eq in Ek. subst k. apply andb_true_iff. rewrite !inb_spec. split; apply Sj; cbn; auto.
               - apply Nat.eqb_neq in Ek. apply not_true_iff_false. rewrite andb_true_iff, !inb_spec. intros (A & B). apply Ek.
                 apply (without_inj (tr f)); auto; [now apply tr_triple|]. eapply same_trans; [|exact Sj].
                 destruct (without_two (tr f) k (tr_triple f Hf) Hk) as (u & v & Eu & Huv & _). rewrite Eu in *.
                 intros z. cbn in *. intuition congruence. }
             now rewrite Kf. }
           assert (E2 : e =? f = false) by now apply Nat.eqb_neq. rewrite E2. cbn [andb].
           assert (Z : inb x (without k (tr e)) && inb y (without k (tr e)) = false).
           { apply not_true_iff_false. rewrite andb_true_iff, !inb_spec. intros (A & B). apply Hef.
             enough (X : Some f = Some e) by congruence. apply He1. repeat split; auto; eapply without_in; eauto. }
           now rewrite Z.
    + cbn [bind post]. apply Out.
      * intros e k _ d E. unfold nb1. rewrite nset_get by lia. destruct (_ && _); eauto.
      * apply Main.
        -- intros e He. rewrite L1. apply (g_len _ _ _ _ _ G); auto.
        -- intros e k He Hk. unfold nb1. rewrite nset_get by lia. destruct (Nat.eq_dec e p) as [->|Hep].
           { rewrite Kp, Nat.eqb_refl by auto. reflexivity. }
           assert (E : e =? p = false) by now apply Nat.eqb_neq. rewrite E. cbn [andb].
           assert (Z : inb x (without k (tr e)) && inb y (without k (tr e)) = false).
           { apply not_true_iff_false. rewrite andb_true_iff, !inb_spec. intros (A & B).
             enough (X : None = Some e) by discriminate. apply He1. repeat split; auto; eapply without_in; eauto. }
           now rewrite Z.
Qed.

Lemma all_faces nb nd xs o q : graph nb nd xs o q ->
  post (m_setupNeighbors (net nb nd xs o q)) (fun s => exists nb' nd' xs' o' q', s = net nb' nd' xs' o' q' /\ graph nb' nd' xs' o' q' /\
      (forall e i, e < m -> i < 3 -> setp nb' e i) /\ forall e k, setp nb e k -> setp nb' e k)
    (fun e => e = TooManySharedFaces /\ three_share_a_face T).
Proof.
  intros G. unfold m_setupNeighbors. cbn [net mE].
  assert (K : forall k j, k + j = m ->
    forall nb nd xs o q, graph nb nd xs o q -> (forall e i, e < k -> i < 3 -> setp nb e i) ->
    post (foreach (seq k j) (fun p s => for_ 0 3 (fun i s => sn_face p i s) s) (net nb nd xs o q))
      (fun s => exists nb' nd' xs' o' q', s = net nb' nd' xs' o' q' /\ graph nb' nd' xs' o' q' /\
        (forall e i, e < m -> i < 3 -> setp nb' e i) /\ forall e k, setp nb e k -> setp nb' e k)
      (fun e => e = TooManySharedFaces /\ three_share_a_face T)).
  2: { apply (K 0 m); auto. intros; lia. }
  clear -HT Hown. intros k j. revert k. induction j as [|j IH]; intros k Hk nb nd xs o q G Hd; cbn [seq foreach].
  - cbn [post]. exists nb, nd, xs, o, q. split; [reflexivity|]. split; [exact G|]. split; [|auto]. intros e i He. apply Hd. lia.
  - apply post_bind.
    eapply post_mono; [apply (for_post (fun i s => exists nb' nd' xs' o' q', s = net nb' nd' xs' o' q' /\ graph nb' nd' xs' o' q' /\
        (forall i', i' < i -> setp nb' k i') /\ forall e k, setp nb e k -> setp nb' e k)
        (fun e => e = TooManySharedFaces /\ three_share_a_face T)); [lia| |]| |auto].
    + exists nb, nd, xs, o, q. split; [reflexivity|]. split; [exact G|]. split; [|auto]. intros; lia.
    + intros i s Hi (nb1 & nd1 & xs1 & o1 & q1 & -> & G1 & H1 & H2).
      eapply post_mono; [apply face_step; auto; lia| |auto]. cbn beta.
      intros s (nb2 & nd2 & xs2 & o2 & q2 & -> & G2 & H3 & H4). exists nb2, nd2, xs2, o2, q2. split; [auto|]. split; [auto|].
      split; [|auto]. intros i' Hi'. destruct (Nat.eq_dec i' i) as [->|]; [auto|]. apply H4, H1. lia.
    + cbn beta. intros s (nb1 & nd1 & xs1 & o1 & q1 & -> & G1 & H1 & H2).
      eapply post_mono; [apply (IH (S k)); auto; [lia|]| |auto].
      * intros e i He Hi. destruct (Nat.eq_dec e k) as [->|]; [now apply H1|]. apply H2, Hd; auto; lia.
      * cbn beta. intros s (nb2 & nd2 & xs2 & o2 & q2 & -> & G2 & H3 & H4). exists nb2, nd2, xs2, o2, q2. auto 7.
Qed.

Lemma graph_start : graph (fun _ => [None; None; None]) 0 (fun _ => []) (fun _ => 0) (fun _ => None).
Proof.
  split; intros; try lia; auto. destruct i as [|[|[|[|]]]]; discriminate.
Qed.
(** What the data say. *)
Lemma graph_neighbourhood nb nd xs o q : graph nb nd xs o q -> (forall e i, e < m -> i < 3 -> setp nb e i) ->
  neighbourhood T (net nb nd xs o q).
Proof.
  intros G Hs.
  assert (Ed : forall d vs e0 e1, is_edge (net nb nd xs o q) d vs e0 e1 <-> d < nd /\ vs = xs d /\ e0 = Some (o d) /\ e1 = q d).
  { intros d vs e0 e1. unfold is_edge. cbn [net mD hd]. rewrite in_seq. split.
    - intros (Hd & x & Hx & H1 & H2 & H3). apply deref_pool_inv in Hx as (_ & ->). cbn in *. repeat split; auto; try lia.
      assert (Inj : forall a b : list nat, map Some a = map Some b -> a = b).
      { induction a as [|u a IH]; intros [|w b] E; try discriminate; auto. cbn in E. inversion E. f_equal; auto. }
      symmetry. now apply Inj.
    - intros (Hd & -> & -> & ->). split; [lia|]. exists (nedg xs o q d). rewrite deref_pool by auto. cbn. auto. }
  split.
  - cbn. apply seq_length.
  - intros e He. split; [cbn [net m_element mE]; now apply vget_seq|]. exists (nelt nb e). cbn [net he]. rewrite deref_pool by auto. split; auto.
  - intros e i He Hi. destruct (Hs e i He Hi) as (d & Hd). destruct (g_nb _ _ _ _ _ G e i d He Hd) as (A & B).
    exists d, (xs d), (Some (o d)), (q d). split; [|split; [apply Ed; auto|auto]].
    exists (nelt nb e). cbn [net he]. rewrite deref_pool by auto. split; auto.
  - intros d Hd. exists (xs d), (Some (o d)), (q d). apply Ed. cbn in Hd. apply in_seq in Hd. repeat split; auto; lia.
  - intros d vs e0 e1 H. apply Ed in H as (Hd & -> & -> & ->). destruct (g_edge _ _ _ _ _ G d Hd) as (A & (i & Hi & Ei) & C).
    destruct (without_two (tr (o d)) i (tr_triple _ A) Hi) as (x & y & Ew & Hxy & Hx & Hy). rewrite Ew in Ei.
    exists x, y, (o d). split; [auto|]. split; [auto|]. split; [auto|]. split.
    + intros E. apply C in E as (E & _). auto.
    + intros f. rewrite C, Ei. unfold has_face. fold m. fold (tr f). split.
      * intros (F1 & F2 & F3). destruct (Nat.eq_dec f (o d)) as [->|]; auto. right. repeat split; auto. intros z [<-|[<-|[]]]; auto.
      * intros [E|(F1 & F2 & F3)]; [inversion E; subst f; auto|]. repeat split; auto; apply F3; cbn; auto.
  - split; [cbn; apply seq_NoDup|]. intros d d' vs vs' a b a' b' H H' S. apply Ed in H as (Hd & -> & -> & ->). apply Ed in H' as (Hd' & -> & -> & ->).
    destruct (g_edge _ _ _ _ _ G d Hd) as (A & (i & Hi & Ei) & C).
    assert (E1 : nth_error (nb (o d)) i = Some (Some d)). { apply (g_all _ _ _ _ _ G); auto. rewrite Ei. intros z; tauto. }
    assert (E2 : nth_error (nb (o d)) i = Some (Some d')). { apply (g_all _ _ _ _ _ G); auto. rewrite <- Ei. now apply same_sym. }
    congruence.
Qed.
End Net.
