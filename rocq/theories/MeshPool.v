(** Pools of live objects as functions, and the closed form of a mesh built through the public interface. *)
From Coq Require Import List Arith Bool Lia.
From Verif Require Import Base BaseProofs Num VectorModel SimplexModel MeshModel MeshSpec.
Import ListNotations.
Local Open Scope nat_scope.
Open Scope res_scope.

Section Pool.
Context {A : Type}.
Implicit Types f g : nat -> A.
Definition pool n f : list (option A) := map (fun k => Some (f k)) (seq 0 n).
Definition fup f k (a : A) : nat -> A := fun j => if j =? k then a else f j.
Lemma pool_len n f : length (pool n f) = n.
Proof. unfold pool. now rewrite map_length, seq_length. Qed.
Lemma pool_nth n f k : nth_error (pool n f) k = if k <? n then Some (Some (f k)) else None.
Proof.
  unfold pool. destruct (k <? n) eqn:E.
  - apply Nat.ltb_lt in E. rewrite (map_nth_error (fun j => Some (f j)) k (seq 0 n) (d := k)); auto.
    rewrite (nth_error_nth' _ 0) by now rewrite seq_length. f_equal. rewrite seq_nth by auto. reflexivity.
  - apply Nat.ltb_ge in E. apply nth_error_None. now rewrite map_length, seq_length.
Qed.
Lemma nth_error_ext {B} (l k : list B) : (forall i, nth_error l i = nth_error k i) -> l = k.
Proof.
  revert k. induction l as [|x l IH]; intros [|y k] H; auto; try (specialize (H 0); discriminate).
  f_equal; [specialize (H 0); now inversion H|]. apply IH. intros i. exact (H (S i)).
Qed.
Lemma nth_error_upd {B} (l : list B) i x j : nth_error (upd l i x) j = if (j =? i) && (i <? length l) then Some x else nth_error l j.
Proof.
  revert i j. induction l as [|y l IH]; intros [|i] [|j]; cbn; try reflexivity.
  - now rewrite andb_false_r.
  - rewrite IH. reflexivity.
Qed.
Lemma pool_ext n f g : (forall k, k < n -> f k = g k) -> pool n f = pool n g.
Proof. intros H. apply nth_error_ext. intros k. rewrite !pool_nth. destruct (k <? n) eqn:E; auto. apply Nat.ltb_lt in E. now rewrite H. Qed.
Lemma deref_pool n f k : k < n -> deref (pool n f) k = Ok (f k).
Proof. intros H. unfold deref. rewrite pool_nth. apply Nat.ltb_lt in H. now rewrite H. Qed.
Lemma deref_pool_inv n f k a : deref (pool n f) k = Ok a -> k < n /\ a = f k.
Proof. unfold deref. rewrite pool_nth. destruct (k <? n) eqn:E; intros H; inversion H. apply Nat.ltb_lt in E. auto. Qed.
Lemma store_pool n f k a : k < n -> store (pool n f) k a = Ok (pool n (fup f k a)).
Proof.
  intros H. unfold store. rewrite deref_pool by auto. cbn [bind]. f_equal. apply nth_error_ext. intros j.
  rewrite nth_error_upd, !pool_nth, pool_len. apply Nat.ltb_lt in H. rewrite H, andb_true_r. unfold fup.
  destruct (j =? k) eqn:E; auto. apply Nat.eqb_eq in E. subst. now rewrite H.
Qed.
Lemma pool_snoc n f a : pool n f ++ [Some a] = pool (S n) (fup f n a).
Proof.
  unfold pool. rewrite seq_S, map_app. cbn [map Nat.add]. f_equal.
  - apply map_ext_in. intros k Hk. apply in_seq in Hk. unfold fup. assert (k =? n = false) by (apply Nat.eqb_neq; lia). now rewrite H.
  - unfold fup. now rewrite Nat.eqb_refl.
Qed.
Lemma fup_eq f k a : fup f k a k = a.
Proof. unfold fup. now rewrite Nat.eqb_refl. Qed.
Lemma fup_ne f k a j : j <> k -> fup f k a j = f j.
Proof. intros H. unfold fup. apply Nat.eqb_neq in H. now rewrite H. Qed.
End Pool.
Lemma vget_seq n k : k < n -> vget (seq 0 n) k = Ok k.
Proof. intros H. rewrite (vget_ok _ _ 0) by now rewrite seq_length. now rewrite seq_nth. Qed.

Section Build.
Context {N : Num}.
Notation mst := (mst N).
(** corners assigned, nothing computed yet *)
Definition sx_fresh (ps : list (list N)) : simplex N := mkSx ps false (sx_m sx_new) (sx_inv sx_new) (sx_det sx_new).
Definition inb (k : nat) (l : list nat) : bool := existsb (Nat.eqb k) l.
Lemma inb_spec k l : inb k l = true <-> In k l.
Proof. unfold inb. rewrite existsb_exists. split; [intros (x & Hx & E); apply Nat.eqb_eq in E; now subst|]. intros H. exists k. now rewrite Nat.eqb_refl. Qed.
Lemma inb_false k l : inb k l = false <-> ~ In k l.
Proof. rewrite <- inb_spec. destruct (inb k l); split; intros; auto; try discriminate. destruct H; auto. Qed.
Definition owners (T : list (list nat)) (k : nat) : list nat := filter (fun e => inb k (nth e T [])) (seq 0 (length T)).
Lemma owners_in T k e : In e (owners T k) <-> e < length T /\ In k (nth e T []).
Proof. unfold owners. rewrite filter_In, in_seq, inb_spec. intuition lia. Qed.
Definition vtx (V : list (list N)) (F : nat -> bool) (T : list (list nat)) (k : nat) : mvert N :=
  mkMV (F k) false k (nth k V []) (owners T k).
Definition elt (V : list (list N)) (T : list (list nat)) (e : nat) : melem N :=
  mkME (sx_fresh (map (fun k => nth k V []) (nth e T []))) (map Some (nth e T [])) [None; None; None] [].
Definition mesh_of (V : list (list N)) (F : nat -> bool) (T : list (list nat)) : mst :=
  mkM (pool (length V) (vtx V F T)) (pool (length T) (elt V T)) [] (seq 0 (length V)) (seq 0 (length T)) [].
(** Three different existing vertices. *)
Definition okT (n : nat) (T : list (list nat)) : Prop :=
  forall t, In t T -> length t = 3 /\ NoDup t /\ forall k, In k t -> k < n.

Lemma add_vertex V F T pos : okT (length V) T -> F (length V) = false ->
  do_op (AddVertex pos) (mesh_of V F T) = Ok (mesh_of (V ++ [pos]) F T).
Proof.
  intros HT HF. unfold do_op, new_vertex, m_addVertex, mesh_of, set_hv. cbn [hv he hd mV mE mD].
  rewrite pool_len, pool_snoc, deref_pool by lia. cbn [bind]. rewrite store_pool by lia. cbn [bind].
  rewrite fup_eq, seq_length. unfold mk_vertex. cbn [mv_bound mv_impl mv_pos mv_el]. f_equal. f_equal.
  - rewrite app_length, Nat.add_1_r. apply pool_ext. intros k Hk. unfold vtx.
    destruct (Nat.eq_dec k (length V)) as [->|Hn].
    + rewrite fup_eq, app_nth2, Nat.sub_diag, HF by lia. cbn. f_equal. symmetry. apply length_zero_iff_nil.
      destruct (owners T (length V)) eqn:E; auto. exfalso. assert (H : In n (owners T (length V))) by (rewrite E; now left).
      apply owners_in in H as (He & H). apply (HT (nth n T [])) in H; [lia|]. now apply nth_In.
    + rewrite !fup_ne by auto. rewrite app_nth1 by lia. reflexivity.
  - apply pool_ext. intros e He. unfold elt. f_equal. f_equal. apply map_ext_in. intros k Hk.
    symmetry. apply app_nth1. eapply HT; [|exact Hk]. now apply nth_In.
  - rewrite app_length, Nat.add_1_r, seq_S. reflexivity.
Qed.
Lemma mark_vertex V F T i : i < length V -> do_op (Mark i) (mesh_of V F T) = Ok (mesh_of V (fup F i true) T).
Proof.
  intros Hi. unfold do_op, m_vertex, or_flags, mesh_of, set_hv. cbn [mV]. rewrite vget_seq by auto. cbn [bind hv].
  rewrite deref_pool by auto. cbn [bind]. rewrite store_pool by auto. cbn [bind he hd mV mE mD]. f_equal. f_equal.
  apply pool_ext. intros k Hk. unfold vtx. cbn. destruct (Nat.eq_dec k i) as [->|Hn].
  - rewrite !fup_eq, orb_true_r. reflexivity.
  - now rewrite !fup_ne by auto.
Qed.
Lemma owners_snoc T t k : owners (T ++ [t]) k = owners T k ++ (if inb k t then [length T] else []).
Proof.
  unfold owners. rewrite app_length, Nat.add_1_r, seq_S, filter_app. f_equal.
  - apply filter_ext_in. intros e He. apply in_seq in He. rewrite app_nth1 by lia. reflexivity.
  - cbn [filter Nat.add]. rewrite app_nth2, Nat.sub_diag by lia. reflexivity.
Qed.
Lemma add_element V F T a b c : a < length V -> b < length V -> c < length V -> a <> b -> a <> c -> b <> c ->
  do_op (AddElement a b c) (mesh_of V F T) = Ok (mesh_of V F (T ++ [[a; b; c]])).
Proof.
  intros Ha Hb Hc Hab Hac Hbc. unfold do_op, m_vertex, mesh_of at 1 2 3. cbn [mV].
  rewrite !vget_seq by auto. cbn [bind]. unfold new_element, mesh_of, set_he. cbn [hv he hd mV mE mD].
  rewrite pool_len, pool_snoc. set (m := length T). unfold m_addElement. cbn [hv he hd mV mE mD].
  change (for_ 0 3) with (@for_n mst 3 0). cbn [for_n].
  cbn [hv he hd mV mE mD]. rewrite deref_pool by lia. cbn [bind]. rewrite fup_eq. unfold mk_element. cbn [me_v me_sx me_n me_dof].
  change (vget [Some a; Some b; Some c] 0) with (Ok (Some a)). cbn [bind nn]. rewrite deref_pool by auto. cbn [bind].
  unfold sx_put at 1, vset. cbn [sx_v sx_new length repeat Nat.add Nat.ltb Nat.leb bind]. rewrite store_pool by lia. cbn [bind].
  unfold push_el at 1. rewrite deref_pool by auto. cbn [bind]. rewrite store_pool by auto. cbn [bind].
  cbn [hv he hd mV mE mD]. rewrite deref_pool by lia. cbn [bind]. rewrite fup_eq. cbn [me_v me_sx me_n me_dof].
  change (vget [Some a; Some b; Some c] 1) with (Ok (Some b)). cbn [bind nn]. rewrite deref_pool by auto. cbn [bind].
  unfold sx_put at 1, vset. cbn [sx_v length repeat Nat.add Nat.ltb Nat.leb bind upd]. rewrite store_pool by lia. cbn [bind].
  unfold push_el at 1. rewrite deref_pool by auto. cbn [bind]. rewrite store_pool by auto. cbn [bind].
  cbn [hv he hd mV mE mD]. rewrite deref_pool by lia. cbn [bind]. rewrite fup_eq. cbn [me_v me_sx me_n me_dof].
  change (vget [Some a; Some b; Some c] 2) with (Ok (Some c)). cbn [bind nn]. rewrite deref_pool by auto. cbn [bind].
  unfold sx_put at 1, vset. cbn [sx_v length repeat Nat.add Nat.ltb Nat.leb bind upd]. rewrite store_pool by lia. cbn [bind].
  unfold push_el at 1. rewrite deref_pool by auto. cbn [bind]. rewrite store_pool by auto. cbn [bind].
  f_equal. f_equal.
  - apply pool_ext. intros k Hk. unfold vtx. rewrite owners_snoc. unfold fup. unfold inb. cbn [existsb]. rewrite orb_false_r.
    fold m. assert (B : forall x y, x <> y -> x =? y = false) by (intros; now apply Nat.eqb_neq).
    rewrite ?(B b a), ?(B c a), ?(B c b) by auto. cbn.
    destruct (k =? c) eqn:E3; [apply Nat.eqb_eq in E3; subst k; rewrite ?(B c a), ?(B c b) by auto; reflexivity|].
    destruct (k =? b) eqn:E2; [apply Nat.eqb_eq in E2; subst k; rewrite ?(B b a) by auto; reflexivity|].
    destruct (k =? a) eqn:E1; [apply Nat.eqb_eq in E1; subst k; reflexivity|]. cbn. now rewrite app_nil_r.
  - rewrite app_length, Nat.add_1_r. apply pool_ext. intros e He. unfold elt. fold m in He.
    destruct (Nat.eq_dec e m) as [->|Hn].
    + rewrite fup_eq. unfold m. rewrite !app_nth2, !Nat.sub_diag by lia. cbn.
      assert (X : forall k, k < length V -> mv_pos (vtx V F T k) = nth k V []) by reflexivity.
      unfold fup. assert (B : forall x y, x <> y -> x =? y = false) by (intros; now apply Nat.eqb_neq).
      rewrite ?(B b a), ?(B c a), ?(B c b) by auto. reflexivity.
    + rewrite !fup_ne by auto. rewrite app_nth1 by (fold m; lia). reflexivity.
  - rewrite app_length, Nat.add_1_r, seq_S. reflexivity.
Qed.

Fixpoint markfn (F : nat -> bool) (ops : list (mop N)) : nat -> bool :=
  match ops with [] => F | Mark i :: r => markfn (fup F i true) r | _ :: r => markfn F r end.
Lemma build_from ops : forall V F T, okT (length V) T -> (forall k, length V <= k -> F k = false) -> valid (length V) ops ->
  foreach ops do_op (mesh_of V F T) = Ok (mesh_of (V ++ points ops) (markfn F ops) (T ++ tris ops)) /\
  okT (length (V ++ points ops)) (T ++ tris ops).
Proof.
  induction ops as [|[pos|i|a b c] ops IH]; intros V F T HT HF; cbn [foreach valid points tris markfn].
  - intros _. rewrite !app_nil_r. auto.
  - intros (Hp & Hv). rewrite add_vertex by auto. cbn [bind].
    assert (E : S (length V) = length (V ++ [pos])) by (rewrite app_length; cbn; lia). rewrite E in Hv.
    destruct (IH (V ++ [pos]) F T) as (H1 & H2); auto.
    + intros t Ht. destruct (HT t Ht) as (A & B & C). repeat split; auto. intros k Hk. rewrite <- E. specialize (C k Hk). lia.
    + intros k Hk. apply HF. rewrite <- E in Hk. lia.
    + rewrite H1. rewrite <- !app_assoc in *. cbn [app] in *. auto.
  - intros (Hi & Hv). rewrite mark_vertex by auto. cbn [bind]. apply IH; auto.
    intros k Hk. rewrite fup_ne by lia. auto.
  - intros ((Ha & Hb & Hc) & (Hab & Hac & Hbc) & Hv). rewrite add_element by auto. cbn [bind].
    destruct (IH V F (T ++ [[a; b; c]])) as (H1 & H2); auto.
    + intros t Ht. apply in_app_iff in Ht as [Ht|[<-|[]]]; [apply HT; auto|]. repeat split.
      * repeat constructor; cbn; intuition congruence.
      * intros k [<-|[<-|[<-|[]]]]; auto.
    + rewrite H1. rewrite <- !app_assoc in *. cbn [app] in *. auto.
Qed.
Lemma mesh_empty : @m_new N = mesh_of [] (fun _ => false) [].
Proof. reflexivity. Qed.
Lemma markfn_spec ops : forall F k, markfn F ops k = true <-> F k = true \/ marked ops k.
Proof.
  unfold marked. induction ops as [|[pos|i|a b c] ops IH]; intros F k; cbn [markfn In]; rewrite ?IH; try tauto.
  - intuition congruence.
  - destruct (Nat.eq_dec k i) as [->|H]; [rewrite fup_eq; intuition auto|rewrite fup_ne by auto; intuition congruence].
  - intuition congruence.
Qed.
Theorem build_ok ops : valid 0 ops -> build ops = Ok (mesh_of (points ops) (markfn (fun _ => false) ops) (tris ops)) /\ okT (length (points ops)) (tris ops).
Proof.
  intros H. unfold build. rewrite mesh_empty.
  destruct (build_from ops [] (fun _ => false) []) as (H1 & H2); auto. intros t [].
Qed.
End Build.
