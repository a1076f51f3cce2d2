(** The global matrix and the boundary constraints of the finite element example. *)
From Coq Require Import List Arith Bool ZArith Lia Ring Field.
From Verif Require Import Base BaseProofs Num OrdField UtilsModel UtilsSpec Spec SpecProofs VectorModel VectorProofs SparseModel DenseModel DenseSpec DenseProofs MatI MatIProofs
  MatOps MatOpsProofs LUModel DetSpec LUSolve SimplexModel SimplexSpec SimplexProofs SimplexResult MeshModel MeshSpec MeshDofSpec
  ShapeModel ShapeSpec ShapeProofs QuadModel QuadSpec QuadProofs FemModel FemSpec FemProofs.
Import ListNotations.
Local Open Scope nat_scope.
Open Scope res_scope.

Section FemA.
Context {N : Num} (HO : OrdFieldLaws N) (HN : NatLaws N).
Let HF : FieldLaws N := of_field N HO.
Add Field femafld : (fl_field N HF).
Let sl : MatLaws (SparseR N) := ol_mat _ (rl_ops _ (sparse_rows N HF)).
(** a vector as a table *)
Lemma reads_ext (v : list N) n b c : reads v n b -> (forall i, i < n -> b i = c i) -> reads v n c.
Proof. intros (L & H) E. split; auto. intros i Hi. rewrite H by auto. auto. Qed.
Lemma reads_at (v : list N) n b i : reads v n b -> i < n -> v_at v i = Ok (b i).
Proof. intros (L & H) Hi. rewrite v_at_ok by lia. now rewrite H. Qed.
Lemma reads_set (v : list N) n b i x : reads v n b -> i < n -> exists v', v_set v i x = Ok v' /\ reads v' n (fun j => if j =? i then x else b j).
Proof.
  intros (L & H) Hi. rewrite v_set_ok by lia. eexists. split; [reflexivity|]. split; [now rewrite upd_length|]. intros j Hj.
  rewrite nth_upd. replace (i <? length v) with true by (symmetry; apply Nat.ltb_lt; lia). rewrite andb_true_r. destruct (j =? i); auto.
Qed.
Lemma reads_new n : reads (v_new n) n (fun _ => n0 : N).
Proof. split; [apply repeat_length|]. intros i _. unfold v_new. apply nth_repeat. Qed.

Lemma scatter_ok s o x em (ev : list N) A (B : list N) n a b m w (dofs : nat -> nat) : low o ->
  (forall i, i < 3 * o -> fem_dof s x i = Ok (dofs i) /\ dofs i < n) ->
  holds (em : DenseI N) (3 * o) (3 * o) m -> reads ev (3 * o) w -> holds A n n a -> reads B n b ->
  returns (fem_scatter s o x em ev (A, B)) (fun st =>
    holds (fst st) n n (fun i j => a i j + bigsum (3 * o) (fun k => bigsum (3 * o) (fun l => if (dofs k =? i) && (dofs l =? j) then m k l else n0)))%num /\
    reads (snd st) n (fun i => b i + bigsum (3 * o) (fun k => if dofs k =? i then w k else n0))%num).
Proof.
  intros Ho Hd Hm Hw HA HB. unfold fem_scatter. change (sf_dof 2 o) with (3 * o). set (nd := 3 * o) in *.
  apply (for_returns (fun t st => 
    holds (fst st) n n (fun i j => a i j + bigsum t (fun k => bigsum nd (fun l => if (dofs k =? i) && (dofs l =? j) then m k l else n0)))%num /\
    reads (snd st) n (fun i => b i + bigsum t (fun k => if dofs k =? i then w k else n0))%num)); [lia| |].
  - cbn [fst snd bigsum]. split; [eapply holds_ext; [exact HA|]|eapply reads_ext; [exact HB|]]; intros; ring.
  - intros i [A1 B1] Hi (H1 & H2). cbn [fst snd] in *. destruct (Hd i) as (E & Hl); [lia|]. rewrite E. cbn [bind].
    apply returns_bind. eapply returns_mono; [apply (for_returns (fun t (A2 : SparseR N) => holds A2 n n (fun r c => a r c + bigsum i (fun k => bigsum nd (fun l => if (dofs k =? r) && (dofs l =? c) then m k l else n0)) +
        bigsum t (fun l => if (dofs i =? r) && (dofs l =? c) then m i l else n0))%num))|]; [lia| | |].
    + eapply holds_ext; [exact H1|]. intros; cbn [bigsum]; ring.
    + intros j A2 Hj H. destruct (Hd j) as (E' & Hl'); [lia|]. rewrite E'. cbn [bind]. rewrite (holds_at _ _ _ _ _ _ H Hl Hl'). cbn [bind].
      change (d_at em i j) with (mi_at (em : DenseI N) i j). rewrite (holds_at _ _ _ _ _ _ Hm) by lia. cbn [bind].
      match goal with |- returns (mi_set _ _ _ ?v) _ => destruct (holds_set sl A2 n n _ (dofs i) (dofs j) v H Hl Hl') as (A3 & E3 & H3) end.
      exists A3. split; [exact E3|]. eapply holds_ext; [exact H3|]. intros r c Hr Hc. unfold put2. cbn [bigsum]. rewrite (Nat.eqb_sym r), (Nat.eqb_sym c).
      destruct (Nat.eqb_spec (dofs i) r) as [<-|]; cbn [andb]; [destruct (Nat.eqb_spec (dofs j) c) as [<-|]|]; rewrite ?Nat.eqb_refl; cbn [andb]; ring.
    + intros A2 H3. cbn beta in H3. rewrite (reads_at _ _ _ _ H2) by auto. cbn [bind]. rewrite (reads_at _ _ _ _ Hw) by lia. cbn [bind].
      match goal with |- returns (let* _ := v_set _ _ ?v in _) _ => destruct (reads_set B1 n _ (dofs i) v H2 Hl) as (B2 & E4 & H4) end.
      rewrite E4. apply returns_ok. cbn [fst snd]. split.
      * eapply holds_ext; [exact H3|]. intros r c _ _. cbn [bigsum]. ring.
      * eapply reads_ext; [exact H4|]. intros r Hr. cbn [bigsum]. rewrite (Nat.eqb_sym r). destruct (Nat.eqb_spec (dofs i) r) as [<-|]; ring.
Qed.
(** foreach over the first m numbers *)
Lemma foreach_seq {X} (P : nat -> X -> Prop) m f x : P 0 x -> (forall e x, e < m -> P e x -> returns (f e x) (P (S e))) -> returns (foreach (seq 0 m) f x) (P m).
Proof.
  intros H0 Hs. assert (G : forall k j x, j + k <= m -> P j x -> returns (foreach (seq j k) f x) (P (j + k))).
  { induction k as [|k IH]; intros j y Hj Hy; cbn [seq foreach].
    - apply returns_ok. now rewrite Nat.add_0_r.
    - apply returns_bind. eapply returns_mono; [apply (Hs j y); [lia|auto]|]. intros z Hz. rewrite <- Nat.add_succ_comm. apply IH; [lia|auto]. }
  apply (G m 0 x); auto.
Qed.
(** *** Everything about a mesh *)
Section Mesh.
Variables (o : nat) (V : list (list N)) (D : list (list nat)) (bd : nat -> bool) (s : mst N).
Hypothesis Ho : low o.
Hypothesis Hc : carries V D bd s.
Hypothesis Hlen : forall e, e < length D -> length (nth e D []) = 3 * o.
Hypothesis Hin : forall e k, e < length D -> k < 3 * o -> node D e k < length V.
Hypothesis Hprop : forall e, e < length D -> proper (corner V D e).
Notation n := (length V).
Lemma dof_ok e : e < length D -> exists x, deref (he s) e = Ok x /\ me_sx x = prep (corner V D e) /\ forall k, k < 3 * o -> fem_dof s x k = Ok (node D e k) /\ node D e k < n.
Proof.
  intros He. destruct (ca_element _ _ _ _ Hc e He) as (x & s0 & E & Hd & H1 & H2). exists x. split; auto. split; [exact (prepared HO _ _ _ H1 H2)|].
  intros k Hk. split; [|auto]. unfold fem_dof. rewrite Hd. rewrite (vget_ok _ _ (Some 0)) by (rewrite map_length, Hlen; auto).
  rewrite (map_nth Some). cbn [bind nn]. fold (node D e k). destruct (ca_vertex _ _ _ _ Hc (node D e k)) as (v & E' & Hg & _); [now apply Hin|].
  rewrite E'. cbn [bind]. now rewrite Hg.
Qed.
Lemma assemble_ok drop f : 0 < n -> returns (fem_assemble drop o f s) (fun st => holds (fst st) n n (fem_a drop o V D) /\ reads (snd st) n (fem_b drop o f V D)).
Proof.
  intros Hn. unfold fem_assemble. destruct (ca_lists _ _ _ _ Hc) as (EV & EE). rewrite EV, EE, seq_length.
  destruct (holds_new sl n n Hn Hn) as (A & EA & HA). rewrite EA. cbn [bind].
  apply (foreach_seq (fun e st => holds (fst st) n n (fun i j => bigsum e (fun e => bigsum (3 * o) (fun k => bigsum (3 * o) (fun l => if (node D e k =? i) && (node D e l =? j) then kept drop (stiff o (corner V D e) k l) else n0)))) /\
     reads (snd st) n (fun i => bigsum e (fun e => bigsum (3 * o) (fun k => if node D e k =? i then kept drop (loadv o f (corner V D e) k) else n0))))).
  - cbn [fst snd bigsum]. split; [exact HA|apply reads_new].
  - intros e [A1 B1] He (H1 & H2). cbn [fst snd] in *. destruct (dof_ok e He) as (x & E & Es & Hd). rewrite E. cbn [bind]. rewrite Es.
    apply returns_bind. eapply returns_mono; [apply (element_ok HO HN drop o f _ Ho (Hprop e He))|]. intros [em ev] (H3 & H4). cbn [fst snd] in *.
    eapply returns_mono; [eapply (scatter_ok s o x em ev A1 B1 n _ _ _ (fun k => kept drop (loadv o f (corner V D e) k)) (node D e) Ho Hd H3); [|exact H1|exact H2]|].
    + rewrite H4. split; [now rewrite map_length, seq_length|]. intros i Hi. rewrite (nth_indep _ n0 (kept drop (loadv o f (corner V D e) 0))) by (rewrite map_length, seq_length; auto).
      rewrite (map_nth (fun k => kept drop (loadv o f (corner V D e) k))), seq_nth by auto. reflexivity.
    + intros [A2 B2] (H5 & H6). cbn [fst snd bigsum] in *. split; auto.
Qed.
Lemma mid_ok A a : holds A n n a -> 0 < n -> fem_mid s A = Ok (avg_diag n a).
Proof.
  intros HA Hn. unfold fem_mid. destruct (ca_lists _ _ _ _ Hc) as (EV & _). rewrite EV, seq_length.
  assert (R : returns (foreach (seq 0 n) (fun p m => let* v := deref (hv s) p in let* a := mi_at A (mv_gi v) (mv_gi v) in Ok (m + nabs a)%num) n0) (fun m => m = bigsum n (fun i => nabs (a i i)))).
  { apply (foreach_seq (fun e m => m = bigsum e (fun i => nabs (a i i)))); [reflexivity|]. intros e m He ->.
    destruct (ca_vertex _ _ _ _ Hc e He) as (v & E & Hg & _). rewrite E. cbn [bind]. rewrite Hg, (holds_at _ _ _ _ _ _ HA) by auto. cbn [bind]. apply returns_ok. reflexivity. }
  destruct R as (m & E & ->). rewrite E. reflexivity.
Qed.
(** *** Boundary constraints *)
Definition gval (g : list N -> N) (i : nat) : N := g (nth i V []).
Lemma boundary_ok g mid A (B : list N) a b : holds A n n a -> reads B n b ->
  returns (fem_boundary g s mid (A, B)) (fun st => holds (fst st) n n (fixed_a bd mid a) /\ reads (snd st) n (fixed_b n bd mid (gval g) a b)).
Proof.
  intros HA HB. unfold fem_boundary. destruct (ca_lists _ _ _ _ Hc) as (EV & _). rewrite EV, seq_length.
  pose (bt := fun t i => (i <? t) && bd i).
  eapply returns_mono; [apply (foreach_seq (fun t st => holds (fst st) n n (fixed_a (bt t) mid a) /\ reads (snd st) n (fixed_b n (bt t) mid (gval g) a b)))|].
  - cbn [fst snd]. split; [eapply holds_ext; [exact HA|]|eapply reads_ext; [exact HB|]].
    + intros i j _ _. reflexivity.
    + intros i _. unfold fixed_b. cbn. rewrite (bigsum_0 HF) by reflexivity. ring.
  - intros t [A1 B1] Ht (H1 & H2). cbn [fst snd] in *. destruct (ca_vertex _ _ _ _ Hc t Ht) as (v & E & Hg & Hp & Hb). rewrite E. cbn [bind]. rewrite Hg, Hp, Hb.
    assert (Bt : bt t t = false) by (unfold bt; now rewrite (proj2 (Nat.ltb_ge t t) (le_n t))).
    assert (Bs : forall i, bt (S t) i = bt t i || ((i =? t) && bd t)).
    { intros i. unfold bt. destruct (Nat.eqb_spec i t) as [->|].
      - rewrite (proj2 (Nat.ltb_ge t t) (le_n t)), (proj2 (Nat.ltb_lt t (S t)) (le_n _)). reflexivity.
      - cbn [andb]. rewrite orb_false_r. destruct (Nat.ltb_spec i t), (Nat.ltb_spec i (S t)); auto; lia. }
    destruct (bd t) eqn:Ebt; cbn [negb].
    2: { apply returns_ok. cbn [fst snd]. split; [eapply holds_ext; [exact H1|]|eapply reads_ext; [exact H2|]].
         - intros i j _ _. unfold fixed_a. rewrite !Bs, !andb_false_r, !orb_false_r. reflexivity.
         - intros i _. unfold fixed_b. rewrite Bs, andb_false_r, orb_false_r. destruct (bt t i); auto. f_equal. apply bigsum_ext. intros j _. rewrite Bs, andb_false_r, orb_false_r. reflexivity. }
    apply returns_bind. eapply returns_mono; [apply (for_returns (fun k st =>
       holds (fst st) n n (fun i j => if ((i =? t) && (j <? k)) || ((j =? t) && (i <? k)) then n0 else fixed_a (bt t) mid a i j) /\
       reads (snd st) n (fun i => fixed_b n (bt t) mid (gval g) a b i - (if (i <? k) && negb (i =? t) then fixed_a (bt t) mid a i t * gval g t else if (i =? t) && (i <? k) then fixed_a (bt t) mid a t t * gval g t else n0))%num))|].
    + lia.
    + cbn [fst snd]. split; [eapply holds_ext; [exact H1|]|eapply reads_ext; [exact H2|]].
      * intros i j _ _. cbn. rewrite !andb_false_r. reflexivity.
      * intros i _. cbn. rewrite andb_false_r. ring.
    + intros k [A2 B2] Hk (H3 & H4). cbn [fst snd] in *. rewrite (reads_at _ _ _ _ H4) by lia. cbn [bind]. rewrite (holds_at _ _ _ _ _ _ H3) by lia. cbn [bind].
      match goal with |- returns (let* _ := v_set _ _ ?v in _) _ => destruct (reads_set B2 n _ k v H4) as (B3 & E5 & H5); [lia|] end.
      rewrite E5. cbn [bind].
      destruct (holds_set sl A2 n n _ t k n0 H3) as (A3 & E6 & H6); [lia|lia|]. rewrite E6. cbn [bind].
      destruct (holds_set sl A3 n n _ k t n0 H6) as (A4 & E7 & H7); [lia|lia|]. rewrite E7. cbn [bind]. apply returns_ok. cbn [fst snd]. split.
      * eapply holds_ext; [exact H7|]. intros i j _ _. unfold put2. 
        destruct (Nat.eqb_spec i t), (Nat.eqb_spec j t), (Nat.eqb_spec i k), (Nat.eqb_spec j k), (Nat.ltb_spec i k), (Nat.ltb_spec j k), (Nat.ltb_spec i (S k)), (Nat.ltb_spec j (S k)); cbn; auto; lia.
      * eapply reads_ext; [exact H5|]. intros i Hi. cbn beta. destruct (Nat.eqb_spec i k) as [->|Hne].
        -- rewrite !(proj2 (Nat.ltb_ge k k) (le_n k)), (proj2 (Nat.ltb_lt k (S k)) (le_n _)), !andb_false_r. cbn [andb].
           destruct (Nat.eqb_spec k t) as [->|Hkt]; cbn [andb negb].
           ++ rewrite (proj2 (Nat.ltb_ge t t) (le_n t)). cbn. unfold gval. ring.
           ++ unfold gval. cbn. ring.
        -- replace (i <? S k) with (i <? k) by (destruct (Nat.ltb_spec i k), (Nat.ltb_spec i (S k)); auto; lia). reflexivity.
    + intros [A2 B2] (H3 & H4). cbn [fst snd] in *. fold (gval g t).
      destruct (holds_set sl A2 n n _ t t mid H3 Ht Ht) as (A3 & E5 & H5). rewrite E5. cbn [bind].
      destruct (reads_set B2 n _ t (mid * gval g t)%num H4 Ht) as (B3 & E6 & H6). rewrite E6. apply returns_ok. cbn [fst snd]. split.
      * eapply holds_ext; [exact H5|]. intros i j Hi Hj. unfold put2. cbn beta. unfold fixed_a. rewrite !Bs.
        rewrite (proj2 (Nat.ltb_lt i n) Hi), (proj2 (Nat.ltb_lt j n) Hj), !andb_true_r.
        destruct (Nat.eqb_spec i t) as [->|Hi'], (Nat.eqb_spec j t) as [->|Hj']; cbn [andb orb].
        -- rewrite Bt, Nat.eqb_refl. reflexivity.
        -- rewrite Bt. cbn. apply Nat.eqb_neq in Hj'. rewrite Nat.eqb_sym, Hj'. reflexivity.
        -- rewrite !orb_true_r. apply Nat.eqb_neq in Hi'. rewrite Hi'. reflexivity.
        -- rewrite !orb_false_r. reflexivity.
      * eapply reads_ext; [exact H6|]. intros i Hi. cbn beta. unfold fixed_b. rewrite Bs, andb_true_r. destruct (Nat.eqb_spec i t) as [->|Hi']; [now rewrite orb_true_r|].
        rewrite orb_false_r, (proj2 (Nat.ltb_lt i n) Hi). cbn [andb negb]. destruct (bt t i) eqn:Ei.
        -- unfold fixed_a. rewrite Ei. cbn [orb]. apply Nat.eqb_neq in Hi'. rewrite Hi'. ring.
        -- assert (S1 : bigsum n (fun j => if bt (S t) j then a i j * gval g j else n0)%num = (bigsum n (fun j => if bt t j then a i j * gval g j else n0) + a i t * gval g t)%num).
           { transitivity (bigsum n (fun j => (if bt t j then a i j * gval g j else n0) + (if j =? t then a i j * gval g j else n0)))%num.
             - apply bigsum_ext. intros j _. rewrite Bs, andb_true_r. destruct (Nat.eqb_spec j t) as [->|]; [rewrite Bt; cbn; ring|rewrite orb_false_r; ring].
             - rewrite (bigsum_plus HF). f_equal. rewrite (bigsum_single HF n t) by (auto; intros j _ Hj; apply Nat.eqb_neq in Hj; now rewrite Hj). now rewrite Nat.eqb_refl. }
           rewrite S1. unfold fixed_a. rewrite Ei, Bt. cbn [orb]. ring.
  - intros [A1 B1] (H1 & H2). cbn [fst snd] in *. split; [eapply holds_ext; [exact H1|]|eapply reads_ext; [exact H2|]].
    + intros i j Hi Hj. unfold fixed_a, bt. now rewrite (proj2 (Nat.ltb_lt i n) Hi), (proj2 (Nat.ltb_lt j n) Hj).
    + intros i Hi. unfold fixed_b. unfold bt at 1. rewrite (proj2 (Nat.ltb_lt i n) Hi). cbn [andb]. destruct (bd i); auto. f_equal. apply bigsum_ext. intros j Hj.
      unfold bt. now rewrite (proj2 (Nat.ltb_lt j n) Hj).
Qed.
End Mesh.
End FemA.
