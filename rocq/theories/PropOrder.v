(** Properties C33-C35, C86: bandwidth-reducing orderings and permutations.  A permutation is a vector p with
    [Permutation p (seq 0 n)], i.e. it lists 0..n-1 in some order; [nth i p 0] is p[i]. *)
From Coq Require Import List Arith Bool ZArith Permutation Lia.
From Verif Require Import Base BaseProofs Num NumInst Spec SpecProofs VectorModel SparseModel SparseSpec
  MatI MatOps MatOpsProofs OrderModel OrderSpec OrderProofs OrderBfs ExampleBase.
Import ListNotations.
Local Open Scope nat_scope.
Open Scope res_scope.

(** ** C33. *)
Lemma deg_used {N : Num} n (a : nat -> nat -> N) i : (0 <? deg n a i) = true <-> row_used n a i.
Proof.
  unfold deg, row_used. rewrite Nat.ltb_lt. split.
  - intros H. destruct (filter (fun j => negb (is0 (a i j))) (seq 0 n)) as [|j l] eqn:E; [cbn in H; lia|].
    assert (Hi : In j (filter (fun j => negb (is0 (a i j))) (seq 0 n))) by (rewrite E; left; auto).
    apply filter_In in Hi as [Hi Hz]. apply in_seq in Hi. exists j. split; [lia|]. now destruct (is0 (a i j)).
  - intros (j & Hj & Hz). assert (Hi : In j (filter (fun j => negb (is0 (a i j))) (seq 0 n))).
    { apply filter_In. split; [apply in_seq; lia|now rewrite Hz]. }
    destruct (filter _ _); [destruct Hi|cbn; lia].
Qed.

(** It always terminates and returns n indices: first the non-empty rows, each exactly once, then zeros. *)
Theorem C33_cuthill (N : Num) (HZ : ZeroLaws N) : forall (m : smat N) n a, built m -> reads m n n a ->
  returns (cuthill m) (fun R => length R = n /\ exists done, R = done ++ repeat 0 (n - length done) /\
    NoDup done /\ forall i, In i done <-> i < n /\ row_used n a i).
Proof.
  intros m n a Hb Hr. destruct (cuthill_ok HZ n m a Hb Hr) as (R & E & done & HP & HR & Hl). exists R. repeat split; auto.
  exists done. split; auto. split.
  - apply (Permutation_NoDup (Permutation_sym HP)). apply NoDup_filter, seq_NoDup.
  - intros i. split.
    + intros H. apply (Permutation_in _ HP) in H. apply filter_In in H as [H1 H2]. apply in_seq in H1. split; [lia|].
      now apply deg_used.
    + intros [H1 H2]. apply (Permutation_in _ (Permutation_sym HP)). apply filter_In. split; [apply in_seq; lia|].
      now apply deg_used.
Qed.
(** So it is a permutation as soon as no row is empty; likewise the reverse ordering. *)
Theorem C33_permutation_partial (N : Num) (HZ : ZeroLaws N) : forall (m : smat N) n a, built m -> reads m n n a ->
  (forall i, i < n -> row_used n a i) ->
  returns (cuthill m) (fun R => Permutation R (seq 0 n) /\
    r_cuthill m = Ok (rev R) /\ Permutation (rev R) (seq 0 n)).
Proof.
  intros m n a Hb Hr Hu. destruct (C33_cuthill N HZ m n a Hb Hr) as (R & E & Hl & done & HR & HN & HI). exists R.
  assert (HP : Permutation done (seq 0 n)).
  { apply NoDup_Permutation; auto using seq_NoDup. intros i. rewrite HI, in_seq. split; [lia|]. intros H. split; [lia|]. apply Hu; lia. }
  assert (HR' : R = done).
  { rewrite HR, (Permutation_length HP), seq_length, Nat.sub_diag. cbn [repeat]. apply app_nil_r. }
  subst R. rewrite HR' in *. split; auto. split; auto. unfold r_cuthill. rewrite E. cbn [bind]. split; [apply i_reverse_ok|].
  now rewrite <- (Permutation_rev done).
Qed.
Theorem C33_reverse (N : Num) : forall (m : smat N), r_cuthill m = (let* R := cuthill m in Ok (rev R)).
Proof. intros m. unfold r_cuthill. destruct (cuthill m); cbn [bind]; auto. apply i_reverse_ok. Qed.
Theorem C33_not_square (N : Num) : forall (m : smat N), s_rows m <> s_cols m ->
  cuthill m = Throw NotSquare /\ r_cuthill m = Throw NotSquare.
Proof. intros m H. assert (E : cuthill m = Throw NotSquare) by (unfold cuthill; bdec; auto). unfold r_cuthill. rewrite E. auto. Qed.
(** [BUG] an empty row is left out: for the 3x3 matrix whose only entry is (2,2) the answer is 2,0,0. *)
Theorem C33_empty_row_refuted :
  (let* m := s_new 3 3 in let* m := s_set m 2 2 (fz 1) in cuthill m) = Ok [2; 0; 0] /\ ~ Permutation [2; 0; 0] (seq 0 3).
Proof.
  split; [vm_compute; reflexivity|]. intros H. apply Permutation_sym in H.
  apply (Permutation_in 1) in H; [cbn in H; intuition discriminate|cbn; auto].
Qed.
(** Two components {0,2,4} (a path 2-0-4) and {1,3}, with diagonals. *)
Definition ex33 : res (smat NumF64) :=
  let* m := s_new 5 5 in
  foreach [(0,0);(1,1);(2,2);(3,3);(4,4);(0,2);(2,0);(0,4);(4,0);(1,3);(3,1)]
    (fun e m => s_set m (fst e) (snd e) (fz 1)) m.
Example C33_example : (let* m := ex33 in cuthill m) = Ok [1; 3; 2; 0; 4] /\ (let* m := ex33 in r_cuthill m) = Ok [4; 0; 2; 3; 1].
Proof. split; vm_compute; reflexivity. Qed.

(** ** C34 *)
Theorem C34_inverse_permutation : forall p n, Permutation p (seq 0 n) ->
  returns (inv_perm p) (fun q => Permutation q (seq 0 n) /\
    forall i, i < n -> nth (nth i p 0) q 0 = i /\ nth (nth i q 0) p 0 = i).
Proof. exact inv_perm_ok. Qed.
Theorem C34_permutation_matrix (N : Num) (HF : FieldLaws N) : forall p n, 0 < n -> Permutation p (seq 0 n) ->
  returns (perm_matrix p) (fun P : SparseI N => holds P n n (fun i j => if j =? nth i p 0 then n1 else n0)).
Proof. exact (perm_matrix_ok HF). Qed.
Theorem C34_permutate (N : Num) (HF : FieldLaws N) : forall (m : SparseI N) p n a, 0 < n -> Permutation p (seq 0 n) ->
  holds m n n a -> returns (permutate m p) (fun r : SparseI N => holds r n n (fun i j => a (nth i p 0) (nth j p 0))).
Proof. exact (permutate_ok HF). Qed.
Theorem C34_round_trip (N : Num) (HF : FieldLaws N) : forall (m : SparseI N) p n a, 0 < n -> Permutation p (seq 0 n) ->
  holds m n n a ->
  returns (let* q := inv_perm p in let* x := permutate m p in permutate x q) (fun r : SparseI N => holds r n n a).
Proof. exact (permutate_round HF). Qed.
Theorem C34_mismatch (N : Num) : forall (m : smat N) p,
  (s_rows m <> s_cols m -> permutate m p = Throw NotSquare) /\
  (s_rows m = s_cols m -> s_rows m <> length p -> permutate m p = Throw MatrixMulMismatch).
Proof. exact permutate_bad. Qed.
Definition ex34 : res (smat NumQc) := s_of_list [[qz 1; qz 2; qz 3]; [qz 4; qz 5; qz 6]; [qz 7; qz 8; qz 9]].
Example C34_example : Permutation [1; 2; 0] (seq 0 3) /\ inv_perm [1; 2; 0] = Ok [2; 0; 1] /\
  (let* m := ex34 in let* r := permutate m [1; 2; 0] in Ok (map Qcanon.this (sv r))) =
  Ok (map Qcanon.this [qz 5; qz 6; qz 4; qz 8; qz 9; qz 7; qz 2; qz 3; qz 1]).
Proof.
  split; [apply (Permutation_app_comm [1; 2] [0])|]. split; vm_compute; reflexivity.
Qed.

(** ** C35.  What the vector version computes: entry i moves to place p[i] ... *)
Theorem C35_permutate_vector (N : Num) : forall (v : list N) p n, Permutation p (seq 0 n) -> length v = n ->
  returns (permutate_v v p) (fun w => length w = n /\ forall i, i < n -> nth (nth i p 0) w n0 = nth i v n0).
Proof. exact (@permutate_v_ok N). Qed.
Theorem C35_mismatch (N : Num) : forall (v : list N) p, length v <> length p -> permutate_v v p = Throw VectorSizeMismatch.
Proof. exact (@permutate_v_bad N). Qed.
(** ... so the reordered system has the permuted solution when the vectors are permuted with the INVERSE p ... *)
Theorem C35_system_partial (N : Num) (HF : FieldLaws N) : forall (A : SparseI N) p n a (x b : list N), 0 < n ->
  Permutation p (seq 0 n) -> holds A n n a -> length x = n -> length b = n -> s_mulv A x = Ok b ->
  exists q A' x' b', inv_perm p = Ok q /\ permutate A p = Ok A' /\ permutate_v x q = Ok x' /\ permutate_v b q = Ok b' /\
    s_mulv A' x' = Ok b'.
Proof. exact (system_ok HF). Qed.
(** ... and with p itself when p is an involution ... *)
Theorem C35_involution_partial (N : Num) (HF : FieldLaws N) : forall (A : SparseI N) p n a (x b : list N), 0 < n ->
  Permutation p (seq 0 n) -> (forall i, i < n -> nth (nth i p 0) p 0 = i) ->
  holds A n n a -> length x = n -> length b = n -> s_mulv A x = Ok b ->
  exists A' x' b', permutate A p = Ok A' /\ permutate_v x p = Ok x' /\ permutate_v b p = Ok b' /\ s_mulv A' x' = Ok b'.
Proof.
  intros A p n a x b Hn Hp Hi HA Hx Hb E.
  destruct (system_ok HF A p n a x b Hn Hp HA Hx Hb E) as (q & A' & x' & b' & Eq & EA & Ex & Eb & EM).
  destruct (inv_perm_ok p n Hp) as (q' & Eq' & Hq & Hpq). rewrite Eq in Eq'. injection Eq' as <-.
  assert (q = p).
  { apply (list_eq_nth _ _ 0); [now rewrite (perm_length p n Hp), (perm_length q n Hq)|].
    rewrite (perm_length q n Hq). intros i Hlt. rewrite <- (Hi i Hlt) at 1. apply Hpq. now apply perm_lt. }
  subst q. exists A', x', b'. auto.
Qed.
(** ... [BUG] but not in general: for the 3-cycle p = (1,2,0) the vector permutation is not P*v and the
    permuted vectors do not solve the permuted system. *)
Definition ex35 : res (smat NumQc) := s_of_list [[qz 1; qz 0; qz 0]; [qz 0; qz 2; qz 0]; [qz 0; qz 0; qz 3]].
Definition qnums (v : list NumQc) : list QArith_base.Q := map Qcanon.this v.
Theorem C35_vector_refuted :
  (let* P := perm_matrix (N := NumQc) [1; 2; 0] in let* w := s_mulv P [qz 1; qz 2; qz 3] in Ok (qnums w))
     = Ok (qnums [qz 2; qz 3; qz 1]) /\
  (let* w := permutate_v (N := NumQc) [qz 1; qz 2; qz 3] [1; 2; 0] in Ok (qnums w)) = Ok (qnums [qz 3; qz 1; qz 2]) /\
  (let* A := ex35 in let* b := s_mulv A [qz 1; qz 1; qz 1] in Ok (qnums b)) = Ok (qnums [qz 1; qz 2; qz 3]) /\
  (let* A := ex35 in let* A' := permutate A [1; 2; 0] in let* x' := permutate_v [qz 1; qz 1; qz 1] [1; 2; 0] in
   let* b' := s_mulv A' x' in Ok (qnums b')) = Ok (qnums [qz 2; qz 3; qz 1]) /\
  qnums [qz 2; qz 3; qz 1] <> qnums [qz 3; qz 1; qz 2].
Proof. repeat split; try (vm_compute; reflexivity). vm_compute. discriminate. Qed.
Example C35_example :
  (let* A := ex35 in let* A' := permutate A [1; 0; 2] in let* x' := permutate_v [qz 1; qz 1; qz 1] [1; 0; 2] in
   let* b' := s_mulv A' x' in Ok (qnums b')) = Ok (qnums [qz 2; qz 1; qz 3]) /\
  (let* b' := permutate_v [qz 1; qz 2; qz 3] [1; 0; 2] in Ok (qnums b')) = Ok (qnums [qz 2; qz 1; qz 3]).
Proof. split; vm_compute; reflexivity. Qed.

(** ** C86.  The numbering is the one of Cuthill and McKee (OrderSpec.numbering): breadth first from a row of least degree, the
    neighbours of each row by increasing degree ... *)
Theorem C86_numbering (N : Num) (HZ : ZeroLaws N) : forall (m : smat N) n a, built m -> reads m n n a ->
  returns (cuthill m) (fun R => exists l, R = l ++ repeat 0 (n - length l) /\ numbering n a l).
Proof. intros m n a. exact (cuthill_numbering HZ n m a). Qed.
(** ... and there is only one such numbering, so the pattern determines the answer. *)
Theorem C86_unique (N : Num) : forall n (a : nat -> nat -> N) l l', numbering n a l -> numbering n a l' -> l = l'.
Proof. exact (@numbering_unique N). Qed.
(** The rows and columns of a tridiagonal matrix without zeros on the three diagonals that have been renumbered by p are put back in order,
    forwards or backwards, by both variants: the reordered matrix is tridiagonal again. *)
Theorem C86_tridiagonal (N : Num) (HF : FieldLaws N) : forall (m : smat N) n a p, 0 < n -> built m -> reads m n n a ->
  Permutation p (seq 0 n) ->
  (forall i j, i < n -> j < n -> is0 (a (nth i p 0) (nth j p 0)) = negb ((i <=? S j) && (j <=? S i))) ->
  exists R, cuthill m = Ok R /\ (R = p \/ R = rev p) /\
  (forall S, S = R \/ r_cuthill m = Ok S ->
     returns (permutate m S) (fun r => exists b, built r /\ reads r n n b /\
       forall i j, i < n -> j < n -> is0 (b i j) = negb ((i <=? Nat.succ j) && (j <=? Nat.succ i)))).
Proof.
  intros m n a p Hn Hb Hr Hp Hpat. pose proof (field_zero_laws N HF) as HZ.
  destruct (C86_numbering N HZ m n a Hb Hr) as (R & E & l & HR & HN).
  assert (Hl : l = p \/ l = rev p) by exact (path_found n a p l Hn Hp Hpat HN).
  pose proof (numbering_all n a p Hp Hpat l HN) as HP. rewrite (perm_length _ _ HP), Nat.sub_diag in HR. cbn [repeat] in HR.
  rewrite app_nil_r in HR. subst l. exists R. split; auto. split; auto.
  assert (G : forall S, S = p \/ S = rev p ->
     returns (permutate m S) (fun r => exists b, built r /\ reads r n n b /\
       forall i j, i < n -> j < n -> is0 (b i j) = negb ((i <=? Nat.succ j) && (j <=? Nat.succ i)))).
  { intros S HS. assert (HPS : Permutation S (seq 0 n)) by (destruct HS as [->| ->]; auto; now rewrite <- (Permutation_rev p)).
    destruct (C34_permutate N HF m S n a Hn HPS) as (r & Er & Hh); [apply (s_holds N); auto|].
    exists r. split; auto. apply (s_holds N) in Hh as [H1 H2]. eexists. split; [exact H1|]. split; [exact H2|].
    intros i j Hi Hj. cbn beta. destruct HS as [->| ->]; [now apply Hpat|now apply (path_rev n a p Hp Hpat)]. }
  intros S [->|ES]; [apply G; auto|]. rewrite C33_reverse, E in ES. cbn [bind] in ES. injection ES as <-. apply G.
  destruct Hl as [->| ->]; auto. rewrite rev_involutive. auto.
Qed.
(** The numbering of the two-component pattern above; a renumbered path 2-0-3-1. *)
Definition ex86 : list (list NumQc) := [[qz 4; qz 0; qz 1; qz 1]; [qz 0; qz 4; qz 0; qz 1]; [qz 1; qz 0; qz 4; qz 0]; [qz 1; qz 1; qz 0; qz 4]].
Example C86_example : (let* m := s_of_list ex86 in cuthill m) = Ok [1; 3; 0; 2] /\
  (let* m := s_of_list ex86 in let* R := cuthill m in let* r := permutate m R in
   Ok (map Qcanon.this (sv r), sc r)) =
   Ok (map Qcanon.this [qz 4; qz 1; qz 1; qz 4; qz 1; qz 1; qz 4; qz 1; qz 1; qz 4], [0; 1; 0; 1; 2; 1; 2; 3; 2; 3]).
Proof. split; vm_compute; reflexivity. Qed.
Example C86_example_hypotheses : Permutation [2; 0; 3; 1] (seq 0 4) /\
  exists m a, s_of_list ex86 = Ok m /\ built m /\ reads m 4 4 a /\
  forall i j, i < 4 -> j < 4 -> is0 (a (nth i [2; 0; 3; 1] 0) (nth j [2; 0; 3; 1] 0)) = negb ((i <=? S j) && (j <=? S i)).
Proof.
  split.
  { apply NoDup_Permutation; [repeat constructor; cbn; intuition lia|apply seq_NoDup|]. intros x. rewrite in_seq. cbn. lia. }
  exists (get (mkS [] [] [] 0 n0 : smat NumQc) (s_of_list ex86)), (fun i j => nth j (nth i ex86 []) n0).
  assert (E : s_of_list ex86 = Ok (get (mkS [] [] [] 0 n0 : smat NumQc) (s_of_list ex86))) by (apply ok_get; vm_compute; reflexivity).
  split; [exact E|]. split; [apply b_list with (l := ex86); exact E|]. split.
  - split; [vm_compute; reflexivity|]. split; [vm_compute; reflexivity|].
    intros i j Hi Hj. destruct i as [|[|[|[|]]]]; try lia; destruct j as [|[|[|[|]]]]; try lia; vm_compute; reflexivity.
  - intros i j Hi Hj. destruct i as [|[|[|[|]]]]; try lia; destruct j as [|[|[|[|]]]]; try lia; vm_compute; reflexivity.
Qed.
