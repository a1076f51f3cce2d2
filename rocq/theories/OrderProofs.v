(** Proofs for MatrixOrder.inl. *)
From Coq Require Import List Arith Bool Lia Permutation Ring Field Field_theory.
From Verif Require Import Base BaseProofs Num Spec SpecProofs VectorModel VectorProofs SparseModel SparseSpec SparseProofs
  SparseEntries SparseOps SparseOps3 SparseFacts SparseFacts2 SparsePropProofs MatI MatIProofs MatOps MatOpsProofs OrderModel.
Import ListNotations.
Local Open Scope nat_scope.
Open Scope res_scope.

Lemma while_returns {S} (P : S -> Prop) (mu : S -> nat) (c : S -> bool) (f : S -> res S) :
  (forall s, P s -> c s = true -> returns (f s) (fun s' => P s' /\ mu s' < mu s)) ->
  forall fuel s, P s -> mu s < fuel -> returns (while_ fuel (fun s => Ok (c s)) f s) (fun s' => P s' /\ c s' = false).
Proof.
  intros Hf. induction fuel as [|fuel IH]; intros s Hs Hmu; [lia|]. cbn [while_ bind].
  destruct (c s) eqn:E; [|exists s; auto].
  destruct (Hf s Hs E) as (s1 & -> & H1 & H2). cbn [bind]. apply IH; auto; lia.
Qed.

Lemma i_set_ok v i x : i < length v -> i_set v i x = Ok (upd v i x).
Proof. intros H. unfold i_set. bdec. cbn [assert_ bind]. now rewrite vset_ok. Qed.
Lemma i_at_ok v i : i < length v -> i_at v i = Ok (nth i v 0).
Proof. intros H. unfold i_at. bdec. cbn [assert_ bind]. now apply vget_ok. Qed.
Lemma i_at_out v i : length v <= i -> i_at v i = Abort.
Proof. intros H. unfold i_at. bdec. reflexivity. Qed.

Lemma mm_insert_perm k v l : Permutation (mm_insert k v l) ((k, v) :: l).
Proof.
  induction l as [|(k', v') l IH]; cbn [mm_insert]; auto.
  destruct (k <? k'); auto. rewrite IH. apply perm_swap.
Qed.
Lemma mm_remove_some k v l l' : mm_remove k v l = Some l' -> Permutation l ((k, v) :: l').
Proof.
  revert l'; induction l as [|(k', v') l IH]; intros l' H; cbn [mm_remove] in H; [discriminate|].
  destruct (Nat.eqb_spec k' k), (Nat.eqb_spec v' v); cbn [andb] in H; subst.
  - injection H as <-. reflexivity.
  - destruct (mm_remove k v l) as [t|]; [|discriminate]. injection H as <-. rewrite (IH t eq_refl). apply perm_swap.
  - destruct (mm_remove k v l) as [t|]; [|discriminate]. injection H as <-. rewrite (IH t eq_refl). apply perm_swap.
  - destruct (mm_remove k v l) as [t|]; [|discriminate]. injection H as <-. rewrite (IH t eq_refl). apply perm_swap.
Qed.
Lemma mm_remove_none k v l : mm_remove k v l = None -> ~ In (k, v) l.
Proof.
  induction l as [|(k', v') l IH]; intros H; cbn [mm_remove] in H; [intros []|].
  destruct (Nat.eqb_spec k' k), (Nat.eqb_spec v' v); cbn [andb] in H; subst; try discriminate;
    (destruct (mm_remove k v l); [discriminate|]); intros [E|E]; try congruence; now apply IH.
Qed.

Section Cuthill.
Context {N : Num} (HZ : ZeroLaws N).
Variables (n : nat) (m : smat N) (a : nat -> nat -> N).
Hypothesis Hb : built m.
Hypothesis Hr : reads m n n a.

Definition deg (i : nat) : nat := length (filter (fun j => negb (is0 (a i j))) (seq 0 n)).
Definition used : list nat := filter (fun i => 0 <? deg i) (seq 0 n).

Lemma deg_ok i : i < n -> s_row_filled m i = Ok (deg i).
Proof. intros H. destruct (counts N HZ n n a m Hb Hr) as (_ & _ & _ & H1 & _). now apply H1. Qed.
Lemma filter_le {A} (f : A -> bool) l : length (filter f l) <= length l.
Proof. induction l as [|x l IH]; cbn; [lia|]. destruct (f x); cbn; lia. Qed.
Lemma used_le : length used <= n.
Proof. unfold used. rewrite <- (seq_length n 0) at 2. apply filter_le. Qed.

Lemma adj_ok p : p < n -> returns (o_adj m p) (fun adj => length adj <= n /\ Forall (fun e => snd e < n) adj).
Proof.
  intros Hp. pose proof (built_inv HZ m Hb) as Hi. destruct (inv_reads HZ m n n a Hi Hr) as (Hs & _).
  destruct (for_rlist m n n _ p Hs Hp) as (El & E).
  unfold o_adj. rewrite (E mmap (fun i j _ adj => if negb (j =? i) then
      let* mc := s_row_filled m j in Ok (if 0 <? mc then mm_insert mc j adj else adj) else Ok adj)).
  set (rl := rlist n (fun j => nz (a p j))).
  assert (Hlen : length rl <= n).
  { rewrite deg_ok in El by auto. injection El as El. unfold rl. rewrite <- El. unfold deg. rewrite <- (seq_length n 0) at 2. apply filter_le. }
  assert (HP : post (foreach rl (fun e s => if negb (fst e =? p) then
      let* mc := s_row_filled m (fst e) in Ok (if 0 <? mc then mm_insert mc (fst e) s else s) else Ok s) [])
     (fun adj => length adj <= length ([] ++ rl) /\ Forall (fun e => snd e < n) adj) (fun _ => False)).
  { apply (foreach_post (fun done (adj : mmap) => length adj <= length done /\ Forall (fun e => snd e < n) adj)).
    - split; [reflexivity|constructor].
    - intros (j, x) d adj Hin (H1 & H2). cbn [fst]. rewrite app_length. cbn [length].
      assert (Hj : j < n) by (apply rlist_row in Hin; tauto).
      destruct (Nat.eqb_spec j p); cbn [negb post].
      { split; [lia|auto]. }
      rewrite deg_ok by auto. cbn [bind post]. destruct (0 <? deg j).
      + pose proof (mm_insert_perm (deg j) j adj) as Hp'. split.
        * rewrite (Permutation_length Hp'). cbn [length]. lia.
        * rewrite Hp'. constructor; auto.
      + split; [lia|auto]. }
  destruct (foreach _ _ _) as [adj| | | | |]; cbn in HP; try tauto. exists adj. split; auto. destruct HP. split; auto. lia.
Qed.

Definition oinv (s : ost) : Prop :=
  let '(R, cur, Q, Rows) := s in
  exists done, length done = cur /\ R = done ++ repeat 0 (n - cur) /\
    Permutation (done ++ map snd Rows) used /\ Forall (fun c => c < n) Q /\
    Forall (fun e => snd e < n /\ fst e = deg (snd e)) Rows.
Definition omu (s : ost) : nat := let '(_, _, Q, Rows) := s in length Q + length Rows * n.

Lemma oinv_len R cur Q Rows : oinv (R, cur, Q, Rows) -> cur + length Rows <= n /\ (Rows <> [] -> cur < length R).
Proof.
  intros (done & H1 & H2 & H3 & _). apply Permutation_length in H3. rewrite app_length, map_length in H3.
  pose proof used_le. split; [lia|]. intros Hne. subst. rewrite app_length, repeat_length. destruct Rows; [congruence|]. cbn in *. lia.
Qed.
Lemma upd_app {A} (l : list A) x t y : upd (l ++ x :: t) (length l) y = l ++ y :: t.
Proof. induction l; cbn; auto. now f_equal. Qed.
Lemma write_done done cur c : length done = cur -> cur < n ->
  upd (done ++ repeat 0 (n - cur)) cur c = (done ++ [c]) ++ repeat 0 (n - (cur + 1)).
Proof.
  intros <- H. rewrite <- app_assoc. replace (n - length done) with (S (n - (length done + 1))) by lia. cbn [repeat app].
  apply upd_app.
Qed.

Lemma oinv_take R cur Q Rows k c Rows' Q' (adj : mmap) : oinv (R, cur, Q, Rows) -> Permutation Rows ((k, c) :: Rows') ->
  Forall (fun x => x < n) Q' -> Forall (fun e => snd e < n) adj ->
  oinv (upd R cur c, cur + 1, Q' ++ map snd adj, Rows') /\ c < n /\ cur < length R.
Proof.
  intros HI HP HQ HA. pose proof (oinv_len _ _ _ _ HI) as (HL1 & HL2). destruct HI as (done & H1 & H2 & H3 & H4 & H5).
  assert (Hlr : length Rows = S (length Rows')) by (apply Permutation_length in HP; exact HP).
  rewrite HP in H5. inversion H5 as [|x l (Hx1 & Hx2) Hl E]; subst x l. cbn [fst snd] in *.
  split; [|split; [auto|apply HL2; intros ->; discriminate]].
  exists (done ++ [c]). split; [rewrite app_length; cbn; lia|]. split; [subst R; apply write_done; auto; lia|].
  split.
  - rewrite <- app_assoc. cbn [app]. rewrite <- H3. apply Permutation_app_head. symmetry. now apply (Permutation_map snd) in HP.
  - split; auto. apply Forall_app. split; auto. apply Forall_map. exact HA.
Qed.

Lemma o_step_ok s : oinv s -> q_nonempty s = true -> returns (o_step m s) (fun s' => oinv s' /\ omu s' < omu s).
Proof.
  destruct s as (((R, cur), Q), Rows). intros HI HQ. destruct Q as [|c Q']; [discriminate|]. cbn [o_step].
  assert (HQn : Forall (fun x => x < n) (c :: Q')) by (destruct HI as (done & ? & ? & ? & H4 & ?); auto).
  inversion HQn as [|x l Hc HQ' E]; subst x l. rewrite deg_ok by auto. cbn [bind].
  destruct (mm_remove (deg c) c Rows) as [Rows'|] eqn:ER.
  - apply mm_remove_some in ER. destruct (adj_ok c Hc) as (adj & EA & HA1 & HA2).
    destruct (oinv_take R cur (c :: Q') Rows _ c Rows' Q' adj HI ER HQ' HA2) as (HI' & _ & Hlen).
    rewrite i_set_ok by auto. cbn [bind]. rewrite EA. cbn [bind]. eexists. split; [reflexivity|]. split; auto.
    cbn [omu]. rewrite app_length, map_length. apply Permutation_length in ER. cbn [length] in ER |- *. rewrite ER. lia.
  - eexists. split; [reflexivity|]. split; [|cbn [omu length]; lia].
    destruct HI as (done & H1 & H2 & H3 & H4 & H5). exists done. auto.
Qed.

Lemma o_outer_ok s : oinv s /\ q_nonempty s = false -> rows_nonempty s = true ->
  returns (o_outer m s) (fun s' => (oinv s' /\ q_nonempty s' = false) /\ length (snd s') < length (snd s)).
Proof.
  destruct s as (((R, cur), Q), Rows). intros (HI & HQ) HR. destruct Rows as [|(k, p) Rows']; [discriminate|].
  destruct Q as [|? ?]; [|discriminate]. cbn [o_outer].
  assert (Hp : p < n). { destruct HI as (done & ? & ? & ? & ? & H5). inversion H5; subst. cbn in *. tauto. }
  destruct (adj_ok p Hp) as (adj & EA & HA1 & HA2).
  destruct (oinv_take R cur [] ((k, p) :: Rows') k p Rows' [] adj HI (Permutation_refl _) (Forall_nil _) HA2) as (HI' & _ & Hlen).
  rewrite i_set_ok by auto. cbn [bind]. rewrite EA. cbn [bind]. cbn [app] in HI' |- *.
  pose proof (oinv_len _ _ _ _ HI) as (HL & _). cbn [length] in HL.
  pose proof (while_returns (fun s => oinv s /\ length (snd s) <= length Rows') omu q_nonempty (o_step m)) as HW.
  destruct Hr as (Hrows & _). rewrite Hrows.
  eapply returns_mono; [apply HW|].
  - intros s (Hs & Hl) Hc. destruct (o_step_ok s Hs Hc) as (s' & E & Hs' & Hmu). exists s'. split; auto. split; auto. split; auto.
    destruct s as (((R1, c1), Q1), Rows1). destruct Q1 as [|c Q1]; [discriminate|]. cbn [o_step] in E. cbn [snd] in Hl.
    destruct (s_row_filled m c) as [mc| | | | |]; try discriminate. cbn [bind] in E.
    destruct (mm_remove mc c Rows1) as [Rows2|] eqn:ER.
    + destruct (i_set R1 c1 c) as [R2| | | | |]; try discriminate. cbn [bind] in E.
      destruct (o_adj m c) as [adj2| | | | |]; try discriminate. cbn [bind] in E. injection E as <-. cbn [snd].
      apply mm_remove_some, Permutation_length in ER. cbn [length] in ER. lia.
    + injection E as <-. cbn [snd]. auto.
  - split; auto.
  - cbn [omu]. rewrite map_length. assert (length Rows' * n <= (n - 1) * n) by (apply Nat.mul_le_mono_r; lia). nia.
  - intros s ((H1 & H2) & H3). split; auto. cbn [snd length]. lia.
Qed.

Lemma rows_init : returns (for_ 0 n (fun i Rows => let* mc := s_row_filled m i in
      Ok (if 0 <? mc then mm_insert mc i Rows else Rows)) [])
  (fun Rows => Permutation (map snd Rows) used /\ Forall (fun e => snd e < n /\ fst e = deg (snd e)) Rows).
Proof.
  apply (for_returns (fun k Rows => Permutation (map snd Rows) (filter (fun i => 0 <? deg i) (seq 0 k)) /\
    Forall (fun e => snd e < n /\ fst e = deg (snd e)) Rows)); auto; try lia.
  intros k Rows Hk (H1 & H2). rewrite deg_ok by lia. cbn [bind]. eexists. split; [reflexivity|].
  rewrite seq_S, filter_app. cbn [plus filter]. destruct (0 <? deg k).
  - split.
    + pose proof (mm_insert_perm (deg k) k Rows) as HP. apply (Permutation_map snd) in HP. rewrite HP. cbn [map snd].
      rewrite H1. apply Permutation_cons_append.
    + rewrite mm_insert_perm. constructor; auto. cbn. split; auto. lia.
  - rewrite app_nil_r. auto.
Qed.

(** The result: the rows that hold an entry, each exactly once, then zeros. *)
Lemma cuthill_ok : returns (cuthill m) (fun R => exists done, Permutation done used /\ R = done ++ repeat 0 (n - length done) /\ length R = n).
Proof.
  unfold cuthill. pose proof Hr as (E1 & E2 & _). rewrite E1, E2, Nat.eqb_refl. cbn [negb].
  destruct rows_init as (Rows & -> & HP & HF). cbn [bind].
  assert (HI : oinv (i_new n, 0, [], Rows) /\ q_nonempty (i_new n, 0, [], Rows) = false).
  { split; auto. exists []. cbn [app length]. rewrite Nat.sub_0_r. split; auto. }
  pose proof (oinv_len _ _ _ _ (proj1 HI)) as (HL & _).
  destruct (while_returns (fun s => oinv s /\ q_nonempty s = false) (fun s => length (snd s)) rows_nonempty (o_outer m) o_outer_ok
              (S n) _ HI) as (s & -> & (Hs & _) & Hc); [cbn [snd]; lia|].
  destruct s as (((R, cur), Q), Rws). cbn [bind]. destruct Rws; [|discriminate].
  destruct Hs as (done & H1 & H2 & H3 & _). exists R. split; auto. exists done. cbn [map] in H3. rewrite app_nil_r in H3.
  split; auto. split; [congruence|]. subst R. rewrite app_length, repeat_length. apply Permutation_length in H3. pose proof used_le. lia.
Qed.
End Cuthill.

(** *** reversal *)
Lemma i_reverse_ok v : i_reverse v = Ok (rev v).
Proof.
  unfold i_reverse. set (n := length v).
  assert (H : returns (for_ 0 (Nat.div n 2) (fun i v0 => let* tmp := i_at v0 i in let* x := i_at v0 (length v0 - i - 1) in
      let* v1 := i_set v0 i x in i_set v1 (length v1 - i - 1) tmp) v)
    (fun w => length w = n /\ forall j, j < n -> nth j w 0 = if (j <? Nat.div n 2) || (n - Nat.div n 2 <=? j) then nth (n - 1 - j) v 0 else nth j v 0)).
  { pose proof (Nat.div_mod_eq n 2) as Hd. pose proof (Nat.mod_upper_bound n 2 ltac:(lia)).
    apply (for_returns (fun k w => length w = n /\ forall j, j < n -> nth j w 0 = if (j <? k) || (n - k <=? j) then nth (n - 1 - j) v 0 else nth j v 0)); try lia.
    - split; auto. intros j Hj. bdec. reflexivity.
    - intros k w Hk (Hl & Hw). rewrite i_at_ok by lia. cbn [bind]. rewrite i_at_ok by lia. cbn [bind].
      rewrite i_set_ok by lia. cbn [bind]. rewrite i_set_ok by (rewrite !upd_length; lia).
      eexists. split; [reflexivity|]. split; [now rewrite !upd_length|]. intros j Hj. rewrite upd_length, Hl.
      destruct (Nat.eq_dec j (n - k - 1)) as [->|E1].
      + rewrite nth_upd_eq by (rewrite upd_length; lia). rewrite Hw by lia.
        destruct (Nat.ltb_spec k k); [lia|]. destruct (Nat.leb_spec (n - k) k); [lia|]. cbn [orb].
        destruct (Nat.leb_spec (n - S k) (n - k - 1)); [|lia]. rewrite orb_true_r. f_equal. lia.
      + rewrite nth_upd_ne by lia. destruct (Nat.eq_dec j k) as [->|E2].
        * rewrite nth_upd_eq by lia. rewrite Hw by lia. replace (length w - k - 1) with (n - k - 1) by lia.
          destruct (Nat.ltb_spec (n - k - 1) k); [lia|]. destruct (Nat.leb_spec (n - k) (n - k - 1)); [lia|]. cbn [orb].
          bdec. cbn [orb]. f_equal. lia.
        * rewrite nth_upd_ne by lia. rewrite Hw by lia.
          destruct (Nat.ltb_spec j k), (Nat.ltb_spec j (S k)), (Nat.leb_spec (n - k) j), (Nat.leb_spec (n - S k) j); cbn [orb]; auto; lia. }
  destruct H as (w & E & Hl & Hw).
  assert (Hw' : w = rev v).
  { apply (list_eq_nth _ _ 0); [now rewrite rev_length|]. intros j Hj. rewrite Hw by lia. rewrite rev_nth by (unfold n in *; lia).
    pose proof (Nat.div_mod_eq n 2) as Hd. pose proof (Nat.mod_upper_bound n 2 ltac:(lia)).
    fold n. replace (n - S j) with (n - 1 - j) by lia.
    destruct (Nat.ltb_spec j (Nat.div n 2)), (Nat.leb_spec (n - Nat.div n 2) j); cbn [orb]; auto. f_equal. lia. }
  rewrite <- Hw'. exact E.
Qed.

(** *** permutations *)
Lemma perm_length p n : Permutation p (seq 0 n) -> length p = n.
Proof. intros H. apply Permutation_length in H. now rewrite seq_length in H. Qed.
Lemma perm_lt p n i : Permutation p (seq 0 n) -> i < n -> nth i p 0 < n.
Proof.
  intros H Hi. pose proof (perm_length p n H). assert (Hin : In (nth i p 0) (seq 0 n)).
  { apply (Permutation_in _ H). apply nth_In. lia. }
  apply in_seq in Hin. lia.
Qed.
Lemma perm_inj p n i j : Permutation p (seq 0 n) -> i < n -> j < n -> nth i p 0 = nth j p 0 -> i = j.
Proof.
  intros H Hi Hj E. pose proof (perm_length p n H).
  assert (HN : NoDup p) by (apply (Permutation_NoDup (Permutation_sym H)); apply seq_NoDup).
  rewrite NoDup_nth in HN. apply HN; try lia. exact E.
Qed.
Lemma perm_surj p n j : Permutation p (seq 0 n) -> j < n -> exists i, i < n /\ nth i p 0 = j.
Proof.
  intros H Hj. assert (Hin : In j p) by (apply (Permutation_in _ (Permutation_sym H)); apply in_seq; lia).
  apply (In_nth _ _ 0) in Hin. destruct Hin as (i & Hi & E). exists i. rewrite (perm_length p n H) in Hi. auto.
Qed.
Lemma perm_intro p n : length p = n -> (forall i, i < n -> nth i p 0 < n) ->
  (forall i j, i < n -> j < n -> nth i p 0 = nth j p 0 -> i = j) -> Permutation p (seq 0 n).
Proof.
  intros Hl H1 H2. apply NoDup_Permutation_bis.
  - apply (NoDup_nth p 0). intros i j Hi Hj. apply H2; lia.
  - rewrite seq_length. lia.
  - intros x Hx. apply (In_nth _ _ 0) in Hx. destruct Hx as (i & Hi & <-). apply in_seq. specialize (H1 i). lia.
Qed.

(** scatter loop: r[p(i)] := x(i) *)
Lemma scatter {A} (d : A) (p : ivec) n (x : nat -> A) (setx : list A -> nat -> A -> res (list A)) (e : nat -> res A) (r0 : list A) :
  Permutation p (seq 0 n) -> length r0 = n ->
  (forall r k v, k < length r -> setx r k v = Ok (upd r k v)) ->
  (forall i, i < n -> e i = Ok (x i)) ->
  returns (for_ 0 n (fun i r => let* k := i_at p i in let* v := e i in setx r k v) r0)
    (fun r => length r = n /\ forall i, i < n -> nth (nth i p 0) r d = x i).
Proof.
  intros Hp Hl Hset He. pose proof (perm_length p n Hp) as Hpl.
  apply (for_returns (fun k r => length r = n /\ forall i, i < k -> nth (nth i p 0) r d = x i)); try lia.
  - split; auto. intros; lia.
  - intros k r Hk (H1 & H2). rewrite i_at_ok by lia. cbn [bind]. rewrite He by lia. cbn [bind].
    pose proof (perm_lt p n k Hp ltac:(lia)) as Hpk.
    rewrite Hset by lia. eexists. split; [reflexivity|]. split; [now rewrite upd_length|]. intros i Hi.
    destruct (Nat.eq_dec i k) as [->|Hne]; [apply nth_upd_eq; lia|].
    rewrite nth_upd_ne; [apply H2; lia|]. intros E. apply Hne. apply (perm_inj p n i k Hp); auto; lia.
Qed.

Lemma inv_perm_ok p n : Permutation p (seq 0 n) -> returns (inv_perm p) (fun q => Permutation q (seq 0 n) /\
  forall i, i < n -> nth (nth i p 0) q 0 = i /\ nth (nth i q 0) p 0 = i).
Proof.
  intros Hp. unfold inv_perm. rewrite (perm_length p n Hp).
  destruct (scatter 0 p n (fun i => i) i_set (fun i => Ok i) (i_new n) Hp) as (q & E & Hl & Hq).
  - unfold i_new. apply repeat_length.
  - intros. now apply i_set_ok.
  - auto.
  - exists q. split; [exact E|].
    assert (Hq2 : forall i, i < n -> nth i q 0 < n /\ nth (nth i q 0) p 0 = i).
    { intros i Hi. destruct (perm_surj p n i Hp Hi) as (j & Hj & <-). rewrite Hq by auto. auto. }
    split.
    + apply perm_intro; auto. intros i Hi; now apply Hq2. intros i j Hi Hj Eq.
      destruct (Hq2 i Hi) as (_ & <-), (Hq2 j Hj) as (_ & <-). now rewrite Eq.
    + intros i Hi. split; auto. now apply Hq2.
Qed.

Lemma permutate_v_ok {N : Num} (v : list N) p n : Permutation p (seq 0 n) -> length v = n ->
  returns (permutate_v v p) (fun w => length w = n /\ forall i, i < n -> nth (nth i p 0) w n0 = nth i v n0).
Proof.
  intros Hp Hl. unfold permutate_v, v_size. rewrite (perm_length p n Hp), Hl, Nat.eqb_refl. cbn [negb].
  apply (scatter n0 p n (fun i => nth i v n0) v_set (v_at v) (v_new n) Hp).
  - apply repeat_length.
  - intros; now apply v_set_ok.
  - intros; apply v_at_ok; lia.
Qed.
Lemma permutate_v_bad {N : Num} (v : list N) p : length v <> length p -> permutate_v v p = Throw VectorSizeMismatch.
Proof. intros H. unfold permutate_v, v_size. bdec. reflexivity. Qed.

Section PermMat.
Context {N : Num} (HF : FieldLaws N).
Add Field pmfld : (fl_field N HF).
Notation SI := (SparseI N).
Let HL : MatLaws SI := sparse_laws N HF.
Let HO : OpLaws (SparseOps N) := sparse_ops_laws N HF.

Lemma perm_matrix_ok p n : 0 < n -> Permutation p (seq 0 n) ->
  returns (perm_matrix p) (fun P : SI => holds P n n (fun i j => if j =? nth i p 0 then n1 else n0)).
Proof.
  intros Hn Hp. pose proof (perm_length p n Hp) as Hl. unfold perm_matrix. rewrite Hl.
  destruct (holds_new HL n n Hn Hn) as (m0 & E0 & Hm0). change (mi_new n n) with (@s_new N n n) in E0. rewrite E0. cbn [bind].
  apply returns_mono with (fun P : SI => holds P n n (fun i j => if (i <? n) && (j =? nth i p 0) then n1 else n0)).
  - apply (for_returns (fun k (P : SI) => holds P n n (fun i j => if (i <? k) && (j =? nth i p 0) then n1 else n0))); try lia.
    + exact Hm0.
    + intros k s Hk Hs. rewrite i_at_ok by lia. cbn [bind].
      destruct (holds_set HL s n n _ k (nth k p 0) n1 Hs) as (s' & E & Hs'); try lia; [apply perm_lt; auto; lia|].
      exists s'. split; auto. eapply holds_ext; [exact Hs'|]. intros i j Hi Hj. unfold put2. cbn beta.
      destruct (Nat.eqb_spec i k).
      * subst. destruct (Nat.eqb_spec j (nth k p 0)); cbn [andb]; bdec; cbn [andb]; auto.
      * cbn [andb]. destruct (Nat.ltb_spec i k), (Nat.ltb_spec i (S k)); auto; lia.
  - intros P HP. eapply holds_ext; [exact HP|]. intros i j Hi Hj. cbn beta. bdec. reflexivity.
Qed.

Lemma permutate_ok (m : SI) p n a : 0 < n -> Permutation p (seq 0 n) -> holds m n n a ->
  returns (permutate m p) (fun r : SI => holds r n n (fun i j => a (nth i p 0) (nth j p 0))).
Proof.
  intros Hn Hp Hm. unfold permutate.
  change (s_rows m) with (mi_rows m). change (s_cols m) with (mi_cols m).
  rewrite (holds_rows _ _ _ _ Hm), (holds_cols _ _ _ _ Hm), (perm_length p n Hp), Nat.eqb_refl. cbn [negb].
  destruct (perm_matrix_ok p n Hn Hp) as (P & -> & HP). cbn [bind].
  destruct (ol_transpose _ HO P n n _ Hn Hn HP) as (Pt & EP & HPt). cbn in EP. rewrite EP. cbn [bind].
  destruct (ol_mul _ HO m Pt n n n _ _ Hn Hn Hn Hm HPt) as (X & EX & HX). cbn in EX. rewrite EX. cbn [bind].
  destruct (ol_mul _ HO P X n n n _ _ Hn Hn Hn HP HX) as (Y & EY & HY). cbn in EY.
  exists Y. split; [exact EY|]. eapply holds_ext; [exact HY|]. intros i j Hi Hj. unfold DenseSpec.prod2.
  rewrite (bigsum_single HF n (nth i p 0)).
  - rewrite Nat.eqb_refl. rewrite (bigsum_single HF n (nth j p 0)).
    + rewrite Nat.eqb_refl. ring.
    + now apply perm_lt.
    + intros k Hk Hne. bdec. ring.
  - now apply perm_lt.
  - intros k Hk Hne. bdec. ring.
Qed.
Lemma permutate_bad (m : smat N) p :
  (s_rows m <> s_cols m -> permutate m p = Throw NotSquare) /\
  (s_rows m = s_cols m -> s_rows m <> length p -> permutate m p = Throw MatrixMulMismatch).
Proof. unfold permutate. split; intros H; [bdec; reflexivity|]. intros H'. rewrite H, Nat.eqb_refl. cbn [negb]. rewrite <- H. bdec. reflexivity. Qed.

(** permuting and un-permuting *)
Lemma permutate_round (m : SI) p n a : 0 < n -> Permutation p (seq 0 n) -> holds m n n a ->
  returns (let* q := inv_perm p in let* x := permutate m p in permutate x q) (fun r : SI => holds r n n a).
Proof.
  intros Hn Hp Hm. destruct (inv_perm_ok p n Hp) as (q & -> & Hq & Hpq). cbn [bind].
  destruct (permutate_ok m p n a Hn Hp Hm) as (x & -> & Hx). cbn [bind].
  eapply returns_mono; [apply (permutate_ok x q n _ Hn Hq Hx)|]. intros r Hr. eapply holds_ext; [exact Hr|].
  intros i j Hi Hj. cbn beta. now rewrite (proj2 (Hpq i Hi)), (proj2 (Hpq j Hj)).
Qed.

(** a sum over a permutation *)
Lemma bigsum_perm p n (f : nat -> N) : Permutation p (seq 0 n) -> bigsum n (fun i => f (nth i p 0)) = bigsum n f.
Proof.
  intros Hp.
  transitivity (bigsum n (fun i => bigsum n (fun k => if k =? nth i p 0 then f k else n0))).
  - apply bigsum_ext. intros i Hi. rewrite (bigsum_single HF n (nth i p 0)); [now rewrite Nat.eqb_refl|now apply perm_lt|].
    intros k Hk Hne. bdec. reflexivity.
  - rewrite (bigsum_swap HF). apply bigsum_ext. intros k Hk. destruct (perm_surj p n k Hp Hk) as (i & Hi & E).
    rewrite (bigsum_single HF n i); [rewrite E, Nat.eqb_refl; auto|auto|].
    intros j Hj Hne. destruct (Nat.eqb_spec k (nth j p 0)); auto. exfalso. apply Hne. apply (perm_inj p n j i Hp); auto. congruence.
Qed.

(** The linear system after reordering: with the INVERSE permutation for the vectors. *)
Lemma system_ok (A : SI) p n a (x b : list N) : 0 < n -> Permutation p (seq 0 n) -> holds A n n a ->
  length x = n -> length b = n -> s_mulv A x = Ok b ->
  exists q A' x' b', inv_perm p = Ok q /\ permutate A p = Ok A' /\ permutate_v x q = Ok x' /\ permutate_v b q = Ok b' /\
    s_mulv A' x' = Ok b'.
Proof.
  intros Hn Hp HA Hx Hbl E. destruct (inv_perm_ok p n Hp) as (q & Eq & Hq & Hpq).
  destruct (permutate_ok A p n a Hn Hp HA) as (A' & EA & HA').
  destruct (permutate_v_ok x q n Hq Hx) as (x' & Ex & Hxl & Hxn).
  destruct (permutate_v_ok b q n Hq Hbl) as (b' & Eb & Hbl' & Hbn).
  exists q, A', x', b'. repeat split; auto.
  pose proof (ol_mulv _ HO A n n a x HA Hx) as M1. cbn in M1. rewrite E in M1. injection M1 as M1.
  pose proof (ol_mulv _ HO A' n n _ x' HA' Hxl) as M2. cbn in M2. rewrite M2. f_equal.
  assert (X' : forall i, i < n -> nth i x' n0 = nth (nth i p 0) x n0).
  { intros i Hi. pose proof (perm_lt p n i Hp Hi). rewrite <- (Hxn (nth i p 0)) by auto. now rewrite (proj1 (Hpq i Hi)). }
  assert (B' : forall i, i < n -> nth i b' n0 = nth (nth i p 0) b n0).
  { intros i Hi. pose proof (perm_lt p n i Hp Hi). rewrite <- (Hbn (nth i p 0)) by auto. now rewrite (proj1 (Hpq i Hi)). }
  apply (list_eq_nth _ _ n0); [now rewrite map_length, seq_length|]. rewrite map_length, seq_length. intros i Hi.
  rewrite nth_map_seq by auto. rewrite B' by auto. rewrite M1, nth_map_seq by now apply perm_lt.
  rewrite <- (bigsum_perm p n (fun j => a (nth i p 0) j * nth j x n0)%num Hp). apply bigsum_ext. intros j Hj.
  now rewrite X'.
Qed.
End PermMat.
