(** The HyperCube theorems in terms of what the generated mesh holds. *)
From Coq Require Import List Arith Bool Lia Ring Field.
From Verif Require Import Base BaseProofs Num OrdField Spec SimplexSpec UtilsSpec MeshModel MeshSpec MeshPool MeshProofs MeshResult
  HyperSpec HyperProofs HyperGrid HyperGeo.
Import ListNotations.
Local Open Scope nat_scope.
Open Scope res_scope.

Section Res.
Context {N : Num} (HO : OrdFieldLaws N) (HN : NatLaws N).
Let HF : FieldLaws N := of_field N HO.
Add Field hrfld : (fl_field N HF).
Notation le x y := (nleb x y = true).
Notation lt x y := (nltb x y = true).

Theorem hc_counts e0 e1 (s0 s1 ox oy : N) : 1 <= e0 -> 1 <= e1 ->
  returns (hc_generate e0 e1 [s0; s1] [ox; oy]) (fun s => exists V F T, holds V F T s /\ length V = (e0 + 1) * (e1 + 1) /\ length T = 2 * e0 * e1 /\
    forall i j, i <= e0 -> j <= e1 -> nth (i * (e1 + 1) + j) V [] = [ox + s0 / nofnat e0 * nofnat j; oy + s1 / nofnat e1 * nofnat i]%num).
Proof.
  intros H0 H1. destruct (generate_holds HO HN e0 e1 s0 s1 ox oy H0 H1) as (s & E & H). exists s. split; auto.
  exists (hcV e0 e1 s0 s1 ox oy), (rim e0 e1), (hcT e0 e1). split; auto. split; [unfold hcV; now rewrite map_length, seq_length|].
  split; [unfold hcT; rewrite map_length, seq_length; lia|]. intros i j Hi Hj. unfold hcV. rewrite gV_nth by nia. apply (gpos_at e0); lia.
Qed.
Theorem hc_boundary e0 e1 (s0 s1 ox oy : N) s V F T : 1 <= e0 -> 1 <= e1 -> hc_generate e0 e1 [s0; s1] [ox; oy] = Ok s -> holds V F T s ->
  (forall k, k < length V -> (F k <-> exists y, outer_face T k y)) /\
  (forall i j, i <= e0 -> j <= e1 -> (F (i * (e1 + 1) + j) <-> (i = 0 \/ i = e0 \/ j = 0 \/ j = e1))).
Proof.
  intros H0 H1 E H. destruct (generated HO HN e0 e1 s0 s1 ox oy s V F T H0 H1 E H) as (-> & -> & HFr).
  assert (LV : length (hcV e0 e1 s0 s1 ox oy) = (e0 + 1) * (e1 + 1)) by (unfold hcV; now rewrite map_length, seq_length). split.
  - intros k Hk. rewrite HFr by auto. apply rim_iff; auto.
  - intros i j Hi Hj. rewrite HFr by (rewrite LV; nia). rewrite rim_at by auto. tauto.
Qed.
Theorem hc_area e0 e1 (s0 s1 ox oy : N) s V F T : 1 <= e0 -> 1 <= e1 -> hc_generate e0 e1 [s0; s1] [ox; oy] = Ok s -> holds V F T s ->
  forall e, e < length T -> area2 (corner V T e) = (- (s0 * s1 / (nofnat e0 * nofnat e1)))%num.
Proof.
  intros H0 H1 E H e He. destruct (generated HO HN e0 e1 s0 s1 ox oy s V F T H0 H1 E H) as (-> & -> & HFr).
  unfold hcT in *. rewrite map_length, seq_length in He. unfold hcV. rewrite (area_all HO HN e0 e1) by auto. pose proof (nat_nz HO HN e0 H0). pose proof (nat_nz HO HN e1 H1). field. auto.
Qed.
Theorem hc_tiles e0 e1 (s0 s1 ox oy : N) s V F T : 1 <= e0 -> 1 <= e1 -> lt n0 s0 -> lt n0 s1 -> hc_generate e0 e1 [s0; s1] [ox; oy] = Ok s -> holds V F T s ->
  (forall x, in_box ox oy (s0 * nofnat e1 / nofnat e0)%num (s1 * nofnat e0 / nofnat e1)%num x <-> exists e, e < length T /\ in_element V T e x) /\
  (forall e f x, e < length T -> f < length T -> inside_element V T e x -> inside_element V T f x -> e = f).
Proof.
  intros H0 H1 P0 P1 E H. destruct (generated HO HN e0 e1 s0 s1 ox oy s V F T H0 H1 E H) as (-> & -> & HFr).
  pose proof (step_pos HO HN s0 e0 H0 P0) as Q0. pose proof (step_pos HO HN s1 e1 H1 P1) as Q1. pose proof (nat_nz HO HN e0 H0). pose proof (nat_nz HO HN e1 H1).
  replace (s0 * nofnat e1 / nofnat e0)%num with (s0 / nofnat e0 * nofnat e1)%num by (field; auto).
  replace (s1 * nofnat e0 / nofnat e1)%num with (s1 / nofnat e1 * nofnat e0)%num by (field; auto). unfold hcV, hcT. split.
  - intros x. split.
    + intros B. apply (covered HO HN e0 e1 _ _ ox oy H0 H1 Q0 Q1 x B).
    + intros (e & He & I). eapply (stays HO HN e0 e1); eauto.
  - intros e f x. apply (disjoint HO HN e0 e1 _ _ ox oy H0 H1 Q0 Q1).
Qed.
Theorem hc_square n (s0 s1 ox oy : N) s V F T : 1 <= n -> lt n0 s0 -> lt n0 s1 -> hc_generate n n [s0; s1] [ox; oy] = Ok s -> holds V F T s ->
  forall x, in_box ox oy s0 s1 x <-> exists e, e < length T /\ in_element V T e x.
Proof.
  intros Hn P0 P1 E H x. destruct (hc_tiles n n s0 s1 ox oy s V F T Hn Hn P0 P1 E H) as (C & _). specialize (C x). pose proof (nat_nz HO HN n Hn).
  replace (s0 * nofnat n / nofnat n)%num with s0 in C by (field; auto). replace (s1 * nofnat n / nofnat n)%num with s1 in C by (field; auto). exact C.
Qed.
Theorem hc_throws e0 e1 (size offset : list N) : e0 < 1 \/ e1 < 1 -> hc_generate e0 e1 size offset = Throw InvalidElementCount.
Proof. intros H. unfold hc_generate. replace ((e0 <? 1) || (e1 <? 1)) with true; auto. symmetry. apply orb_true_iff. now rewrite !Nat.ltb_lt. Qed.
(** for different counts some point of the requested rectangle is missed *)
Theorem hc_misses e0 e1 (s0 s1 ox oy : N) s V F T : 1 <= e0 -> 1 <= e1 -> e0 <> e1 -> lt n0 s0 -> lt n0 s1 -> hc_generate e0 e1 [s0; s1] [ox; oy] = Ok s -> holds V F T s ->
  (exists x, in_box ox oy s0 s1 x /\ ~ exists e, e < length T /\ in_element V T e x) /\ (exists x e, ~ in_box ox oy s0 s1 x /\ e < length T /\ in_element V T e x).
Proof.
  intros H0 H1 Hne P0 P1 E H. destruct (hc_tiles e0 e1 s0 s1 ox oy s V F T H0 H1 P0 P1 E H) as (C & _).
  pose proof (nat_nz HO HN e0 H0) as Z0. pose proof (nat_nz HO HN e1 H1) as Z1.
  assert (Q : forall a b (s : N), a < b -> lt n0 s -> 1 <= a -> lt (s * nofnat a / nofnat b)%num s).
  { intros a b z Hab Hz Ha. assert (Zb : nofnat b <> n0 :> N) by (apply (nat_nz HO HN); lia). apply (olt_sub HO).
    replace (z - z * nofnat a / nofnat b)%num with (z * ((nofnat b - nofnat a) * (n1 / nofnat b)))%num by (field; auto).
    apply (olt_0_mul HO); auto. apply (olt_0_mul HO); [|apply (olt_0_inv HO), (nat_pos HO HN); lia].
    apply -> (olt_sub HO). apply (ole_lt_trans HO _ (nofnat (b - 1))); [apply (nat_le HO HN); lia|]. replace b with (S (b - 1)) at 2 by lia. rewrite (nl_S N HN).
    apply (olt_sub HO). replace (nofnat (b - 1) + n1 - nofnat (b - 1))%num with (n1 : N) by ring. apply (olt_0_1 HO). }
  assert (R : forall a b (s : N), a < b -> lt n0 s -> 1 <= a -> lt s (s * nofnat b / nofnat a)%num).
  { intros a b z Hab Hz Ha. assert (Za : nofnat a <> n0 :> N) by (apply (nat_nz HO HN); lia). apply (olt_sub HO).
    replace (z * nofnat b / nofnat a - z)%num with (z * ((nofnat b - nofnat a) * (n1 / nofnat a)))%num by (field; auto).
    apply (olt_0_mul HO); auto. apply (olt_0_mul HO); [|apply (olt_0_inv HO), (nat_pos HO HN); lia].
    apply -> (olt_sub HO). apply (ole_lt_trans HO _ (nofnat (b - 1))); [apply (nat_le HO HN); lia|]. replace b with (S (b - 1)) at 2 by lia. rewrite (nl_S N HN).
    apply (olt_sub HO). replace (nofnat (b - 1) + n1 - nofnat (b - 1))%num with (n1 : N) by ring. apply (olt_0_1 HO). }
  assert (A : forall u v : N, le n0 v -> le u (u + v)%num) by (intros u v Hv; apply (ole_sub HO); replace (u + v - u)%num with v by ring; auto).
  assert (B : forall u v v' : N, lt v v' -> ~ le (u + v')%num (u + v)%num).
  { intros u v v' Hl L. apply (ole_sub HO) in L. replace (u + v - (u + v'))%num with (v - v')%num in L by ring. apply (ole_sub HO) in L. apply (olt_iff HO) in Hl. contradiction. }
  assert (Po : forall a b (s : N), 1 <= a -> 1 <= b -> lt n0 s -> le n0 (s * nofnat a / nofnat b)%num).
  { intros a b z Ha Hb Hz. pose proof (nat_nz HO HN b Hb). replace (z * nofnat a / nofnat b)%num with (z * (nofnat a * (n1 / nofnat b)))%num by (field; auto).
    apply (ole_0_mul HO); [now apply (olt_le HO)|]. apply (ole_0_mul HO); [apply (nat_nonneg HO HN)|]. apply (olt_le HO), (olt_0_inv HO), (nat_pos HO HN). auto. }
  assert (Pt : forall x1 y1 : N, exists x : nat -> N, x 0 = x1 /\ x 1 = y1) by (intros x1 y1; exists (fun k => match k with 0 => x1 | _ => y1 end); auto).
  assert (Ref : forall z : N, le z z) by apply (ole_refl HO). pose proof (olt_le HO _ _ P0) as L0. pose proof (olt_le HO _ _ P1) as L1.
  destruct (lt_dec e0 e1) as [L|L].
  - split.
    + destruct (Pt ox (oy + s1)%num) as (x & X & Y). exists x. rewrite <- (C x). unfold in_box. rewrite X, Y. split.
      * split; [auto|]. split; [auto|]. split; auto.
      * intros (_ & _ & _ & W). revert W. apply B. apply Q; auto.
    + destruct (Pt (ox + s0 * nofnat e1 / nofnat e0)%num oy) as (x & X & Y). exists x.
      destruct (proj1 (C x)) as (e & He & I). { unfold in_box. rewrite X, Y. split; [apply A, Po; auto|]. split; [auto|]. split; auto. }
      exists e. split; auto. unfold in_box. rewrite X, Y. intros (_ & W & _). revert W. apply B. apply R; auto.
  - assert (L' : e1 < e0) by lia. split.
    + destruct (Pt (ox + s0)%num oy) as (x & X & Y). exists x. rewrite <- (C x). unfold in_box. rewrite X, Y. split.
      * split; [auto|]. split; [auto|]. split; auto.
      * intros (_ & W & _). revert W. apply B. apply Q; auto.
    + destruct (Pt ox (oy + s1 * nofnat e0 / nofnat e1)%num) as (x & X & Y). exists x.
      destruct (proj1 (C x)) as (e & He & I). { unfold in_box. rewrite X, Y. split; [auto|]. split; [apply A, Po; auto|]. split; [apply A, Po; auto|auto]. }
      exists e. split; auto. unfold in_box. rewrite X, Y. intros (_ & _ & _ & W). revert W. apply B. apply R; auto.
Qed.
End Res.
