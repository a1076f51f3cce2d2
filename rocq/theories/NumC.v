(** Exact complex numbers with rational parts: an instance of [Num] with a non-trivial conjugation.
    The comparison operators do not exist for std::complex; they compare real parts here and no theorem
    about this instance uses them. *)
From Coq Require Import Bool ZArith QArith Qcanon Field_theory.
From Verif Require Import Num NumInst.

Definition Qi : Type := (Qc * Qc)%type.
Definition ci_add (x y : Qi) : Qi := (fst x + fst y, snd x + snd y)%Qc.
Definition ci_sub (x y : Qi) : Qi := (fst x - fst y, snd x - snd y)%Qc.
Definition ci_mul (x y : Qi) : Qi := (fst x * fst y - snd x * snd y, fst x * snd y + snd x * fst y)%Qc.
Definition ci_opp (x : Qi) : Qi := (- fst x, - snd x)%Qc.
Definition ci_conj (x : Qi) : Qi := (fst x, - snd x)%Qc.
Definition ci_nrm (x : Qi) : Qc := (fst x * fst x + snd x * snd x)%Qc.
Definition ci_inv (x : Qi) : Qi := (fst x / ci_nrm x, - snd x / ci_nrm x)%Qc.
Definition ci_div (x y : Qi) : Qi := ci_mul x (ci_inv y).
Definition NumQi : Num := {|
  T := Qi; n0 := (0, 0)%Qc; n1 := (1, 0)%Qc;
  nadd := ci_add; nsub := ci_sub; nmul := ci_mul; ndiv := ci_div; nopp := ci_opp;
  neqb := fun x y => Qeq_bool (this (fst x)) (this (fst y)) && Qeq_bool (this (snd x)) (this (snd y));
  nltb := fun x y => negb (Qc_le_bool (fst y) (fst x));
  nleb := fun x y => Qc_le_bool (fst x) (fst y);
  nabs := fun x => x; nsqrt := fun x => x; nconj := ci_conj;
  neps := (eps64Q, 0%Qc); nminpos := (minpos64Q, 0%Qc); nmax := (max64Q, 0%Qc);
  nisnan := fun _ => false; nisinf := fun _ => false;
  nofnat := fun n => (Q2Qc (inject_Z (Z.of_nat n)), 0%Qc) |}.

Lemma pair_eq (a b c d : Qc) : a = c -> b = d -> (a, b) = (c, d).
Proof. now intros -> ->. Qed.
Lemma sq_nonneg (x : Qc) : (0 <= x * x)%Qc.
Proof.
  destruct (Qclt_le_dec x 0) as [H|H].
  - replace (x * x)%Qc with ((- x) * (- x))%Qc by ring. replace 0%Qc with (0 * (- x))%Qc by ring.
    assert (0 <= - x)%Qc. { replace 0%Qc with (- 0)%Qc by ring. apply Qcopp_le_compat. now apply Qclt_le_weak. }
    now apply Qcmult_le_compat_r.
  - replace 0%Qc with (0 * x)%Qc by ring. now apply Qcmult_le_compat_r.
Qed.
Lemma nrm_nz (x : Qi) : x <> (0, 0)%Qc -> ci_nrm x <> 0%Qc.
Proof.
  intros H E. apply H. destruct x as (a, b). unfold ci_nrm in E. cbn [fst snd] in E.
  pose proof (sq_nonneg a) as Ha. pose proof (sq_nonneg b) as Hb.
  assert (Ea : (a * a)%Qc = 0%Qc).
  { apply Qcle_antisym; auto. rewrite <- E. replace (a * a)%Qc with (a * a + 0)%Qc at 1 by ring.
    apply Qcplus_le_compat; auto using Qcle_refl. }
  assert (Eb : (b * b)%Qc = 0%Qc) by (rewrite <- E, Ea; ring).
  apply Qcmult_integral in Ea. apply Qcmult_integral in Eb.
  assert (a = 0%Qc) by tauto. assert (b = 0%Qc) by tauto. congruence.
Qed.

Lemma NumQi_field : FieldLaws NumQi.
Proof.
  split.
  - constructor.
    + constructor; cbn; unfold ci_add, ci_mul, ci_sub, ci_opp; intros; cbn [fst snd];
        try destruct x; try apply pair_eq; cbn [fst snd]; try ring.
    + cbn. intros E. injection E as E. discriminate.
    + intros p q. cbn. unfold ci_div. f_equal. unfold ci_mul, ci_inv. cbn [fst snd]. apply pair_eq; ring.
    + intros p Hp. cbn in *. pose proof (nrm_nz p Hp) as H. unfold ci_div, ci_inv, ci_mul. cbn [fst snd].
      apply pair_eq; unfold ci_nrm in *; field; auto.
  - intros (a, b) (c, d). cbn. rewrite andb_true_iff, !Qc_eqb_spec. split; [intros (-> & ->); auto|intros [= -> ->]; auto].
Qed.
Lemma NumQi_conj : ConjLaws NumQi.
Proof.
  constructor; cbn; unfold ci_conj, ci_add, ci_mul; intros; cbn [fst snd]; try destruct x; try apply pair_eq; cbn [fst snd]; ring.
Qed.
