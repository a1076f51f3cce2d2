(** Instances of [Num]: exact rationals, reals, IEEE-754 binary64. *)
From Coq Require Import Bool ZArith QArith Qcanon Qcabs Reals Lra Lia RealField Field_theory.
From Coq.Floats Require Import SpecFloat.
From Verif Require Import Num.

(** ** Exact rationals (normalised fractions, Leibniz equality). Integer square root only. *)
Definition Qc_le_bool (x y : Qc) : bool := Qle_bool (this x) (this y).
Definition eps64Q : Qc := Q2Qc (1 # (2 ^ 52)).
(** numeric_limits<double>::min() = 2^-1022, max() = (2^53-1) * 2^971. *)
Definition minpos64Q : Qc := Q2Qc (1 # (2 ^ 1022)).
Definition max64Q : Qc := Q2Qc (inject_Z ((2 ^ 53 - 1) * 2 ^ 971)).
Definition NumQc : Num := {|
  T := Qc; n0 := 0%Qc; n1 := 1%Qc;
  nadd := Qcplus; nsub := Qcminus; nmul := Qcmult; ndiv := Qcdiv; nopp := Qcopp;
  neqb := fun x y => Qeq_bool (this x) (this y);
  nltb := fun x y => negb (Qc_le_bool y x);
  nleb := Qc_le_bool;
  nabs := Qcabs;
  nsqrt := fun x => Q2Qc (Z.sqrt (Qnum x) # Pos.sqrt (Qden x));
  nconj := fun x => x;
  neps := eps64Q; nminpos := minpos64Q; nmax := max64Q;
  nisnan := fun _ => false; nisinf := fun _ => false;
  nofnat := fun n => Q2Qc (inject_Z (Z.of_nat n)) |}.

Lemma Qc_eqb_spec (x y : Qc) : Qeq_bool (this x) (this y) = true <-> x = y.
Proof.
  rewrite Qeq_bool_iff. split.
  - apply Qc_is_canon.
  - now intros ->.
Qed.

Lemma Qc_field : field_theory 0%Qc 1%Qc Qcplus Qcmult Qcminus Qcopp Qcdiv (fun x => Qcdiv 1 x) eq.
Proof.
  destruct Qcft as [ring one div inv]. constructor; auto.
  - intros p q. rewrite div. unfold Qcdiv. now rewrite Qcmult_1_l.
  - intros p Hp. unfold Qcdiv. rewrite Qcmult_1_l. auto.
Qed.

Lemma NumQc_field : FieldLaws NumQc.
Proof. constructor; [exact Qc_field | exact Qc_eqb_spec]. Qed.

Lemma Qc_le_bool_iff (x y : Qc) : Qc_le_bool x y = true <-> (x <= y)%Qc.
Proof. unfold Qc_le_bool, Qcle. apply Qle_bool_iff. Qed.

Lemma NumQc_ord : OrdFieldLaws NumQc.
Proof.
  constructor; simpl; intros; rewrite ?Qc_le_bool_iff in *; auto.
  - exact NumQc_field.
  - apply Qcle_refl.
  - eapply Qcle_trans; eauto.
  - apply Qcle_antisym; auto.
  - destruct (Qclt_le_dec x y); [left | right]; auto using Qclt_le_weak.
  - apply Qcplus_le_compat; auto using Qcle_refl.
  - replace 0%Qc with (0 * y)%Qc by ring. apply Qcmult_le_compat_r; auto.
  - apply Qcabs_pos; auto.
  - apply Qcabs_neg; auto.
  - unfold Qcle, eps64Q; simpl. discriminate.
Qed.

Lemma NumQc_conj : ConjLaws NumQc.
Proof. constructor; reflexivity. Qed.

(** ** Reals (axioms: those of Coq.Reals). *)
Definition Rle_bool (x y : R) : bool := if Rle_dec x y then true else false.
Definition Req_bool (x y : R) : bool := if Req_EM_T x y then true else false.
Definition NumR : Num := {|
  T := R; n0 := 0%R; n1 := 1%R;
  nadd := Rplus; nsub := Rminus; nmul := Rmult; ndiv := Rdiv; nopp := Ropp;
  neqb := Req_bool;
  nltb := fun x y => negb (Rle_bool y x);
  nleb := Rle_bool;
  nabs := Rabs; nsqrt := sqrt; nconj := fun x => x;
  neps := (/ 2 ^ 52)%R; nminpos := (/ 2 ^ 1022)%R; nmax := ((2 ^ 53 - 1) * 2 ^ 971)%R;
  nisnan := fun _ => false; nisinf := fun _ => false;
  nofnat := INR |}.

Lemma Rle_bool_iff x y : Rle_bool x y = true <-> (x <= y)%R.
Proof. unfold Rle_bool. destruct (Rle_dec x y); split; auto; discriminate. Qed.

Lemma Req_bool_iff x y : Req_bool x y = true <-> x = y.
Proof. unfold Req_bool. destruct (Req_EM_T x y); split; auto; discriminate. Qed.

Lemma NumR_field : FieldLaws NumR.
Proof.
  constructor; [|exact Req_bool_iff]. simpl.
  constructor.
  - exact (F_R RealField.Rfield).
  - exact R1_neq_R0.
  - intros p q. unfold Rdiv. now rewrite Rmult_1_l.
  - intros p Hp. unfold Rdiv. rewrite Rmult_1_l. apply Rinv_l; auto.
Qed.

Lemma NumR_ord : OrdFieldLaws NumR.
Proof.
  constructor; simpl; intros; rewrite ?Rle_bool_iff in *; auto; try lra.
  - exact NumR_field.
  - apply Rmult_le_pos; auto.
  - apply Rabs_pos_eq; auto.
  - apply Rabs_left1; auto.
Qed.

Lemma NumR_conj : ConjLaws NumR.
Proof. constructor; reflexivity. Qed.

Lemma NumR_sqrt : SqrtLaws NumR.
Proof.
  constructor; simpl; intros x; rewrite !Rle_bool_iff; intros H.
  - apply sqrt_pos.
  - apply sqrt_sqrt; auto.
Qed.

(** ** IEEE-754 binary64 through the standard library's executable specification
    (round to nearest even; signalling and payloads of NaN are not distinguished). *)
Definition prec64 : Z := 53.
Definition emax64 : Z := 1024.
Definition F64 : Set := spec_float.
Definition f64_of_Z (z : Z) : F64 := binary_normalize prec64 emax64 z 0 false.
Definition f64_is_nan (x : F64) : bool := match x with S754_nan => true | _ => false end.
Definition f64_is_inf (x : F64) : bool := match x with S754_infinity _ => true | _ => false end.
Definition NumF64 : Num := {|
  T := F64; n0 := S754_zero false; n1 := f64_of_Z 1;
  nadd := SFadd prec64 emax64; nsub := SFsub prec64 emax64; nmul := SFmul prec64 emax64;
  ndiv := SFdiv prec64 emax64; nopp := SFopp;
  neqb := SFeqb; nltb := SFltb; nleb := SFleb;
  nabs := SFabs; nsqrt := SFsqrt prec64 emax64; nconj := fun x => x;
  neps := S754_finite false (2 ^ 52) (-104);
  nminpos := S754_finite false (2 ^ 52) (-1074);
  nmax := S754_finite false (2 ^ 53 - 1) 971;
  nisnan := f64_is_nan; nisinf := f64_is_inf;
  nofnat := fun n => f64_of_Z (Z.of_nat n) |}.

Lemma NumF64_zero : zero_refl NumF64.
Proof. reflexivity. Qed.

Lemma field_zero_refl N : FieldLaws N -> zero_refl N.
Proof. intros H. apply (fl_eqb N H). reflexivity. Qed.
