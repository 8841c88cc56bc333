(** IEEE doubles: comparisons of finite doubles are the comparisons of their real values. *)
From Coq Require Import ZArith List Bool Reals Lra Floats.SpecFloat.
From Flocq Require Import Core BinarySingleNaN.
From Verif Require Import Base Num NumR NumF.
Open Scope R_scope.

(** A finite double. *)
Definition dbl (x : spec_float) : Prop := SpecFloat.valid_binary fprec femax x = true /\ is_finite_SF x = true.

(** Its value. *)
Definition fval (x : spec_float) : R := SF2R radix2 x.

Lemma SF2B_finite : forall x (V : SpecFloat.valid_binary fprec femax x = true),
  is_finite_SF x = true -> is_finite (SF2B x V) = true.
Proof. intros x V F. destruct x; simpl in *; auto. Qed.

Lemma f_lt : forall x y, dbl x -> dbl y -> nlt x y = Rltb (fval x) (fval y).
Proof.
  intros x y [Vx Fx] [Vy Fy]. cbn [nlt NumF].
  assert (A := Bltb_correct fprec femax (SF2B x Vx) (SF2B y Vy) (SF2B_finite x Vx Fx) (SF2B_finite y Vy Fy)).
  unfold Bltb in A. rewrite !B2SF_SF2B, !B2R_SF2B in A. rewrite A. unfold fval.
  unfold Rltb. destruct (Rlt_dec (SF2R radix2 x) (SF2R radix2 y)); [apply Rlt_bool_true|apply Rlt_bool_false]; lra.
Qed.

Lemma f_le : forall x y, dbl x -> dbl y -> nle x y = Rleb (fval x) (fval y).
Proof.
  intros x y [Vx Fx] [Vy Fy]. cbn [nle NumF].
  assert (A := Bleb_correct fprec femax (SF2B x Vx) (SF2B y Vy) (SF2B_finite x Vx Fx) (SF2B_finite y Vy Fy)).
  unfold Bleb in A. rewrite !B2SF_SF2B, !B2R_SF2B in A. rewrite A. unfold fval.
  unfold Rleb. destruct (Rle_dec (SF2R radix2 x) (SF2R radix2 y)); [apply Rle_bool_true|apply Rle_bool_false]; lra.
Qed.

Lemma f_smin : forall x y, dbl x -> dbl y -> dbl (smin x y) /\ fval (smin x y) = smin (fval x) (fval y).
Proof.
  intros x y Hx Hy. unfold smin. rewrite f_lt; auto. change (nlt (fval y) (fval x)) with (Rltb (fval y) (fval x)).
  destruct (Rltb (fval y) (fval x)); auto.
Qed.

Lemma f_smax : forall x y, dbl x -> dbl y -> dbl (smax x y) /\ fval (smax x y) = smax (fval x) (fval y).
Proof.
  intros x y Hx Hy. unfold smax. rewrite f_lt; auto. change (nlt (fval x) (fval y)) with (Rltb (fval x) (fval y)).
  destruct (Rltb (fval x) (fval y)); auto.
Qed.
