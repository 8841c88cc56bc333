(** The mathematical functions behind <cmath>, in exact arithmetic. *)
From Coq Require Import ZArith Reals Bool Lra Lia.
From Verif Require Import Base Num NumR M_Grids.
Open Scope R_scope.

(** atan2 (y, x): the angle of the point (x, y), in (-PI, PI]; 0 for the origin. *)
Definition Ratan2 (y x : R) : R :=
  if Rlt_dec 0 x then atan (y / x)
  else if Rlt_dec x 0 then (if Rle_dec 0 y then atan (y / x) + PI else atan (y / x) - PI)
  else if Rlt_dec 0 y then PI / 2
  else if Rlt_dec y 0 then - (PI / 2) else 0.

#[global] Instance TrigR : Trig R := {|
  mpi := PI; msin := sin; mcos := cos; mtan := tan; masin := asin; macos := acos; matan := atan; matan2 := Ratan2 |}.

Lemma atan2_bound : forall y x, - PI < Ratan2 y x <= PI.
Proof.
  intros y x. assert (P := PI_RGT_0). assert (B := atan_bound (y / x)). unfold Ratan2.
  destruct (Rlt_dec 0 x); [lra|]. destruct (Rlt_dec x 0) as [X|X]; [|destruct (Rlt_dec 0 y), (Rlt_dec y 0); lra].
  destruct (Rle_dec 0 y) as [Y|Y].
  - assert (y / x <= 0).
    { assert (I := Rinv_lt_0_compat x X). unfold Rdiv. nra. }
    assert (atan (y / x) <= 0); [|lra]. rewrite <- atan_0. destruct H as [H| ->]; [left; apply atan_increasing; auto|right; auto].
  - assert (0 < y / x).
    { assert (I := Rinv_lt_0_compat x X). unfold Rdiv. nra. }
    assert (0 < atan (y / x)); [|lra]. rewrite <- atan_0. apply atan_increasing; auto.
Qed.

Lemma atan2_polar : forall y x, x * x + y * y <> 0 ->
  x = sqrt (x * x + y * y) * cos (Ratan2 y x) /\ y = sqrt (x * x + y * y) * sin (Ratan2 y x).
Proof.
  intros y x H.
  assert (Q : x <> 0 -> forall s, s * Rabs x = x -> s * s = 1 -> x = sqrt (x * x + y * y) * (s * cos (atan (y / x))) /\ y = sqrt (x * x + y * y) * (s * sin (atan (y / x)))).
  { intros X s S1 S2. rewrite cos_atan, sin_atan. assert (E : sqrt (x * x + y * y) = Rabs x * sqrt (1 + (y / x)²)).
    { rewrite <- sqrt_Rsqr_abs, <- sqrt_mult by (try apply Rle_0_sqr; unfold Rsqr; nra). f_equal. unfold Rsqr. field. auto. }
    rewrite E. assert (0 < sqrt (1 + (y / x)²)) by (apply sqrt_lt_R0; unfold Rsqr; nra). split.
    - replace (Rabs x * _ * _) with (s * Rabs x) by (field; lra). lra.
    - replace (Rabs x * _ * _) with ((s * Rabs x) * (y / x)) by (field; lra). rewrite S1. field. auto. }
  assert (NP : forall a, cos (a - PI) = - cos a /\ sin (a - PI) = - sin a).
  { intros a. split; [rewrite cos_minus, cos_PI, sin_PI; ring|rewrite sin_minus, cos_PI, sin_PI; ring]. }
  unfold Ratan2. destruct (Rlt_dec 0 x) as [X|X].
  - destruct (Q ltac:(lra) 1) as [A B]; [rewrite Rabs_pos_eq by lra; ring|ring|]. rewrite !Rmult_1_l in *. auto.
  - destruct (Rlt_dec x 0) as [X'|X'].
    + destruct (Q ltac:(lra) (-1)) as [A B]; [rewrite Rabs_left by lra; ring|ring|].
      destruct (Rle_dec 0 y).
      * rewrite neg_cos, neg_sin. split; [rewrite A at 1|rewrite B at 1]; ring.
      * destruct (NP (atan (y / x))) as [-> ->]. split; [rewrite A at 1|rewrite B at 1]; ring.
    + assert (x = 0) by lra. subst x. assert (E : sqrt (0 * 0 + y * y) = Rabs y) by (rewrite <- sqrt_Rsqr_abs; f_equal; unfold Rsqr; ring). rewrite E.
      destruct (Rlt_dec 0 y) as [Y|Y].
      * rewrite cos_PI2, sin_PI2, Rabs_pos_eq by lra. lra.
      * destruct (Rlt_dec y 0); [|exfalso; apply H; replace y with 0 by lra; ring].
        rewrite cos_neg, sin_neg, cos_PI2, sin_PI2, Rabs_left by lra. lra.
Qed.

Lemma angle_unique : forall a b, - PI < a <= PI -> - PI < b <= PI -> cos a = cos b -> sin a = sin b -> a = b.
Proof.
  intros a b Ha Hb HC HS. assert (P := PI_RGT_0).
  assert (E : cos (a - b) = 1) by (rewrite cos_minus, HC, HS; assert (S := sin2_cos2 b); unfold Rsqr in S; lra).
  replace (a - b) with (2 * ((a - b) / 2)) in E by field. rewrite cos_2a_sin in E.
  assert (Z : sin ((a - b) / 2) = 0) by nra. apply sin_eq_0_0 in Z. destruct Z as (k & Z).
  assert (- 1 < IZR k < 1) by nra. assert (k = 0%Z).
  { destruct H as [H1 H2]. apply (lt_IZR (-1)) in H1. apply (lt_IZR k 1) in H2. lia. }
  subst k. lra.
Qed.

Lemma atan2_angle : forall r a, 0 < r -> - PI < a <= PI -> Ratan2 (r * sin a) (r * cos a) = a.
Proof.
  intros r a Hr Ha. assert (S := sin2_cos2 a). unfold Rsqr in S.
  assert (E : r * cos a * (r * cos a) + r * sin a * (r * sin a) = r * r) by (transitivity (r * r * (sin a * sin a + cos a * cos a)); [ring|rewrite S; ring]).
  destruct (atan2_polar (r * sin a) (r * cos a)) as [A B]; [rewrite E; nra|]. rewrite E in A, B. replace (sqrt (r * r)) with r in A, B by (symmetry; apply sqrt_square; lra).
  apply Rmult_eq_reg_l in A; [|lra]. apply Rmult_eq_reg_l in B; [|lra]. apply angle_unique; auto. apply atan2_bound.
Qed.
