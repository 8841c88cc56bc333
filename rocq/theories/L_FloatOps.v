(** IEEE doubles: the operations of the model are the correctly rounded ones. *)
From Coq Require Import ZArith List Bool Reals Lra Lia Floats.SpecFloat.
From Flocq Require Import Core BinarySingleNaN.
From Flocq.Calc Require Import Round.
From Flocq.Prop Require Import Relative.
From Verif Require Import Base Num NumR NumF L_Float.
Open Scope R_scope.

Local Instance prec_pos : FLX.Prec_gt_0 fprec := eq_refl _.
Local Instance prec_emax : Prec_lt_emax fprec femax := eq_refl _.
#[global] Instance fexp_valid : Valid_exp (SpecFloat.fexp fprec femax) := fexp_correct fprec femax _.
#[global] Instance fexp_mono : Monotone_exp (SpecFloat.fexp fprec femax).
Proof. exact (FLT_exp_monotone (SpecFloat.emin fprec femax) fprec). Qed.

(** A double: finite, infinite or not a number. *)
Definition fok (x : spec_float) : Prop := SpecFloat.valid_binary fprec femax x = true.

(** Rounding to nearest, ties to even. *)
Definition rnd (x : R) : R := round radix2 (SpecFloat.fexp fprec femax) (round_mode mode_NE) x.

Lemma fok_B : forall x, fok x -> exists b : binary_float fprec femax, x = B2SF b.
Proof. intros x V. exists (SF2B x V). symmetry. apply B2SF_SF2B. Qed.

Lemma B_fok : forall b : binary_float fprec femax, fok (B2SF b).
Proof. intros. apply valid_binary_B2SF. Qed.

Lemma dbl_B : forall x, dbl x -> exists b : binary_float fprec femax, x = B2SF b /\ is_finite b = true /\ B2R b = fval x.
Proof.
  intros x [V F]. exists (SF2B x V). split; [symmetry; apply B2SF_SF2B|]. split; [apply SF2B_finite; auto|].
  unfold fval. rewrite B2R_SF2B. reflexivity.
Qed.

Lemma B_dbl : forall b : binary_float fprec femax, is_finite b = true -> dbl (B2SF b) /\ fval (B2SF b) = B2R b.
Proof.
  intros b F. split; [split; [apply valid_binary_B2SF|rewrite is_finite_SF_B2SF; exact F]|]. destruct b; reflexivity.
Qed.

(** The roundings of the standard library's SpecFloat and of Flocq are the same. *)
Lemma nearest_equiv : forall s m l, SpecFloat.round_nearest_even m l = choice_mode mode_NE s m l.
Proof. intros s m [|c]; [reflexivity|]. destruct c; try reflexivity. simpl. unfold Round.cond_incr. destruct (Z.even m); reflexivity. Qed.

Lemma round_aux_equiv : forall s m e l, SpecFloat.binary_round_aux fprec femax s m e l = binary_round_aux fprec femax mode_NE s m e l.
Proof.
  intros. unfold SpecFloat.binary_round_aux, binary_round_aux. destruct (shr_fexp fprec femax m e l) as [mrs e']. simpl. rewrite (nearest_equiv s). reflexivity.
Qed.

Lemma normalize_equiv : forall m e s, SpecFloat.binary_normalize fprec femax m e s = B2SF (binary_normalize fprec femax prec_pos prec_emax mode_NE m e s).
Proof.
  assert (R : forall s m e, SpecFloat.binary_round fprec femax s m e = binary_round fprec femax mode_NE s m e).
  { intros. unfold SpecFloat.binary_round, binary_round, shl_align_fexp. destruct (shl_align m e _) as [mz ez]. apply round_aux_equiv. }
  intros [|p|p] e s; [reflexivity|simpl; rewrite B2SF_SF2B; apply R..].
Qed.

Lemma add_B : forall x y : binary_float fprec femax, nadd (B2SF x) (B2SF y) = B2SF (Bplus mode_NE x y).
Proof.
  intros [sx|sx| |sx mx ex Bx] [sy|sy| |sy my ey By]; cbn [nadd NumF]; [now (trivial || simpl; case Bool.eqb).. | ].
  apply normalize_equiv.
Qed.

Lemma sub_B : forall x y : binary_float fprec femax, nsub (B2SF x) (B2SF y) = B2SF (Bminus mode_NE x y).
Proof.
  intros [sx|sx| |sx mx ex Bx] [sy|sy| |sy my ey By]; cbn [nsub NumF]; [now (trivial || simpl; case Bool.eqb).. | ].
  simpl. unfold Zminus. rewrite <- cond_Zopp_negb. apply normalize_equiv.
Qed.

Lemma mul_B : forall x y : binary_float fprec femax, nmul (B2SF x) (B2SF y) = B2SF (Bmult mode_NE x y).
Proof.
  intros [sx|sx| |sx mx ex Bx] [sy|sy| |sy my ey By]; cbn [nmul NumF]; [now trivial.. | ].
  simpl. rewrite B2SF_SF2B. apply round_aux_equiv.
Qed.

Lemma div_B : forall x y : binary_float fprec femax, ndiv (B2SF x) (B2SF y) = B2SF (Bdiv mode_NE x y).
Proof.
  intros [sx|sx| |sx mx ex Bx] [sy|sy| |sy my ey By]; cbn [ndiv NumF]; [now (trivial || simpl; case Bool.eqb).. | ].
  simpl. rewrite B2SF_SF2B. set (melz := SFdiv_core_binary _ _ _ _ _ _). case melz as [[mz ez] lz]. apply round_aux_equiv.
Qed.

(** Doubles give doubles. *)
Lemma fok_add : forall x y, fok x -> fok y -> fok (nadd x y).
Proof. intros x y Hx Hy. destruct (fok_B x Hx) as (a & ->). destruct (fok_B y Hy) as (b & ->). rewrite add_B. apply B_fok. Qed.
Lemma fok_sub : forall x y, fok x -> fok y -> fok (nsub x y).
Proof. intros x y Hx Hy. destruct (fok_B x Hx) as (a & ->). destruct (fok_B y Hy) as (b & ->). rewrite sub_B. apply B_fok. Qed.
Lemma fok_mul : forall x y, fok x -> fok y -> fok (nmul x y).
Proof. intros x y Hx Hy. destruct (fok_B x Hx) as (a & ->). destruct (fok_B y Hy) as (b & ->). rewrite mul_B. apply B_fok. Qed.
Lemma fok_div : forall x y, fok x -> fok y -> fok (ndiv x y).
Proof. intros x y Hx Hy. destruct (fok_B x Hx) as (a & ->). destruct (fok_B y Hy) as (b & ->). rewrite div_B. apply B_fok. Qed.
Lemma fok_norm : forall m e s, fok (SpecFloat.binary_normalize fprec femax m e s).
Proof. intros. rewrite normalize_equiv. apply B_fok. Qed.

Lemma fok_ofZ : forall z, fok (nofZ z).
Proof. intros [|p|p]; cbn [nofZ NumF F_ofZ]; [reflexivity|apply fok_norm|apply fok_norm]. Qed.

Lemma fok_fmod : forall x y, fok x -> fok y -> fok (nfmod x y).
Proof.
  intros x y Hx Hy. cbn [nfmod NumF]. destruct x, y; cbn [F_fmod]; auto; try reflexivity.
  match goal with |- context [if ?c then _ else _] => destruct c end; [reflexivity|apply fok_norm].
Qed.

(** ** Exact values *)
Lemma rnd_le : forall x y, x <= y -> rnd x <= rnd y.
Proof. intros. apply round_le; auto with typeclass_instances. Qed.

Lemma dbl_format : forall x, dbl x -> generic_format radix2 (SpecFloat.fexp fprec femax) (fval x).
Proof. intros x H. destruct (dbl_B x H) as (b & _ & _ & <-). apply generic_format_B2R. Qed.

Lemma rnd_id : forall x, dbl x -> rnd (fval x) = fval x.
Proof. intros x H. apply round_generic; [auto with typeclass_instances|apply dbl_format; auto]. Qed.

Lemma max_exp : forall x, Rabs x <= bpow radix2 1000 -> Rabs (rnd x) < bpow radix2 femax.
Proof.
  intros x H. apply Rle_lt_trans with (bpow radix2 1000); [|apply bpow_lt; unfold femax; lia].
  unfold rnd. apply abs_round_le_generic; auto with typeclass_instances.
  apply generic_format_bpow. unfold SpecFloat.fexp, fprec, femax, emin. lia.
Qed.

Lemma f_add : forall x y, dbl x -> dbl y -> Rabs (fval x + fval y) <= bpow radix2 1000 ->
  dbl (nadd x y) /\ fval (nadd x y) = rnd (fval x + fval y).
Proof.
  intros x y Hx Hy B. destruct (dbl_B x Hx) as (a & Ea & Fa & Va). destruct (dbl_B y Hy) as (b & Eb & Fb & Vb).
  assert (C := Bplus_correct fprec femax _ _ mode_NE a b Fa Fb). rewrite Va, Vb in C. fold (rnd (fval x + fval y)) in C.
  rewrite Rlt_bool_true in C by (apply max_exp; auto). destruct C as (C1 & C2 & _).
  destruct (B_dbl _ C2) as [D V]. rewrite <- add_B, <- Ea, <- Eb in *. split; [exact D|]. congruence.
Qed.

Lemma f_sub : forall x y, dbl x -> dbl y -> Rabs (fval x - fval y) <= bpow radix2 1000 ->
  dbl (nsub x y) /\ fval (nsub x y) = rnd (fval x - fval y).
Proof.
  intros x y Hx Hy B. destruct (dbl_B x Hx) as (a & Ea & Fa & Va). destruct (dbl_B y Hy) as (b & Eb & Fb & Vb).
  assert (C := Bminus_correct fprec femax _ _ mode_NE a b Fa Fb). rewrite Va, Vb in C. fold (rnd (fval x - fval y)) in C.
  rewrite Rlt_bool_true in C by (apply max_exp; auto). destruct C as (C1 & C2 & _).
  destruct (B_dbl _ C2) as [D V]. rewrite <- sub_B, <- Ea, <- Eb in *. split; [exact D|]. congruence.
Qed.

Lemma f_mul : forall x y, dbl x -> dbl y -> Rabs (fval x * fval y) <= bpow radix2 1000 ->
  dbl (nmul x y) /\ fval (nmul x y) = rnd (fval x * fval y).
Proof.
  intros x y Hx Hy B. destruct (dbl_B x Hx) as (a & Ea & Fa & Va). destruct (dbl_B y Hy) as (b & Eb & Fb & Vb).
  assert (C := Bmult_correct fprec femax _ _ mode_NE a b). rewrite Va, Vb in C. fold (rnd (fval x * fval y)) in C.
  rewrite Rlt_bool_true in C by (apply max_exp; auto). destruct C as (C1 & C2 & _). rewrite Fa, Fb in C2.
  destruct (B_dbl _ C2) as [D V]. rewrite <- mul_B, <- Ea, <- Eb in *. split; [exact D|]. congruence.
Qed.

Lemma f_div : forall x y, dbl x -> dbl y -> fval y <> 0 -> Rabs (fval x / fval y) <= bpow radix2 1000 ->
  dbl (ndiv x y) /\ fval (ndiv x y) = rnd (fval x / fval y).
Proof.
  intros x y Hx Hy NZ B. destruct (dbl_B x Hx) as (a & Ea & Fa & Va). destruct (dbl_B y Hy) as (b & Eb & Fb & Vb).
  assert (NB : B2R b <> 0) by congruence.
  assert (C := Bdiv_correct fprec femax eq_refl eq_refl mode_NE a b NB). rewrite Va, Vb in C. fold (rnd (fval x / fval y)) in C.
  rewrite Rlt_bool_true in C by (apply max_exp; auto). destruct C as (C1 & C2 & _). rewrite Fa in C2. destruct (B_dbl _ C2) as [D V].
  rewrite <- div_B, <- Ea, <- Eb in D, V. split; [exact D|]. congruence.
Qed.

(** Integers of at most 53 bits are doubles. *)
Lemma format_Z : forall z, (Z.abs z <= 2 ^ 53)%Z -> generic_format radix2 (SpecFloat.fexp fprec femax) (IZR z).
Proof.
  intros z H. destruct (Z.eq_dec (Z.abs z) (2 ^ 53)) as [E|E].
  - assert (G : generic_format radix2 (SpecFloat.fexp fprec femax) (bpow radix2 53)) by (apply generic_format_bpow; unfold SpecFloat.fexp, fprec, femax, emin; lia).
    assert (z = 2 ^ 53 \/ z = - 2 ^ 53)%Z as [-> | ->] by lia; [exact G|]. rewrite opp_IZR. apply generic_format_opp. exact G.
  - replace (IZR z) with (F2R (Float radix2 z 0)) by (unfold F2R; simpl; ring).
    apply generic_format_FLT. exists (Float radix2 z 0); [reflexivity| |unfold emin, fprec, femax; simpl; lia].
    simpl Fnum. change (radix2 ^ fprec)%Z with (2 ^ 53)%Z. lia.
Qed.

Lemma rnd_Z : forall z, (Z.abs z <= 2 ^ 53)%Z -> rnd (IZR z) = IZR z.
Proof. intros. apply round_generic; [auto with typeclass_instances|apply format_Z; auto]. Qed.

Lemma f_ofZ : forall z, (Z.abs z <= 2 ^ 53)%Z -> dbl (nofZ z) /\ fval (nofZ z) = IZR z.
Proof.
  intros z H. assert (K : forall s, dbl (SpecFloat.binary_normalize fprec femax z 0 s) /\ fval (SpecFloat.binary_normalize fprec femax z 0 s) = IZR z).
  { intros s. rewrite normalize_equiv.
    match goal with |- context [B2SF ?t] => set (b := t) end.
    assert (C := binary_normalize_correct fprec femax _ _ mode_NE z 0 s). cbv zeta in C.
    replace (F2R (Float radix2 z 0)) with (IZR z) in C by (unfold F2R; simpl; ring).
    fold (rnd (IZR z)) in C. rewrite rnd_Z in C by auto.
    rewrite Rlt_bool_true in C.
    2:{ rewrite <- abs_IZR. apply Rle_lt_trans with (IZR (2 ^ 53)); [apply IZR_le; auto|]. change (IZR (2 ^ 53)) with (bpow radix2 53). apply bpow_lt. unfold femax. lia. }
    destruct C as (C1 & C2 & _). destruct (B_dbl _ C2) as [D V]. split; [exact D|]. rewrite <- C1. exact V. }
  destruct z as [|p|p]; cbn [nofZ NumF F_ofZ]; [split; [split; reflexivity|reflexivity]|apply K|apply K].
Qed.

(** ** Conversion to int *)
Lemma toZ_val : forall x, dbl x -> 0 <= fval x -> ntoZ x = Some (Zfloor (fval x)).
Proof.
  intros x [V F] P. destruct x as [s|s| |s m e]; try discriminate.
  - cbn. rewrite (Zfloor_IZR 0). reflexivity.
  - unfold fval in *. cbn [SF2R] in *. destruct s.
    + exfalso. assert (F2R (Float radix2 (cond_Zopp true (Z.pos m)) e) < 0) by (apply F2R_lt_0; simpl; lia). lra.
    + cbn [ntoZ NumF F_toZ]. f_equal. cbn [cond_Zopp] in *. destruct (Z.leb_spec 0 e) as [He|He].
      * unfold F2R. simpl Fnum. simpl Fexp. rewrite <- IZR_Zpower by auto. rewrite <- mult_IZR, Zfloor_IZR. reflexivity.
      * unfold F2R. simpl Fnum. simpl Fexp. replace e with (- (- e))%Z at 2 by lia. rewrite bpow_opp, <- IZR_Zpower by lia.
        change (IZR (Z.pos m) * / IZR (radix2 ^ (- e))) with (IZR (Z.pos m) / IZR (radix2 ^ (- e))). rewrite Zfloor_div; [reflexivity|].
        change (radix2 ^ (- e))%Z with (2 ^ (- e))%Z. apply Z.pow_nonzero; lia.
Qed.

Lemma floor_val : forall x, dbl x -> 0 <= fval x <= bpow radix2 53 ->
  dbl (nfloor x) /\ fval (nfloor x) = IZR (Zfloor (fval x)).
Proof.
  intros x D P. assert (D' := D). destruct D' as [V F]. destruct x as [s|s| |s m e]; try discriminate.
  - cbn [nfloor NumF F_floor]. split; auto. unfold fval. cbn [SF2R]. rewrite (Zfloor_IZR 0). reflexivity.
  - assert (T := toZ_val _ D (proj1 P)).
    unfold fval in P. cbn [SF2R] in *. destruct s.
    + exfalso. assert (F2R (Float radix2 (cond_Zopp true (Z.pos m)) e) < 0) by (apply F2R_lt_0; simpl; lia). lra.
    + cbn [nfloor ntoZ NumF F_floor F_toZ] in *. injection T as T. destruct (Z.leb_spec 0 e) as [He|He].
      * split; auto. change (F2R (Float radix2 (Z.pos m) e)) with (fval (S754_finite false m e)) in T. rewrite <- T. unfold fval. cbn [SF2R cond_Zopp]. unfold F2R. simpl Fnum. simpl Fexp.
        rewrite <- IZR_Zpower by auto. rewrite <- mult_IZR. reflexivity.
      * change (F2R (Float radix2 (Z.pos m) e)) with (fval (S754_finite false m e)) in T. rewrite <- T. assert (Q : (0 <= Z.pos m / 2 ^ (- e))%Z) by (apply Z.div_pos; [lia|apply Z.pow_pos_nonneg; lia]).
        assert (B : (Z.pos m / 2 ^ (- e) <= 2 ^ 53)%Z).
        { rewrite T. apply le_IZR. eapply Rle_trans; [apply Zfloor_lb|]. unfold fval. cbn [SF2R]. apply (proj2 P). }
        assert (K := f_ofZ (Z.pos m / 2 ^ (- e)) ltac:(lia)).
        destruct (Z.pos m / 2 ^ (- e))%Z eqn:EZ; [split; [split; reflexivity|reflexivity]|exact K|lia].
Qed.

Lemma to_int_floor : forall x, dbl x -> 0 <= fval x < 2147483648 -> to_int (nfloor x) = Ret (Zfloor (fval x)).
Proof.
  intros x D P. destruct (floor_val x D) as [D1 V1].
  { split; [lra|]. change (bpow radix2 53) with (IZR (2 ^ 53)). apply Rle_trans with 2147483648; [lra|]. apply IZR_le. lia. }
  assert (Q : (0 <= Zfloor (fval x) < 2147483648)%Z).
  { split; [apply Zfloor_lub; simpl; lra|]. apply lt_IZR. eapply Rle_lt_trans; [apply Zfloor_lb|lra]. }
  unfold to_int. rewrite toZ_val by (auto; rewrite V1; apply IZR_le; lia). rewrite V1, Zfloor_IZR.
  unfold in_int, int_min, int_max. destruct (Z.leb_spec (- 2 ^ 31) (Zfloor (fval x))); [|lia].
  destruct (Z.leb_spec (Zfloor (fval x)) (2 ^ 31 - 1)); [reflexivity|lia].
Qed.

(** ** Results that are doubles are exact *)
Lemma dbl_lt : forall x, dbl x -> Rabs (fval x) < bpow radix2 femax.
Proof. intros x H. destruct (dbl_B x H) as (b & _ & _ & <-). apply abs_B2R_lt_emax. Qed.

Lemma f_add_exact : forall x y z, dbl x -> dbl y -> dbl z -> fval x + fval y = fval z -> dbl (nadd x y) /\ fval (nadd x y) = fval z.
Proof.
  intros x y z Hx Hy Hz E. destruct (dbl_B x Hx) as (a & Ea & Fa & Va). destruct (dbl_B y Hy) as (b & Eb & Fb & Vb).
  assert (C := Bplus_correct fprec femax _ _ mode_NE a b Fa Fb). rewrite Va, Vb in C. fold (rnd (fval x + fval y)) in C.
  rewrite E, rnd_id in C by auto. rewrite Rlt_bool_true in C by (apply dbl_lt; auto). destruct C as (C1 & C2 & _).
  destruct (B_dbl _ C2) as [D V]. rewrite <- add_B, <- Ea, <- Eb in *. split; [exact D|]. congruence.
Qed.

Lemma f_mul_exact : forall x y z, dbl x -> dbl y -> dbl z -> fval x * fval y = fval z -> dbl (nmul x y) /\ fval (nmul x y) = fval z.
Proof.
  intros x y z Hx Hy Hz E. destruct (dbl_B x Hx) as (a & Ea & Fa & Va). destruct (dbl_B y Hy) as (b & Eb & Fb & Vb).
  assert (C := Bmult_correct fprec femax _ _ mode_NE a b). rewrite Va, Vb in C. fold (rnd (fval x * fval y)) in C.
  rewrite E, rnd_id in C by auto. rewrite Rlt_bool_true in C by (apply dbl_lt; auto). destruct C as (C1 & C2 & _). rewrite Fa, Fb in C2.
  destruct (B_dbl _ C2) as [D V]. rewrite <- mul_B, <- Ea, <- Eb in *. split; [exact D|]. congruence.
Qed.

(** Rounding error. *)
Definition uround : R := / 9007199254740992.
Definition etiny : R := bpow radix2 (-1074).

Lemma rnd_error : forall x, Rabs (rnd x - x) <= uround * Rabs x + etiny.
Proof.
  intros x. destruct (error_N_FLT radix2 (SpecFloat.emin fprec femax) fprec eq_refl (fun z => negb (Z.even z)) x) as (eps & eta & H1 & H2 & _ & E).
  unfold rnd. change (round_mode mode_NE) with ZnearestE.
  match type of E with ?l = _ => match goal with |- Rabs (?r - _) <= _ => change r with l end end. rewrite E.
  replace (x * (1 + eps) + eta - x) with (eps * x + eta) by ring.
  eapply Rle_trans; [apply Rabs_triang|]. apply Rplus_le_compat.
  - rewrite Rabs_mult. apply Rmult_le_compat_r; [apply Rabs_pos|]. eapply Rle_trans; [exact H1|]. unfold uround, fprec.
    change (bpow radix2 (- (53) + 1)) with (/ IZR (2 ^ 52)). change (2 ^ 52)%Z with 4503599627370496%Z. lra.
  - eapply Rle_trans; [exact H2|]. unfold etiny. change (SpecFloat.emin fprec femax) with (-1074)%Z. assert (0 < bpow radix2 (-1074)) by apply bpow_gt_0. lra.
Qed.
