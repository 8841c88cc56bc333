(** A solver with the errors assumed for the flux across moderate rectilinear grids. *)
From Coq Require Import ZArith List Bool Reals Lra Lia Floats.SpecFloat.
From Flocq Require Import Core BinarySingleNaN.
From Verif Require Import Base Num NumR NumF M_LinearSolve L_Float L_FloatOps L_ResidualF L_QuadF L_AffineF L_RectF L_FlowRectF.
Import ListNotations.
Open Scope R_scope.

Definition finite2 (v : spec_float) : bool := (SpecFloat.valid_binary fprec femax v && is_finite_SF v)%bool.

Lemma finite2_dbl : forall v, finite2 v = true <-> dbl v.
Proof. intros v. unfold finite2, dbl. rewrite andb_true_iff. tauto. Qed.

(** Exact determinants and one rounding per unknown; a solution out of the range of doubles is reported as a failure. *)
Definition clip2 : gels spec_float := fun m n mem lda b ldb lw =>
  let r := exact2 m n mem lda b ldb lw in
  if finite2 (g_rhs r 0) && finite2 (g_rhs r 1) then mkGels (g_info r) (g_mat r) (fun i => match i with O => g_rhs r 0 | 1%nat => g_rhs r 1 | _ => n0 end)
  else mkGels 1 (g_mat r) (fun _ => n0).

Lemma clip2_same : forall m n mem lda b ldb lw, let r := exact2 m n mem lda b ldb lw in let c := clip2 m n mem lda b ldb lw in
  dbl (g_rhs r 0) -> dbl (g_rhs r 1) -> g_info c = g_info r /\ g_rhs c 0 = g_rhs r 0 /\ g_rhs c 1 = g_rhs r 1.
Proof. intros m n mem lda b ldb lw r c D0 D1. unfold c, clip2. fold r. apply finite2_dbl in D0, D1. rewrite D0, D1. auto. Qed.

Lemma clip2_cases : forall m n mem lda b ldb lw, let r := exact2 m n mem lda b ldb lw in let c := clip2 m n mem lda b ldb lw in
  (g_info c = g_info r /\ g_rhs c 0 = g_rhs r 0 /\ g_rhs c 1 = g_rhs r 1) \/ (g_info c = 1%Z /\ g_rhs c 0 = n0 /\ g_rhs c 1 = n0).
Proof. intros m n mem lda b ldb lw r c. unfold c, clip2. fold r. destruct (_ && _); auto. Qed.

Lemma zero_dbl : dbl (n0 : spec_float).
Proof. destruct (f_ofZ 0 ltac:(lia)) as [D _]. exact D. Qed.

Lemma clip2_finite : forall m k a lda b ldb lw i, dbl (g_rhs (clip2 m k a lda b ldb lw) i).
Proof.
  intros. unfold clip2. destruct (_ && _) eqn:E; cbn [g_rhs]; [|apply zero_dbl]. apply andb_prop in E. destruct E as [E1 E2]. apply finite2_dbl in E1, E2. destruct i as [|[|i]]; auto. apply zero_dbl.
Qed.

Lemma clip2_residual : residual2 (4 * uround) clip2.
Proof.
  intros a00 a01 a10 a11 b0 b1 lw A D00 D01 D10 D11 E0 E1 B00 B01 B10 B11 C0 C1 HA r x y.
  destruct (exact2_residual a00 a01 a10 a11 b0 b1 lw A D00 D01 D10 D11 E0 E1 B00 B01 B10 B11 C0 C1 HA) as (O1 & O2 & K). cbv zeta in *.
  unfold x, y, r. destruct (clip2_cases 2 2 [a00; a01; a10; a11] 2 [b0; b1] 2 lw) as [(I & R0 & R1)|(I & R0 & R1)]; rewrite I, R0, R1.
  - split; auto. split; auto. intros HI. destruct (K HI) as [K1 K2]. split; auto. intros NZ Dx Dy. destruct (K2 NZ Dx Dy) as [Q1 Q2].
    set (s := 1 + _ + _) in *. assert (PS : 0 <= A * s). { apply Rmult_le_pos; [assert (Z := Rabs_pos (fval a00)); lra|]. unfold s. apply Rplus_le_le_0_compat; [apply Rplus_le_le_0_compat; [lra|]|]; apply Rabs_pos. }
    assert (Q : 2 * uround * A * s <= 4 * uround * A * s). { replace (2 * uround * A * s) with (2 * uround * (A * s)) by ring. replace (4 * uround * A * s) with (4 * uround * (A * s)) by ring. apply Rmult_le_compat_r; auto. unfold uround. lra. }
    split; lra.
  - split; [reflexivity|]. split; [reflexivity|]. intros HI. lia.
Qed.

Lemma clip2_axis : axis2 (4 * uround) clip2.
Proof.
  intros a b z w r s lw Da Db Dz Dw Dr Ds Ez Ew Ha Hb Hr Hs good.
  destruct (exact2_axis a b z w r s lw Da Db Dz Dw Dr Ds Ez Ew Ha Hb Hr Hs) as (G1 & G2 & G3 & G4). cbv zeta in G1, G2.
  assert (S : forall m n mem lda b ldb lw, (0 < g_info (exact2 m n mem lda b ldb lw))%Z -> (0 < g_info (clip2 m n mem lda b ldb lw))%Z).
  { intros m n mem lda b' ldb lw' P. destruct (clip2_cases m n mem lda b' ldb lw') as [(I & _)|(I & _)]; rewrite I; lia. }
  split; [|split; [|split; apply S; auto]].
  - destruct G1 as (I & X0 & X1 & N). destruct (clip2_same 2 2 [a; z; w; b] 2 [r; s] 2 lw X0 X1) as (E1 & E2 & E3). unfold good. rewrite E1, E2, E3. auto.
  - destruct G2 as (I & X0 & X1 & N). destruct (clip2_same 2 2 [z; a; b; w] 2 [r; s] 2 lw X0 X1) as (E1 & E2 & E3). unfold good. rewrite E1, E2, E3. auto.
Qed.

(** A matrix that stretches is regular. *)
Lemma stretch_det : forall a b c d sg, 0 < sg -> (forall u v, sg * nm u v <= nm (a * u + b * v) (c * u + d * v)) -> a * d - b * c <> 0.
Proof.
  intros a b c d sg P ST Z.
  assert (K : forall u v, a * u + b * v = 0 -> c * u + d * v = 0 -> u = 0 /\ v = 0).
  { intros u v E1 E2. assert (S := ST u v). rewrite E1, E2 in S. unfold nm at 2 in S. rewrite Rabs_R0, Rmax_left in S by lra. assert (N := nm_pos u v).
    assert (N0 : nm u v = 0) by nra. assert (L := nm_l u v). assert (R := nm_r u v). rewrite N0 in L, R. apply Rabs_le_inv in L. apply Rabs_le_inv in R. lra. }
  destruct (K d (- c)) as [Ed Ec]; [lra|ring|]. destruct (K b (- a)) as [Eb Ea]; [ring|lra|]. destruct (K 1 0) as [Q _]; [nra|nra|]. lra.
Qed.

Lemma exact2_near : forall sg J00 J01 J10 J11 r0 r1 lw, / 1000000 <= sg -> dbl J00 -> dbl J01 -> dbl J10 -> dbl J11 -> dbl r0 -> dbl r1 -> Rabs (fval r0) <= 20 -> Rabs (fval r1) <= 20 ->
  (forall u v, sg * nm u v <= nm (fval J00 * u + fval J01 * v) (fval J10 * u + fval J11 * v)) ->
  let r := exact2 2%Z 2%Z [J00; J01; J10; J11] 2%Z [r0; r1] 2%Z lw in g_info r = 0%Z /\ dbl (g_rhs r 0) /\ dbl (g_rhs r 1) /\
  forall z0 z1, fval J00 * z0 + fval J01 * z1 = fval r0 -> fval J10 * z0 + fval J11 * z1 = fval r1 ->
  Rabs (fval (g_rhs r 0) - z0) <= 4 * uround * (1 + Rabs z0) /\ Rabs (fval (g_rhs r 1) - z1) <= 4 * uround * (1 + Rabs z1).
Proof.
  intros sg J00 J01 J10 J11 r0 r1 lw SG D00 D01 D10 D11 E0 E1 B0 B1 ST r.
  assert (U00 := units_val _ D00). assert (U01 := units_val _ D01). assert (U10 := units_val _ D10). assert (U11 := units_val _ D11). assert (V0 := units_val _ E0). assert (V1 := units_val _ E1).
  assert (W : 0 < bpow radix2 1074) by apply bpow_gt_0. set (w := bpow radix2 1074) in *.
  assert (ND := stretch_det _ _ _ _ sg ltac:(lra) ST). set (dt := fval J00 * fval J11 - fval J01 * fval J10) in *.
  assert (ID : IZR (units J00 * units J11 - units J01 * units J10) = dt * w * w) by (rewrite minus_IZR, !mult_IZR, U00, U01, U10, U11; unfold dt; ring).
  assert (IX : IZR (units r0 * units J11 - units J01 * units r1) = (fval r0 * fval J11 - fval J01 * fval r1) * w * w) by (rewrite minus_IZR, !mult_IZR, U01, U11, V0, V1; ring).
  assert (IY : IZR (units J00 * units r1 - units r0 * units J10) = (fval J00 * fval r1 - fval r0 * fval J10) * w * w) by (rewrite minus_IZR, !mult_IZR, U00, U10, V0, V1; ring).
  assert (NZ : (units J00 * units J11 - units J01 * units J10)%Z <> 0%Z) by (intros Z; rewrite Z in ID; symmetry in ID; apply Rmult_integral in ID; destruct ID as [ID|ID]; [apply Rmult_integral in ID; destruct ID; lra|lra]).
  set (z0 := (fval r0 * fval J11 - fval J01 * fval r1) / dt). set (z1 := (fval J00 * fval r1 - fval r0 * fval J10) / dt).
  assert (Z0 : fval J00 * z0 + fval J01 * z1 = fval r0) by (unfold z0, z1, dt; field; exact ND). assert (Z1 : fval J10 * z0 + fval J11 * z1 = fval r1) by (unfold z0, z1, dt; field; exact ND).
  assert (BZ : nm z0 z1 <= 20000000). { assert (S := ST z0 z1). rewrite Z0, Z1 in S. assert (N := nm_le _ _ _ B0 B1). assert (P := nm_pos z0 z1). assert (/ 1000000 * nm z0 z1 <= sg * nm z0 z1) by (apply Rmult_le_compat_r; lra). lra. }
  assert (BIG : 20000000 <= bpow radix2 700) by (apply Rle_trans with (bpow radix2 30); [simpl; lra|apply bpow_le; lia]).
  assert (L := nm_l z0 z1). assert (R := nm_r z0 z1).
  assert (Q0 : IZR (units r0 * units J11 - units J01 * units r1) / IZR (units J00 * units J11 - units J01 * units J10) = z0) by (rewrite IX, ID; unfold z0; field; lra).
  assert (Q1 : IZR (units J00 * units r1 - units r0 * units J10) / IZR (units J00 * units J11 - units J01 * units J10) = z1) by (rewrite IY, ID; unfold z1; field; lra).
  assert (N0 := quot_near (units r0 * units J11 - units J01 * units r1) _ NZ ltac:(rewrite Q0; lra)). assert (N1 := quot_near (units J00 * units r1 - units r0 * units J10) _ NZ ltac:(rewrite Q1; lra)).
  rewrite Q0 in N0. rewrite Q1 in N1. unfold r, exact2. cbn [nth g_info g_rhs].
  destruct ((units J00 =? 0) && (units J01 =? 0) && (units J10 =? 0) && (units J11 =? 0))%Z eqn:EZ.
  { exfalso. rewrite !andb_true_iff, !Z.eqb_eq in EZ. destruct EZ as [[[Z00 Z01] Z10] Z11]. apply NZ. rewrite Z00, Z01. reflexivity. }
  assert (EN : (units J00 * units J11 - units J01 * units J10 =? 0)%Z = false) by (apply Z.eqb_neq; auto). rewrite EN.
  split; auto. split; [apply N0|]. split; [apply N1|]. intros y0 y1 Y0 Y1.
  assert (A0 : y0 = z0) by (unfold z0; rewrite <- Y0, <- Y1; unfold dt; field; exact ND). assert (A1 : y1 = z1) by (unfold z1; rewrite <- Y0, <- Y1; unfold dt; field; exact ND).
  rewrite A0, A1. split; [apply N0|apply N1].
Qed.

Theorem clip2_flow : flow2 clip2.
Proof.
  split; [exact clip2_finite|]. split; [exact clip2_axis|]. split; [exact clip2_residual|]. split.
  - intros J00 J01 J10 J11 r0 r1 lw z0 z1 D00 D01 D10 D11 E0 E1 _ _ _ _ B0 B1 ST Z0 Z1 r.
    destruct (exact2_near _ J00 J01 J10 J11 r0 r1 lw (Rle_refl _) D00 D01 D10 D11 E0 E1 B0 B1 ST) as (I & X0 & X1 & N). cbv zeta in *.
    destruct (clip2_same 2 2 [J00; J01; J10; J11] 2 [r0; r1] 2 lw X0 X1) as (_ & S0 & S1). unfold r. rewrite S0, S1. destruct (N z0 z1 Z0 Z1) as [N0 N1].
    assert (L := nm_l z0 z1). assert (R := nm_r z0 z1). assert (P := nm_pos z0 z1).
    assert (U1 : uround * Rabs z0 <= uround * nm z0 z1) by (apply Rmult_le_compat_l; auto; unfold uround; lra). assert (U2 : uround * Rabs z1 <= uround * nm z0 z1) by (apply Rmult_le_compat_l; auto; unfold uround; lra).
    assert (U3 : 0 <= uround * nm z0 z1) by (apply Rmult_le_pos; auto; unfold uround; lra). assert (U4 : 0 < uround) by (unfold uround; lra).
    split; auto. split; auto. split; lra.
  - intros J00 J01 J10 J11 r0 r1 lw D00 D01 D10 D11 E0 E1 _ _ _ _ B0 B1 ST.
    destruct (exact2_near _ J00 J01 J10 J11 r0 r1 lw (Rle_refl _) D00 D01 D10 D11 E0 E1 B0 B1 ST) as (I & X0 & X1 & N). cbv zeta in *.
    destruct (clip2_same 2 2 [J00; J01; J10; J11] 2 [r0; r1] 2 lw X0 X1) as (EI & _). rewrite EI, I. lia.
Qed.
