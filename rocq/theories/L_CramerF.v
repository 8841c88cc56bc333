(** Cramer's rule on 2 x 2 systems in IEEE double arithmetic: how far the result is from the exact solution. *)
From Coq Require Import ZArith List Bool Reals Lra Lia Floats.SpecFloat.
From Flocq Require Import Core BinarySingleNaN.
From Verif Require Import Base Num NumR NumF M_LinearSolve L_Cramer L_Float L_FloatOps L_FindPointF L_NodeInterpF L_AffineF.
Import ListNotations.
Open Scope R_scope.

(** A difference of two products. *)
Lemma cross_F : forall p q r s k l, dbl p -> dbl q -> dbl r -> dbl s -> Rabs (fval p) <= k -> Rabs (fval r) <= k -> Rabs (fval q) <= l -> Rabs (fval s) <= l ->
  k <= bpow radix2 410 -> l <= bpow radix2 410 ->
  dbl (nsub (nmul p q) (nmul r s)) /\ Rabs (fval (nsub (nmul p q) (nmul r s)) - (fval p * fval q - fval r * fval s)) <= 6 * uround * (k * l) + 4 * etiny.
Proof.
  intros p q r s k l Dp Dq Dr Ds Bp Br Bq Bs Hk Hl. assert (Pe := etiny_pos). assert (PL := etiny_lt).
  assert (X := prod_le _ _ _ _ Bp Bq). assert (Y := prod_le _ _ _ _ Br Bs). set (m := k * l) in *.
  assert (M0 : 0 <= m) by (assert (Q := Rabs_pos (fval p * fval q)); lra).
  assert (MM : m <= bpow radix2 820).
  { change 820%Z with (410 + 410)%Z. rewrite bpow_plus. apply Rmult_le_compat; auto; [assert (Q := Rabs_pos (fval p)); lra|assert (Q := Rabs_pos (fval q)); lra]. }
  assert (K : bpow radix2 820 * 16 <= bpow radix2 1000) by (change 16 with (bpow radix2 4); rewrite <- bpow_plus; apply bpow_le; lia).
  assert (K1 : 1 <= bpow radix2 820) by (change 1 with (bpow radix2 0); apply bpow_le; lia).
  destruct (f_mul p q Dp Dq ltac:(lra)) as [D1 V1]. destruct (f_mul r s Dr Ds ltac:(lra)) as [D2 V2].
  assert (E1 := rnd_error (fval p * fval q)). assert (E2 := rnd_error (fval r * fval s)). rewrite <- V1 in E1. rewrite <- V2 in E2.
  set (pq := fval p * fval q) in *. set (rs := fval r * fval s) in *. set (X1 := fval (nmul p q)) in *. set (Y1 := fval (nmul r s)) in *.
  assert (E1' : Rabs (X1 - pq) <= uround * m + etiny) by (assert (T : uround * Rabs pq <= uround * m) by (apply Rmult_le_compat_l; [unfold uround; lra|auto]); lra).
  assert (E2' : Rabs (Y1 - rs) <= uround * m + etiny) by (assert (T : uround * Rabs rs <= uround * m) by (apply Rmult_le_compat_l; [unfold uround; lra|auto]); lra).
  assert (XY : Rabs (X1 - Y1) <= 2 * m + 2 * (uround * m + etiny)).
  { replace (X1 - Y1) with ((pq + - rs) + ((X1 - pq) + - (Y1 - rs))) by ring.
    replace (2 * m + 2 * (uround * m + etiny)) with ((m + m) + ((uround * m + etiny) + (uround * m + etiny))) by ring.
    apply Rabs_split; apply Rabs_split; auto; rewrite Rabs_Ropp; auto. }
  destruct (f_sub (nmul p q) (nmul r s) D1 D2) as [D3 V3]; [fold X1 Y1; unfold uround in *; lra|]. split; auto. rewrite V3. fold X1 Y1.
  assert (E3 := rnd_error (X1 - Y1)). assert (T : uround * Rabs (X1 - Y1) <= uround * (2 * m + 2 * (uround * m + etiny))) by (apply Rmult_le_compat_l; [unfold uround; lra|auto]).
  replace (rnd (X1 - Y1) - (pq - rs)) with ((rnd (X1 - Y1) - (X1 - Y1)) + ((X1 - pq) + - (Y1 - rs))) by ring.
  eapply Rle_trans; [apply Rabs_split; [exact E3|apply Rabs_split; [exact E1'|rewrite Rabs_Ropp; exact E2']]|].
  assert (T2 : uround * (2 * m + 2 * (uround * m + etiny)) <= 3 * (uround * m) + etiny / 2) by (unfold uround in *; lra). assert (T3 : 0 <= uround * m) by (apply Rmult_le_pos; [unfold uround; lra|auto]). lra.
Qed.

(** The determinant of a matrix that stretches. *)
Lemma det_big : forall a b c d sg, 0 < sg -> (forall u v, sg * nm u v <= nm (a * u + b * v) (c * u + d * v)) -> sg * sg <= Rabs (a * d - b * c).
Proof.
  intros a b c d sg S H.
  assert (H1 := H d (- c)). replace (a * d + b * - c) with (a * d - b * c) in H1 by ring. replace (c * d + d * - c) with 0 in H1 by ring.
  assert (H2 := H (- b) a). replace (a * - b + b * a) with 0 in H2 by ring. replace (c * - b + d * a) with (a * d - b * c) in H2 by ring.
  assert (H3 := H 1 0). replace (a * 1 + b * 0) with a in H3 by ring. replace (c * 1 + d * 0) with c in H3 by ring.
  set (D := Rabs (a * d - b * c)) in *. assert (D0 : 0 <= D) by apply Rabs_pos.
  unfold nm in H1 at 2. rewrite Rabs_R0, Rmax_left in H1 by apply Rabs_pos. fold D in H1. unfold nm in H2 at 2. rewrite Rabs_R0, Rmax_right in H2 by apply Rabs_pos. fold D in H2.
  assert (N1 : nm 1 0 = 1) by (unfold nm; rewrite Rabs_R1, Rabs_R0, Rmax_left; lra). rewrite N1 in H3.
  assert (C1 : Rabs c <= nm d (- c)) by (rewrite <- (Rabs_Ropp c); apply nm_r). assert (A1 : Rabs a <= nm (- b) a) by apply nm_r.
  unfold nm in H3. destruct (Rle_dec (Rabs a) (Rabs c)) as [L|L]; [rewrite Rmax_right in H3 by auto|rewrite Rmax_left in H3 by lra]; nra.
Qed.

Theorem cramer_accurate : forall bnd sg kap, bnd <= bpow radix2 405 -> bpow radix2 (-500) <= sg -> bnd <= kap * sg -> 48 * uround * kap ^ 2 <= 1 / 16 ->
  accurate2 cramer bnd sg (48 * uround * kap ^ 2) (bpow radix2 (-69)).
Proof.
  intros bnd sg kap HB HS HK HE J00 J01 J10 J11 r0 r1 lw z0 z1 D00 D01 D10 D11 DR0 DR1 B00 B01 B10 B11 BR0 BR1 ST Z0 Z1.
  cbn [cramer g_rhs nth Z.eqb Nat.add Nat.mul Z.to_nat]. change (Pos.eqb 2 1) with false. cbv iota.
  change (Pos.to_nat 2) with 2%nat. cbn [nth Nat.add Nat.mul].
  assert (Pe := etiny_pos). assert (PL := etiny_lt). assert (UP : 0 < uround) by (unfold uround; lra).
  assert (SP : 0 < sg) by (assert (Q := bpow_gt_0 radix2 (-500)); lra).
  assert (DB := det_big _ _ _ _ sg SP ST).
  assert (B0 : 0 <= bnd) by (assert (Q := Rabs_pos (fval J00)); lra). 
  assert (KP : 1 / 2 <= kap).
  { assert (Q := ST 1 0). assert (N1 : nm 1 0 = 1) by (unfold nm; rewrite Rabs_R1, Rabs_R0, Rmax_left; lra). rewrite N1 in Q.
    assert (N2 : nm (fval J00 * 1 + fval J01 * 0) (fval J10 * 1 + fval J11 * 0) <= bnd) by (apply nm_le; [replace (fval J00 * 1 + fval J01 * 0) with (fval J00) by ring|replace (fval J10 * 1 + fval J11 * 0) with (fval J10) by ring]; auto).
    assert (T : 1 * sg <= kap * sg) by lra. apply Rmult_le_reg_r in T; lra. }
  set (Z := nm z0 z1). assert (ZP : 0 <= Z) by apply nm_pos.
  assert (RB : forall p q r, Rabs p <= bnd -> Rabs q <= bnd -> p * z0 + q * z1 = r -> Rabs r <= 2 * bnd * Z).
  { intros p q r Hp Hq <-. replace (2 * bnd * Z) with (bnd * Z + bnd * Z) by ring. apply Rabs_split; apply prod_le; auto; [apply nm_l|apply nm_r]. }
  assert (R0 := RB _ _ _ B00 B01 Z0). assert (R1 := RB _ _ _ B10 B11 Z1).
  assert (B410 : bnd <= bpow radix2 410) by (eapply Rle_trans; [exact HB|apply bpow_le; lia]).
  set (rb := Rmin bnd (2 * bnd * Z)). assert (RR0 : Rabs (fval r0) <= rb) by (apply Rmin_glb; auto). assert (RR1 : Rabs (fval r1) <= rb) by (apply Rmin_glb; auto).
  assert (RB1 : rb <= bpow radix2 410) by (eapply Rle_trans; [apply Rmin_l|auto]). assert (RB2 : rb <= 2 * bnd * Z) by apply Rmin_r. clearbody rb.
  destruct (cross_F J00 J11 J01 J10 bnd bnd) as [Dd Ed]; auto. destruct (cross_F r0 J11 r1 J01 rb bnd) as [Dn0 En0]; auto. destruct (cross_F r1 J00 r0 J10 rb bnd) as [Dn1 En1]; auto.
  set (dd := nsub (nmul J00 J11) (nmul J01 J10)) in *. set (n0' := nsub (nmul r0 J11) (nmul r1 J01)) in *. set (n1' := nsub (nmul r1 J00) (nmul r0 J10)) in *.
  set (det := fval J00 * fval J11 - fval J01 * fval J10) in *.
  assert (X0 : fval r0 * fval J11 - fval r1 * fval J01 = z0 * det) by (rewrite <- Z0, <- Z1; unfold det; ring).
  assert (X1 : fval r1 * fval J00 - fval r0 * fval J10 = z1 * det) by (rewrite <- Z0, <- Z1; unfold det; ring).
  rewrite X0 in En0. rewrite X1 in En1.
  assert (KB : bnd * bnd <= kap ^ 2 * (sg * sg)) by (replace (kap ^ 2 * (sg * sg)) with ((kap * sg) * (kap * sg)) by ring; apply Rmult_le_compat; auto).
  set (S2 := sg * sg) in *. assert (S2P : bpow radix2 (-1000) <= S2) by (change (-1000)%Z with (-500 + -500)%Z; rewrite bpow_plus; apply Rmult_le_compat; auto; apply bpow_ge_0).
  assert (ET : etiny <= bpow radix2 (-74) * S2).
  { apply Rle_trans with (bpow radix2 (-74) * bpow radix2 (-1000)); [right; unfold etiny; rewrite <- bpow_plus; reflexivity|apply Rmult_le_compat_l; [apply bpow_ge_0|auto]]. }
  assert (S2Q : 0 < S2) by (assert (Q := bpow_gt_0 radix2 (-1000)); lra).
  change (bpow radix2 (-74)) with (/ 18889465931478580854784) in ET. change (bpow radix2 (-69)) with (/ 590295810358705651712).
  set (q := uround * kap ^ 2) in *. assert (Q1 : 48 * q <= 1 / 16) by (unfold q; lra). assert (Q0 : uround / 4 <= q) by (unfold q; assert (1 / 4 <= kap ^ 2) by nra; unfold uround in *; lra).
  assert (UB : uround * (bnd * bnd) <= q * S2) by (unfold q; assert (T : uround * (bnd * bnd) <= uround * (kap ^ 2 * S2)) by (apply Rmult_le_compat_l; lra); lra).
  assert (Ed' : Rabs (fval dd - det) <= 6 * (q * S2) + 4 * etiny) by lra.
  assert (UN : uround * (rb * bnd) <= 2 * (q * S2) * Z).
  { apply Rle_trans with (uround * (2 * bnd * Z * bnd)); [apply Rmult_le_compat_l; [lra|]; apply Rmult_le_compat_r; auto|].
    replace (uround * (2 * bnd * Z * bnd)) with (2 * Z * (uround * (bnd * bnd))) by ring. replace (2 * (q * S2) * Z) with (2 * Z * (q * S2)) by ring. apply Rmult_le_compat_l; lra. }
  assert (QS : 40 * (q * S2) <= S2 / 16) by nra.
  assert (DD : S2 / 2 <= Rabs (fval dd)).
  { assert (T := Rabs_triang_inv det (det - fval dd)). replace (det - (det - fval dd)) with (fval dd) in T by ring. rewrite (Rabs_minus_sym det) in T. lra. }
  assert (NZ : fval dd <> 0) by (intros E; rewrite E, Rabs_R0 in DD; lra).
  assert (ZB : Z <= bpow radix2 905).
  { apply (Rmult_le_reg_l sg); auto. eapply Rle_trans; [exact (ST z0 z1)|]. rewrite Z0, Z1. apply Rle_trans with bnd; [apply nm_le; auto|].
    apply Rle_trans with (bpow radix2 (-500) * bpow radix2 905); [rewrite <- bpow_plus; exact HB|apply Rmult_le_compat_r; [apply bpow_ge_0|auto]]. }
  assert (MAIN : forall n z, dbl n -> Rabs z <= Z -> Rabs (fval n - z * det) <= 6 * uround * (rb * bnd) + 4 * etiny ->
    dbl (ndiv n dd) /\ Rabs (fval (ndiv n dd) - z) <= 48 * uround * kap ^ 2 * Z + / 590295810358705651712).
  { intros n z Dn Bz En.
    assert (EE : Rabs (fval n - z * fval dd) <= 18 * (q * S2) * Z + 4 * etiny * (1 + Z)).
    { replace (fval n - z * fval dd) with ((fval n - z * det) + - (z * (fval dd - det))) by ring.
      assert (T := prod_le _ _ _ _ Bz Ed'). eapply Rle_trans; [apply Rabs_split; [exact En|rewrite Rabs_Ropp; exact T]|]. lra. }
    assert (QQ : Rabs (fval n / fval dd - z) <= 36 * q * Z + 8 * / 18889465931478580854784 * (1 + Z)).
    { replace (fval n / fval dd - z) with ((fval n - z * fval dd) * / fval dd) by (field; auto). rewrite Rabs_mult, Rabs_inv.
      apply (Rmult_le_reg_r (Rabs (fval dd))); [lra|]. rewrite Rmult_assoc, Rinv_l, Rmult_1_r by lra. eapply Rle_trans; [exact EE|].
      set (w := 36 * q * Z + 8 * / 18889465931478580854784 * (1 + Z)). assert (W0 : 0 <= w) by (unfold w; assert (0 <= q * Z) by (apply Rmult_le_pos; [unfold uround in *; lra|auto]); lra).
      apply Rle_trans with (w * (S2 / 2)); [|apply Rmult_le_compat_l; auto]. unfold w.
      assert (T : etiny * (1 + Z) <= / 18889465931478580854784 * S2 * (1 + Z)) by (apply Rmult_le_compat_r; lra). lra. }
    assert (P0 : 0 <= q * Z) by (apply Rmult_le_pos; [unfold uround in *; lra|auto]).
    assert (UZ : uround * Z <= 4 * (q * Z)) by (replace (4 * (q * Z)) with (4 * q * Z) by ring; apply Rmult_le_compat_r; lra).
    assert (AB : Rabs (fval n / fval dd) <= Z + (36 * q * Z + 8 * / 18889465931478580854784 * (1 + Z))) by (replace (fval n / fval dd) with (z + (fval n / fval dd - z)) by ring; apply Rabs_split; auto).
    assert (QZ : q * Z <= Z / 640) by nra.
    destruct (f_div n dd Dn Dd NZ) as [Dq Vq].
    { eapply Rle_trans; [exact AB|]. apply Rle_trans with (4 * bpow radix2 905 + 4); [lra|].
      assert (G : bpow radix2 1000 = bpow radix2 95 * bpow radix2 905) by (rewrite <- bpow_plus; reflexivity).
      assert (G1 : 1 <= bpow radix2 905) by (change 1 with (bpow radix2 0); apply bpow_le; lia).
      assert (G2 : 8 <= bpow radix2 95) by (change 8 with (bpow radix2 3); apply bpow_le; lia).
      rewrite G. apply Rle_trans with (8 * bpow radix2 905); [lra|]. apply Rmult_le_compat_r; lra. }
    split; auto. rewrite Vq. assert (Er := rnd_error (fval n / fval dd)).
    assert (UA : uround * Rabs (fval n / fval dd) <= uround * (Z + (36 * q * Z + 8 * / 18889465931478580854784 * (1 + Z)))) by (apply Rmult_le_compat_l; lra).
    replace (rnd (fval n / fval dd) - z) with ((rnd (fval n / fval dd) - fval n / fval dd) + (fval n / fval dd - z)) by ring.
    eapply Rle_trans; [apply Rabs_split; [exact Er|exact QQ]|]. replace (48 * uround * kap ^ 2 * Z) with (48 * (q * Z)) by (unfold q; ring).
    assert (UQ : uround * (q * Z) <= uround * (Z / 640)) by (apply Rmult_le_compat_l; lra).
    clear - UA UQ UZ P0 ZP PL Pe Q0. assert (T : uround * (36 * q * Z) = 36 * (uround * (q * Z))) by ring. 
    assert (SZ : / 18889465931478580854784 * Z <= q * Z / 8) by (replace (q * Z / 8) with (q / 8 * Z) by field; apply Rmult_le_compat_r; auto; unfold uround in *; lra).
    assert (UB : uround * Rabs (fval n / fval dd) <= uround * Z + 36 * (uround * (Z / 640)) + 8 * / 18889465931478580854784 * (1 + Z)).
    { eapply Rle_trans; [exact UA|]. rewrite !Rmult_plus_distr_l, T.
      assert (K : uround * (8 * / 18889465931478580854784 * 1) + uround * (8 * / 18889465931478580854784 * Z) <= 8 * / 18889465931478580854784 * 1 + 8 * / 18889465931478580854784 * Z) by (unfold uround; lra). lra. }
    assert (EB : etiny <= / 590295810358705651712 / 64).
    { unfold etiny. apply Rle_trans with (bpow radix2 (-75)); [apply bpow_le; lia|]. change (bpow radix2 (-75)) with (/ 37778931862957161709568). lra. }
    lra. }
  destruct (MAIN n0' z0 Dn0 (nm_l z0 z1) En0) as [F1 F2]. destruct (MAIN n1' z1 Dn1 (nm_r z0 z1) En1) as [F3 F4]. auto.
Qed.
