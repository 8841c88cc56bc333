(** Rectangular grids in IEEE double arithmetic. *)
From Coq Require Import ZArith List Bool Reals Lra Lia Floats.SpecFloat.
From Flocq Require Import Core BinarySingleNaN.
From Verif Require Import Base Num NumR NumF M_Grids L_Float L_FloatOps L_OctreeF.
Import ListNotations.
Open Scope R_scope.

(** The node i of an axis with n nodes from x0 to x1. *)
Definition axisF (x0 x1 : spec_float) (n i : Z) : spec_float := nadd x0 (nmul (ndiv (nsub x1 x0) (nofZ (n - 1))) (nofZ i)).
Definition axisR (x0 x1 : R) (n i : Z) : R := rnd (x0 + rnd (rnd (rnd (x1 - x0) / IZR (n - 1)) * IZR i)).

Lemma axis_val : forall x0 x1 n i, modest x0 -> modest x1 -> (2 <= n < 2 ^ 31)%Z -> (0 <= i < n)%Z ->
  dbl (axisF x0 x1 n i) /\ fval (axisF x0 x1 n i) = axisR (fval x0) (fval x1) n i.
Proof.
  intros x0 x1 n i M0 M1 Hn Hi. destruct (modest_sub x1 x0 M1 M0) as (D1 & V1 & B1).
  destruct (f_ofZ (n - 1) ltac:(lia)) as [Dn Vn]. destruct (f_ofZ i ltac:(lia)) as [Di Vi].
  assert (P1 : 1 <= IZR (n - 1)) by (apply IZR_le; lia).
  assert (Pi : 0 <= IZR i <= 2147483648) by (split; apply IZR_le; lia).
  assert (B2 : Rabs (rnd (fval x1 - fval x0) / IZR (n - 1)) <= bpow radix2 991).
  { unfold Rdiv. rewrite Rabs_mult, (Rabs_pos_eq (/ _)) by (left; apply Rinv_0_lt_compat; lra). eapply Rle_trans; [|exact B1].
    rewrite <- (Rmult_1_r (Rabs (rnd _))) at 2. apply Rmult_le_compat_l; [apply Rabs_pos|]. rewrite <- Rinv_1. apply Rinv_le_contravar; lra. }
  destruct (f_div (nsub x1 x0) (nofZ (n - 1)) D1 Dn) as [D2 V2]; [rewrite Vn; lra|rewrite V1, Vn; eapply Rle_trans; [exact B2|apply bpow_le; lia]|].
  rewrite V1, Vn in V2.
  assert (B3 : Rabs (rnd (rnd (fval x1 - fval x0) / IZR (n - 1))) <= bpow radix2 991) by (apply rnd_big; auto; lia).
  assert (I1 : IZR i / IZR (n - 1) <= 1).
  { apply (Rmult_le_reg_r (IZR (n - 1))); [lra|]. unfold Rdiv. rewrite Rmult_assoc, Rinv_l, Rmult_1_r, Rmult_1_l by lra. apply IZR_le. lia. }
  set (l := rnd (fval x1 - fval x0)) in *.
  assert (B4 : Rabs (rnd (l / IZR (n - 1)) * IZR i) <= bpow radix2 994).
  { rewrite Rabs_mult, (Rabs_pos_eq (IZR i)) by lra.
    assert (E := rnd_error (l / IZR (n - 1))). set (q := l / IZR (n - 1)) in *.
    assert (Rabs (rnd q) <= 2 * Rabs q + etiny).
    { replace (rnd q) with (rnd q - q + q) by ring. eapply Rle_trans; [apply Rabs_triang|]. unfold uround in E. assert (P := Rabs_pos q). lra. }
    assert (QI : Rabs q * IZR i <= bpow radix2 991).
    { unfold q, Rdiv. rewrite Rabs_mult, (Rabs_pos_eq (/ _)) by (left; apply Rinv_0_lt_compat; lra). rewrite Rmult_assoc.
      eapply Rle_trans; [|exact B1]. rewrite <- (Rmult_1_r (Rabs l)) at 2. apply Rmult_le_compat_l; [apply Rabs_pos|]. rewrite Rmult_comm. exact I1. }
    apply Rle_trans with ((2 * Rabs q + etiny) * IZR i); [apply Rmult_le_compat_r; lra|].
    assert (ET : etiny * IZR i <= bpow radix2 991).
    { apply Rle_trans with (bpow radix2 (-1074) * bpow radix2 31).
      - unfold etiny. apply Rmult_le_compat_l; [apply bpow_ge_0|]. change (bpow radix2 31) with 2147483648. lra.
      - rewrite <- bpow_plus. apply bpow_le. lia. }
    change 994%Z with (3 + 991)%Z. rewrite bpow_plus. change (bpow radix2 3) with 8.
    assert (PB := bpow_gt_0 radix2 991). lra. }
  destruct (f_mul (ndiv (nsub x1 x0) (nofZ (n - 1))) (nofZ i) D2 Di) as [D3 V3].
  { rewrite V2, Vi. eapply Rle_trans; [exact B4|apply bpow_le; lia]. }
  rewrite V2, Vi in V3. destruct M0 as [D0 B0].
  destruct (f_add x0 (nmul (ndiv (nsub x1 x0) (nofZ (n - 1))) (nofZ i)) D0 D3) as [D4 V4].
  { rewrite V3. eapply Rle_trans; [apply Rabs_triang|]. assert (B5 := rnd_big _ 994 ltac:(lia) ltac:(lia) B4).
    assert (bpow radix2 990 <= bpow radix2 994) by (apply bpow_le; lia).
    apply Rle_trans with (bpow radix2 995); [|apply bpow_le; lia]. change 995%Z with (1 + 994)%Z. rewrite bpow_plus. change (bpow radix2 1) with 2. lra. }
  rewrite V3 in V4. split; auto.
Qed.

(** The first node is the bound itself, and the nodes are in order. *)
Lemma axis_first : forall x0 x1 n, dbl x0 -> axisR (fval x0) x1 n 0 = fval x0.
Proof. intros. unfold axisR. rewrite Rmult_0_r, (rnd_Z 0), Rplus_0_r by lia. apply rnd_id. auto. Qed.

Lemma axis_mono : forall x0 x1 n i j, x0 <= x1 -> (2 <= n)%Z -> (0 <= i <= j)%Z -> axisR x0 x1 n i <= axisR x0 x1 n j.
Proof.
  intros x0 x1 n i j H Hn Hi. unfold axisR. apply rnd_le, Rplus_le_compat_l, rnd_le, Rmult_le_compat_l; [|apply IZR_le; lia].
  assert (Z0 : 0 = rnd 0) by (rewrite (rnd_Z 0) by lia; reflexivity).
  rewrite Z0. apply rnd_le. apply Rmult_le_pos; [rewrite Z0; apply rnd_le; lra|]. left. apply Rinv_0_lt_compat. apply IZR_lt. lia.
Qed.

(** Distance to the exact position. *)
Definition axis_tol (x0 x1 : R) : R := (Rabs x0 + Rabs x1) * / 1125899906842624 + bpow radix2 (-1040).

Lemma axis_error : forall x0 x1 n i, (2 <= n < 2 ^ 31)%Z -> (0 <= i < n)%Z ->
  Rabs (axisR x0 x1 n i - (x0 + (x1 - x0) * IZR i / IZR (n - 1))) <= axis_tol x0 x1.
Proof.
  intros x0 x1 n i Hn Hi. unfold axisR.
  assert (P1 : 1 <= IZR (n - 1)) by (apply IZR_le; lia).
  assert (Pi : 0 <= IZR i <= 2147483648) by (split; apply IZR_le; lia).
  set (m := IZR (n - 1)) in *. set (t := IZR i / m).
  assert (T : 0 <= t <= 1).
  { unfold t. split; [apply Rmult_le_pos; [lra|left; apply Rinv_0_lt_compat; lra]|].
    apply (Rmult_le_reg_r m); [lra|]. unfold Rdiv. rewrite Rmult_assoc, Rinv_l, Rmult_1_r, Rmult_1_l by lra. apply IZR_le. lia. }
  replace ((x1 - x0) * IZR i / m) with ((x1 - x0) * t) by (unfold t; field; lra).
  set (l := rnd (x1 - x0)). assert (E1 := rnd_error (x1 - x0)). fold l in E1.
  set (dx := rnd (l / m)). assert (E2 := rnd_error (l / m)). fold dx in E2.
  set (p := rnd (dx * IZR i)). assert (E3 := rnd_error (dx * IZR i)). fold p in E3.
  assert (E4 := rnd_error (x0 + p)).
  assert (PE : 0 < etiny) by apply bpow_gt_0. set (h := etiny * 2147483648).
  assert (PH : 8 * h <= bpow radix2 (-1040)).
  { unfold h, etiny. change 2147483648 with (bpow radix2 31). change 8 with (bpow radix2 3). rewrite <- !bpow_plus. apply bpow_le. lia. }
  assert (Eh : etiny <= h) by (unfold h; lra).
  set (M := Rabs x0 + Rabs x1). assert (DM : Rabs (x1 - x0) <= M) by (unfold M, Rminus; eapply Rle_trans; [apply Rabs_triang|rewrite Rabs_Ropp; lra]).
  assert (M0 : 0 <= Rabs x1) by apply Rabs_pos.
  assert (L1 : Rabs l <= M + uround * M + h).
  { replace l with (l - (x1 - x0) + (x1 - x0)) by ring. eapply Rle_trans; [apply Rabs_triang|]. unfold uround in *. lra. }
  assert (F2 : Rabs (dx * IZR i - l * t) <= uround * Rabs l + h).
  { replace (dx * IZR i - l * t) with ((dx - l / m) * IZR i) by (unfold t; field; lra). rewrite Rabs_mult, (Rabs_pos_eq (IZR i)) by lra.
    apply Rle_trans with ((uround * Rabs (l / m) + etiny) * IZR i); [apply Rmult_le_compat_r; lra|].
    assert (Q : Rabs (l / m) * IZR i = Rabs l * t) by (unfold Rdiv; rewrite Rabs_mult, (Rabs_pos_eq (/ m)) by (left; apply Rinv_0_lt_compat; lra); unfold t; field; lra).
    rewrite Rmult_plus_distr_r, Rmult_assoc, Q. apply Rplus_le_compat.
    - apply Rmult_le_compat_l; [unfold uround; lra|]. rewrite <- (Rmult_1_r (Rabs l)) at 2. apply Rmult_le_compat_l; [apply Rabs_pos|lra].
    - unfold h. apply Rmult_le_compat_l; lra. }
  assert (F1 : Rabs (l * t - (x1 - x0) * t) <= uround * M + h).
  { replace (l * t - (x1 - x0) * t) with ((l - (x1 - x0)) * t) by ring. rewrite Rabs_mult, (Rabs_pos_eq t) by lra.
    apply Rle_trans with (Rabs (l - (x1 - x0)) * 1); [apply Rmult_le_compat_l; [apply Rabs_pos|lra]|]. unfold uround in *. lra. }
  assert (A1 : Rabs (l * t) <= Rabs l) by (rewrite Rabs_mult, (Rabs_pos_eq t) by lra; rewrite <- (Rmult_1_r (Rabs l)) at 2; apply Rmult_le_compat_l; [apply Rabs_pos|lra]).
  set (A := dx * IZR i) in *. set (Y := l * t) in *. set (X := (x1 - x0) * t) in *.
  assert (A2 : Rabs A <= Rabs l + uround * Rabs l + h).
  { replace A with (A - Y + Y) by ring. eapply Rle_trans; [apply Rabs_triang|]. lra. }
  assert (A3 : Rabs p <= Rabs A + uround * Rabs A + h).
  { replace p with (p - A + A) by ring. eapply Rle_trans; [apply Rabs_triang|]. lra. }
  assert (A4 : Rabs (x0 + p) <= M + Rabs p) by (eapply Rle_trans; [apply Rabs_triang|unfold M; lra]).
  replace (rnd (x0 + p) - (x0 + X)) with ((rnd (x0 + p) - (x0 + p)) + ((p - A) + ((A - Y) + (Y - X)))) by ring.
  eapply Rle_trans; [apply Rabs_triang|]. assert (TT := Rabs_triang (p - A) (A - Y + (Y - X))). assert (TU := Rabs_triang (A - Y) (Y - X)).
  unfold axis_tol. fold M. unfold uround in *. clearbody h M A Y X p l dx. clear - E1 E2 E3 E4 PE PH Eh DM M0 L1 F2 F1 A1 A2 A3 A4 TT TU.
  assert (H0 := Rabs_pos (rnd (x0 + p) - (x0 + p))). lra.
Qed.

(** Exact when the spacing is a whole number of steps 2^e. *)
Lemma axis_exact : forall e x0 x1 a b n k i, (-900 <= e <= 900)%Z -> steps e x0 a -> steps e x1 b -> (2 <= n < 2 ^ 31)%Z -> (b - a = (n - 1) * k)%Z -> (0 <= i < n)%Z ->
  axisR (fval x0) (fval x1) n i = IZR (a + k * i) * bpow radix2 e.
Proof.
  intros e x0 x1 a b n k i He (D0 & B0 & E0) (D1 & B1 & E1) Hn Hk Hi. unfold axisR. rewrite E0, E1.
  assert (P1 : 1 <= IZR (n - 1)) by (apply IZR_le; lia).
  assert (Bk : (Z.abs k <= 2 ^ 53)%Z) by nia.
  assert (Bi : (Z.abs (k * i) <= 2 ^ 53)%Z) by nia.
  assert (Bs : (Z.abs (a + k * i) <= 2 ^ 52)%Z).
  { destruct (Z.le_gt_cases 0 k); [assert (0 <= k * i <= b - a)%Z by nia|assert (b - a <= k * i <= 0)%Z by nia]; lia. }
  replace (IZR b * bpow radix2 e - IZR a * bpow radix2 e) with (IZR (b - a) * bpow radix2 e) by (rewrite minus_IZR; ring).
  rewrite (rnd_format (IZR (b - a) * bpow radix2 e)) by (apply format_ZE; lia).
  rewrite Hk, mult_IZR. replace (IZR (n - 1) * IZR k * bpow radix2 e / IZR (n - 1)) with (IZR k * bpow radix2 e) by (field; lra).
  rewrite (rnd_format (IZR k * bpow radix2 e)) by (apply format_ZE; lia).
  replace (IZR k * bpow radix2 e * IZR i) with (IZR (k * i) * bpow radix2 e) by (rewrite mult_IZR; ring).
  rewrite (rnd_format (IZR (k * i) * bpow radix2 e)) by (apply format_ZE; lia).
  replace (IZR a * bpow radix2 e + IZR (k * i) * bpow radix2 e) with (IZR (a + k * i) * bpow radix2 e) by (rewrite plus_IZR; ring).
  apply rnd_format, format_ZE; lia.
Qed.
