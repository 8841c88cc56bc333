(** The point search on grids that are affine up to rounding, in IEEE double arithmetic. *)
From Coq Require Import ZArith List Bool Reals Lra Lia Floats.SpecFloat.
From Flocq Require Import Core BinarySingleNaN.
From Verif Require Import Base Num NumR NumF M_LinearSolve M_FindPoint S_Grid
  L_LinearSolve L_Interp L_FindPoint L_FindPointR L_FindPointG L_Float L_FloatOps L_FindPointF L_FindOverlapF L_NodeInterpF.
Import ListNotations.
Open Scope R_scope.

(** ** Real estimates *)
(** The larger of two magnitudes. *)
Definition nm (u v : R) : R := Rmax (Rabs u) (Rabs v).

Lemma nm_pos : forall u v, 0 <= nm u v.
Proof. intros. unfold nm. eapply Rle_trans; [apply (Rabs_pos u)|apply Rmax_l]. Qed.

Lemma nm_le : forall u v k, Rabs u <= k -> Rabs v <= k -> nm u v <= k.
Proof. intros. unfold nm. apply Rmax_lub; auto. Qed.

Lemma nm_l : forall u v, Rabs u <= nm u v. Proof. intros. apply Rmax_l. Qed.
Lemma nm_r : forall u v, Rabs v <= nm u v. Proof. intros. apply Rmax_r. Qed.

Lemma Rabs_split : forall x y k l, Rabs x <= k -> Rabs y <= l -> Rabs (x + y) <= k + l.
Proof. intros. eapply Rle_trans; [apply Rabs_triang|]. lra. Qed.

Lemma prod_le : forall x y k l, Rabs x <= k -> Rabs y <= l -> Rabs (x * y) <= k * l.
Proof. intros. rewrite Rabs_mult. apply Rmult_le_compat; auto; apply Rabs_pos. Qed.

(** One Newton step with a perturbed matrix and right-hand side. *)
Lemma newton_R : forall a b c d J00 J01 J10 J11 b0 b1 z0 z1 w0 w1 sg ej rho,
  (forall u v, sg * nm u v <= nm (a * u + b * v) (c * u + d * v)) ->
  Rabs (J00 - a) <= ej -> Rabs (J01 - b) <= ej -> Rabs (J10 - c) <= ej -> Rabs (J11 - d) <= ej -> 8 * ej <= sg ->
  J00 * z0 + J01 * z1 = b0 -> J10 * z0 + J11 * z1 = b1 ->
  Rabs (b0 - (a * w0 + b * w1)) <= rho -> Rabs (b1 - (c * w0 + d * w1)) <= rho ->
  3 * (sg * nm (z0 - w0) (z1 - w1)) <= 4 * (rho + 2 * ej * nm w0 w1).
Proof.
  intros a b c d J00 J01 J10 J11 b0 b1 z0 z1 w0 w1 sg ej rho HS E00 E01 E10 E11 HE S0 S1 R0 R1.
  assert (P := nm_pos (z0 - w0) (z1 - w1)). assert (PW := nm_pos w0 w1). assert (Ej : 0 <= ej) by (assert (Q := Rabs_pos (J00 - a)); lra).
  set (n := nm (z0 - w0) (z1 - w1)) in *. set (w := nm w0 w1) in *.
  assert (Z0 : Rabs z0 <= n + w) by (replace z0 with ((z0 - w0) + w0) by ring; apply Rabs_split; [apply nm_l|apply nm_l]).
  assert (Z1 : Rabs z1 <= n + w) by (replace z1 with ((z1 - w1) + w1) by ring; apply Rabs_split; [apply nm_r|apply nm_r]).
  assert (B : nm (a * (z0 - w0) + b * (z1 - w1)) (c * (z0 - w0) + d * (z1 - w1)) <= rho + 2 * ej * (n + w)).
  { apply nm_le.
    - replace (a * (z0 - w0) + b * (z1 - w1)) with ((b0 - (a * w0 + b * w1)) + - ((J00 - a) * z0 + (J01 - b) * z1)) by (rewrite <- S0; ring).
      apply Rabs_split; auto. rewrite Rabs_Ropp. replace (2 * ej * (n + w)) with (ej * (n + w) + ej * (n + w)) by ring. apply Rabs_split; apply prod_le; auto.
    - replace (c * (z0 - w0) + d * (z1 - w1)) with ((b1 - (c * w0 + d * w1)) + - ((J10 - c) * z0 + (J11 - d) * z1)) by (rewrite <- S1; ring).
      apply Rabs_split; auto. rewrite Rabs_Ropp. replace (2 * ej * (n + w)) with (ej * (n + w) + ej * (n + w)) by ring. apply Rabs_split; apply prod_le; auto. }
  assert (Q := HS (z0 - w0) (z1 - w1)). fold n in Q.
  assert (T : 8 * ej * n <= sg * n) by (apply Rmult_le_compat_r; auto). lra.
Qed.

(** The perturbed matrix is still far from singular. *)
Lemma perturb_R : forall a b c d J00 J01 J10 J11 sg ej,
  (forall u v, sg * nm u v <= nm (a * u + b * v) (c * u + d * v)) ->
  Rabs (J00 - a) <= ej -> Rabs (J01 - b) <= ej -> Rabs (J10 - c) <= ej -> Rabs (J11 - d) <= ej -> 8 * ej <= sg ->
  forall u v, sg / 2 * nm u v <= nm (J00 * u + J01 * v) (J10 * u + J11 * v).
Proof.
  intros a b c d J00 J01 J10 J11 sg ej HS E00 E01 E10 E11 HE u v.
  assert (P := nm_pos u v). assert (Ej : 0 <= ej) by (assert (Q := Rabs_pos (J00 - a)); lra).
  assert (B : nm (a * u + b * v) (c * u + d * v) <= nm (J00 * u + J01 * v) (J10 * u + J11 * v) + 2 * ej * nm u v).
  { apply nm_le.
    - replace (a * u + b * v) with ((J00 * u + J01 * v) + - ((J00 - a) * u + (J01 - b) * v)) by ring. apply Rabs_split; [apply nm_l|].
      rewrite Rabs_Ropp. replace (2 * ej * nm u v) with (ej * nm u v + ej * nm u v) by ring. apply Rabs_split; apply prod_le; auto; [apply nm_l|apply nm_r].
    - replace (c * u + d * v) with ((J10 * u + J11 * v) + - ((J10 - c) * u + (J11 - d) * v)) by ring. apply Rabs_split; [apply nm_r|].
      rewrite Rabs_Ropp. replace (2 * ej * nm u v) with (ej * nm u v + ej * nm u v) by ring. apply Rabs_split; apply prod_le; auto; [apply nm_l|apply nm_r]. }
  assert (Q := HS u v). assert (T : 8 * ej * nm u v <= sg * nm u v) by (apply Rmult_le_compat_r; auto).
  assert (T0 : 0 <= ej * nm u v) by (apply Rmult_le_pos; auto). lra.
Qed.

(** A linear system with that property has a solution. *)
Lemma solvable_R : forall a b c d sg, 0 < sg -> (forall u v, sg * nm u v <= nm (a * u + b * v) (c * u + d * v)) ->
  a * d - b * c <> 0 /\ forall b0 b1, exists z0 z1, a * z0 + b * z1 = b0 /\ c * z0 + d * z1 = b1.
Proof.
  intros a b c d sg S H.
  assert (Z : forall u v, a * u + b * v = 0 -> c * u + d * v = 0 -> u = 0 /\ v = 0).
  { intros u v E1 E2. assert (Q := H u v). rewrite E1, E2 in Q. unfold nm at 2 in Q. rewrite Rabs_R0, Rmax_left in Q by lra.
    assert (P := nm_pos u v). assert (K : nm u v = 0) by nra. assert (U := nm_l u v). assert (V := nm_r u v). rewrite K in U, V.
    split; [destruct (Req_dec u 0) as [|N]; auto; apply Rabs_pos_lt in N; lra|destruct (Req_dec v 0) as [|N]; auto; apply Rabs_pos_lt in N; lra]. }
  assert (Det : a * d - b * c <> 0).
  { intros E. destruct (Z d (- c) ltac:(lra) ltac:(lra)) as [D C]. destruct (Z b (- a) ltac:(lra) ltac:(lra)) as [B A].
    destruct (Z 1 1) as [O _]; [|  |lra]; assert (c = 0) by lra; assert (a = 0) by lra; subst; lra. }
  split; auto. intros b0 b1. exists ((d * b0 - b * b1) / (a * d - b * c)), ((a * b1 - c * b0) / (a * d - b * c)). split; field; auto.
Qed.

(** ** One coordinate *)
Section Coord.
Variables (d0 d1 : Z) (s : fp (T:=spec_float)) (M del : R).
Hypothesis Gok : grid_ok [d0; d1].
Hypothesis Hs : fp_holds [d0; d1] s.
Hypothesis HM : M <= bpow radix2 400.
Hypothesis Hdel : 0 <= del <= bpow radix2 400.

(** Node values [c], doubles, within [del] of o + a i + b j. *)
Definition near_affine (c : list spec_float) (o a b : R) : Prop :=
  Z.of_nat (length c) = grid_size [d0; d1] /\ Forall dbl c /\ (forall f, In f c -> Rabs (fval f) <= M) /\
  forall i j, (0 <= i < d0)%Z -> (0 <= j < d1)%Z -> Rabs (fval (nth (Z.to_nat (i * d1 + j)) c n0) - (o + a * IZR i + b * IZR j)) <= del.

Definition err_at : R := del + interp_error 2 M.

Lemma dims2 : (2 <= d0 <= 2 ^ 31 - 1)%Z /\ (2 <= d1 <= 2 ^ 31 - 1)%Z.
Proof. assert (R := dims_range _ Gok). apply Forall_cons_iff in R. destruct R as [R0 R]. apply Forall_inv in R. auto. Qed.

Lemma near_M : forall c o a b, near_affine c o a b -> 0 <= M.
Proof.
  intros c o a b (L & _ & B & _). assert (D := dims2). cbn [grid_size fold_right] in L. destruct c as [|f c]; [cbn in L; lia|].
  assert (Q := B f (or_introl eq_refl)). assert (P := Rabs_pos (fval f)). lra.
Qed.

Lemma err_val : err_at = del + 48 * uround * M + 12 * etiny.
Proof.
  unfold err_at, interp_error. replace (bpow radix2 (-51)) with (4 * uround) by (unfold uround; simpl; lra).
  replace (INR (2 + 1)) with 3 by (simpl; lra). change (2 ^ Z.of_nat 2)%Z with 4%Z. lra.
Qed.

Lemma interp_near : forall c o a b x y, near_affine c o a b -> on_axis d0 x -> on_axis d1 y ->
  exists r, fp_interp s [x; y] c = Ret r /\ dbl r /\ Rabs (fval r - (o + a * fval x + b * fval y)) <= err_at /\ Rabs (fval r) <= M + err_at.
Proof.
  intros c o a b x y A Hx Hy. assert (M0 := near_M _ _ _ _ A). destruct A as (L & D & B & N).
  assert (MB : M <= bpow radix2 900) by (eapply Rle_trans; [exact HM|apply bpow_le; lia]).
  assert (HX : in_gridF [d0; d1] [x; y]) by (apply Forall2_cons; [exact Hx|]; apply Forall2_cons; [exact Hy|constructor]).
  destruct (interp_F [d0; d1] s [x; y] c M Gok Hs HX L D B MB) as (r & E & Dr & Br). exists r. split; auto. split; auto.
  assert (G := grid_values _ _ HX). assert (F2 : Forall (fun d => 2 <= d)%Z [d0; d1]) by apply Gok.
  assert (C := multilin_near [d0; d1] (map fval [x; y]) (fun v => fval (nth (Z.to_nat (flat [d0; d1] v)) c n0)) (fun v => o + dot [a; b] (map IZR v)) del F2 G).
  rewrite multilin_affine in C by auto. fold (exact_interp [d0; d1] (map fval [x; y]) c) in C.
  assert (C' : Rabs (exact_interp [d0; d1] (map fval [x; y]) c - (o + dot [a; b] (map fval [x; y]))) <= del).
  { apply C. intros v Hv. inversion Hv as [|? i ? ? Hi H1]; subst. inversion H1 as [|? j ? ? Hj H2]; subst. inversion H2; subst.
    assert (Q := N i j Hi Hj). cbn [flat grid_size fold_right map dot]. replace (i * (d1 * 1) + (j * 1 + 0))%Z with (i * d1 + j)%Z by ring. 
    replace (o + (a * IZR i + (b * IZR j + 0))) with (o + a * IZR i + b * IZR j) by ring. exact Q. }
  cbn [map dot length] in *. unfold err_at. split.
  - replace (fval r - (o + a * fval x + b * fval y)) with ((fval r - exact_interp [d0; d1] [fval x; fval y] c) + (exact_interp [d0; d1] [fval x; fval y] c - (o + (a * fval x + (b * fval y + 0))))) by ring.
    eapply Rle_trans; [apply Rabs_triang|]. lra.
  - assert (Z := multilin_near [d0; d1] [fval x; fval y] (fun v => fval (nth (Z.to_nat (flat [d0; d1] v)) c n0)) (fun v => 0) M F2 G).
    rewrite multilin_const in Z. fold (exact_interp [d0; d1] [fval x; fval y] c) in Z.
    assert (Z' : Rabs (exact_interp [d0; d1] [fval x; fval y] c - 0) <= M).
    { apply Z. intros v Hv. rewrite Rminus_0_r. destruct (nth_in_or_default (Z.to_nat (flat [d0; d1] v)) c n0) as [I| ->]; auto.
      destruct zero_val as [_ ->]. rewrite Rabs_R0. auto. }
    rewrite Rminus_0_r in Z'. replace (fval r) with ((fval r - exact_interp [d0; d1] [fval x; fval y] c) + exact_interp [d0; d1] [fval x; fval y] c) by ring.
    eapply Rle_trans; [apply Rabs_triang|]. lra.
Qed.

Lemma slopes : forall c o a b, near_affine c o a b -> Rabs a <= 2 * M + 2 * del /\ Rabs b <= 2 * M + 2 * del.
Proof.
  intros c o a b (L & D & B & N). assert (R := dims2). cbn [grid_size fold_right] in L.
  assert (B' : forall i j, (0 <= i < d0)%Z -> (0 <= j < d1)%Z -> Rabs (o + a * IZR i + b * IZR j) <= M + del).
  { intros i j Hi Hj. assert (Q := N i j Hi Hj). assert (I : In (nth (Z.to_nat (i * d1 + j)) c n0) c) by (apply nth_In; apply Nat2Z.inj_lt; rewrite Z2Nat.id by nia; nia).
    apply B in I. rewrite Rabs_minus_sym in Q.
    replace (o + a * IZR i + b * IZR j) with (fval (nth (Z.to_nat (i * d1 + j)) c n0) + (o + a * IZR i + b * IZR j - fval (nth (Z.to_nat (i * d1 + j)) c n0))) by ring.
    apply Rabs_split; auto. }
  assert (B00 := B' 0%Z 0%Z ltac:(lia) ltac:(lia)). assert (B10 := B' 1%Z 0%Z ltac:(lia) ltac:(lia)). assert (B01 := B' 0%Z 1%Z ltac:(lia) ltac:(lia)).
  apply Rabs_le_inv in B00, B10, B01. split; apply Rabs_le; lra.
Qed.

Lemma big400 : forall k x, Rabs x <= k -> k <= 64 * bpow radix2 400 + 64 -> Rabs x <= bpow radix2 1000.
Proof.
  intros k x H K. assert (G : bpow radix2 408 <= bpow radix2 1000) by (apply bpow_le; lia).
  assert (G1 : bpow radix2 408 = 256 * bpow radix2 400) by (change 408%Z with (8 + 400)%Z; rewrite bpow_plus; reflexivity).
  assert (G2 : 1 <= bpow radix2 400) by (change 1 with (bpow radix2 0); apply bpow_le; lia). lra.
Qed.

Lemma err_bounds : 0 <= M -> del <= err_at /\ uround * M <= err_at / 48 /\ etiny <= err_at / 12 /\ 0 < err_at /\ uround * err_at <= err_at / 1000000 /\ err_at <= 2 * bpow radix2 400 + 1.
Proof.
  intros M0. rewrite err_val. assert (P := etiny_pos). assert (PL := etiny_lt). assert (U : 0 <= uround * M) by (apply Rmult_le_pos; auto; unfold uround; lra).
  assert (UM : 48 * (uround * M) <= M) by (unfold uround; lra). unfold uround in *. repeat split; lra.
Qed.

(** The finite difference: the distance between its ends. *)
Lemma fd_width : forall d x, (2 <= d <= 2 ^ 31 - 1)%Z -> on_axis d x -> 3 / 8 <= fval (fd_hi d x) - fval (fd_lo x) <= 2.
Proof.
  intros d x Hd [D P]. assert (B := dim_R d Hd). destruct half_val as [HD HV]. destruct zero_val as [ZD ZV].
  destruct (dim_val d Hd) as [DD DV]. rewrite wrap64_small in DD, DV by lia.
  destruct (f_add x nhalf D HD) as [SD SV]; [apply small_R; rewrite HV; rewrite Rabs_pos_eq; lra|].
  destruct (f_sub x nhalf D HD) as [TD TV]; [apply small_R; rewrite HV; apply Rabs_le; lra|].
  assert (E1 := rnd_error (fval x + fval nhalf)). rewrite <- SV, HV, (Rabs_pos_eq (fval x + 1 / 2)) in E1 by lra.
  assert (E2 := rnd_error (fval x - fval nhalf)). rewrite <- TV, HV in E2. assert (A2 : Rabs (fval x - 1 / 2) <= fval x + 1) by (apply Rabs_le; lra).
  assert (PL := etiny_lt). assert (U : uround * Rabs (fval x - 1 / 2) <= uround * (fval x + 1)) by (apply Rmult_le_compat_l; auto; unfold uround; lra).
  assert (U1 : uround * (fval x + 1) <= / 1000000) by (unfold uround; lra). assert (U2 : uround * (fval x + 1 / 2) <= / 1000000) by (unfold uround; lra).
  apply Rabs_le_inv in E1. assert (E2' : Rabs (fval (nsub x nhalf) - (fval x - 1 / 2)) <= / 500000) by lra. apply Rabs_le_inv in E2'.
  unfold fd_hi, fd_lo. cbv zeta. rewrite !f_le by auto. rewrite DV, ZV. unfold Rleb.
  destruct (Rle_dec (fval (nadd x nhalf)) (IZR (d - 1))) as [L|L]; destruct (Rle_dec 0 (fval (nsub x nhalf))) as [K|K]; rewrite ?DV, ?ZV; lra.
Qed.

Lemma quot_near : forall xH xL hi lo p A, 0 <= M -> dbl xH -> dbl xL -> dbl hi -> dbl lo ->
  Rabs (fval xH - (p + A * fval hi)) <= err_at -> Rabs (fval xL - (p + A * fval lo)) <= err_at ->
  3 / 8 <= fval hi - fval lo <= 2 -> Rabs A <= 2 * M + 2 * del ->
  dbl (ndiv (nsub xH xL) (nsub hi lo)) /\ Rabs (fval (ndiv (nsub xH xL) (nsub hi lo)) - A) <= 8 * err_at.
Proof.
  intros xH xL hi lo p A M0 DH DL Dh Dl EH EL W BA. destruct (err_bounds M0) as (B1 & B2 & B3 & B4 & B5 & B6).
  assert (PL := etiny_lt). assert (Pe := etiny_pos). assert (UP : 0 < uround) by (unfold uround; lra).
  set (e := err_at) in *. clearbody e. set (h := fval hi - fval lo) in *.
  assert (UA : uround * Rabs A <= e / 20).
  { assert (T : uround * Rabs A <= uround * (2 * M + 2 * del)) by (apply Rmult_le_compat_l; lra). assert (T2 : uround * del <= uround * e) by (apply Rmult_le_compat_l; lra). lra. }
  assert (AH : Rabs (A * h) <= 2 * Rabs A) by (rewrite Rabs_mult, (Rabs_pos_eq h) by lra; assert (Q := Rabs_pos A); nra).
  assert (DF : Rabs (fval xH - fval xL - A * h) <= 2 * e).
  { replace (fval xH - fval xL - A * h) with ((fval xH - (p + A * fval hi)) + - (fval xL - (p + A * fval lo))) by (unfold h; ring).
    replace (2 * e) with (e + e) by ring. apply Rabs_split; auto. rewrite Rabs_Ropp. auto. }
  assert (DX : Rabs (fval xH - fval xL) <= 2 * Rabs A + 2 * e).
  { replace (fval xH - fval xL) with (A * h + (fval xH - fval xL - A * h)) by ring. apply Rabs_split; auto. }
  destruct (f_sub xH xL DH DL) as [DN VN]; [eapply big400; [exact DX|lra]|].
  destruct (f_sub hi lo Dh Dl) as [Dd Vd]; [apply small_R; fold h; rewrite Rabs_pos_eq; lra|]. fold h in Vd.
  assert (EN := rnd_error (fval xH - fval xL)). rewrite <- VN in EN. assert (Ed := rnd_error h). rewrite <- Vd, (Rabs_pos_eq h) in Ed by lra.
  assert (UX : uround * Rabs (fval xH - fval xL) <= uround * (2 * Rabs A + 2 * e)) by (apply Rmult_le_compat_l; lra).
  set (N := fval (nsub xH xL)) in *. set (h' := fval (nsub hi lo)) in *.
  assert (Ed' : Rabs (h' - h) <= 4 * uround) by (unfold uround in *; assert (K := etiny_small); unfold uround in K; lra).
  assert (NH : Rabs (N - A * h) <= 23 / 10 * e).
  { replace (N - A * h) with ((N - (fval xH - fval xL)) + (fval xH - fval xL - A * h)) by ring. eapply Rle_trans; [apply Rabs_split; [exact EN|exact DF]|]. lra. }
  assert (NH' : Rabs (N - A * h') <= 25 / 10 * e).
  { replace (N - A * h') with ((N - A * h) + A * (h - h')) by ring. eapply Rle_trans; [apply Rabs_split; [exact NH|apply Rle_refl]|].
    rewrite Rabs_mult, (Rabs_minus_sym h h'). assert (T : Rabs A * Rabs (h' - h) <= Rabs A * (4 * uround)) by (apply Rmult_le_compat_l; [apply Rabs_pos|auto]). lra. }
  assert (H' : 37 / 100 <= h') by (apply Rabs_le_inv in Ed'; unfold uround in *; lra).
  assert (Q : Rabs (N / h' - A) <= 7 * e).
  { replace (N / h' - A) with ((N - A * h') * / h') by (field; lra). rewrite Rabs_mult, (Rabs_pos_eq (/ h')) by (apply Rlt_le, Rinv_0_lt_compat; lra).
    assert (I : / h' <= 100 / 37) by (replace (100 / 37) with (/ (37 / 100)) by field; apply Rinv_le; lra).
    apply Rle_trans with (25 / 10 * e * (100 / 37)); [apply Rmult_le_compat; auto; [apply Rabs_pos|apply Rlt_le, Rinv_0_lt_compat; lra]|lra]. }
  assert (QA : Rabs (N / h') <= Rabs A + 7 * e) by (replace (N / h') with (A + (N / h' - A)) by ring; apply Rabs_split; [lra|auto]).
  destruct (f_div (nsub xH xL) (nsub hi lo) DN Dd) as [Dq Vq]; [fold h'; lra|fold N h'; eapply big400; [exact QA|lra]|]. fold N h' in Vq.
  split; auto. rewrite Vq. assert (Er := rnd_error (N / h')). assert (UQ : uround * Rabs (N / h') <= uround * (Rabs A + 7 * e)) by (apply Rmult_le_compat_l; lra).
  replace (rnd (N / h') - A) with ((rnd (N / h') - N / h') + (N / h' - A)) by ring. eapply Rle_trans; [apply Rabs_split; [exact Er|exact Q]|]. lra.
Qed.

Lemma jac_near : forall c o a b x y, near_affine c o a b -> on_axis d0 x -> on_axis d1 y -> fp_dIndices s = [x; y] ->
  (exists v, fp_jacEntry s c 0 = Ret v /\ dbl v /\ Rabs (fval v - a) <= 8 * err_at) /\
  (exists v, fp_jacEntry s c 1 = Ret v /\ dbl v /\ Rabs (fval v - b) <= 8 * err_at).
Proof.
  intros c o a b x y A Hx Hy E. destruct dims2 as [R0 R1]. assert (M0 := near_M _ _ _ _ A). destruct (slopes _ _ _ _ A) as [SA SB].
  assert (Hd : fp_dims s = [d0; d1]) by apply Hs. split.
  - unfold fp_jacEntry. rewrite E, Hd. change (vget [x; y] (Z.of_nat 0)) with (Ret x). change (vget [d0; d1] (Z.of_nat 0)) with (Ret d0). cbn [bind upd].
    rewrite wrap64_small by lia.
    change (if nle (nadd x nhalf) (nofZ (d0 - 1)) then nadd x nhalf else nofZ (d0 - 1)) with (fd_hi d0 x). change (if nle n0 (nsub x nhalf) then nsub x nhalf else n0) with (fd_lo x).
    assert (AH := axis_hi d0 x R0 Hx). assert (AL := axis_lo d0 x R0 Hx).
    destruct (interp_near c o a b _ y A AH Hy) as (v1 & E1 & D1 & N1 & _). destruct (interp_near c o a b _ y A AL Hy) as (v2 & E2 & D2 & N2 & _).
    rewrite E1, E2. cbn [bind]. eexists. split; [reflexivity|].
    apply (quot_near v1 v2 _ _ (o + b * fval y) a); auto; try apply AH; try apply AL; try (apply fd_width; auto).
    + replace (o + b * fval y + a * fval (fd_hi d0 x)) with (o + a * fval (fd_hi d0 x) + b * fval y) by ring. auto.
    + replace (o + b * fval y + a * fval (fd_lo x)) with (o + a * fval (fd_lo x) + b * fval y) by ring. auto.
  - unfold fp_jacEntry. rewrite E, Hd. change (vget [x; y] (Z.of_nat 1)) with (Ret y). change (vget [d0; d1] (Z.of_nat 1)) with (Ret d1). cbn [bind upd].
    rewrite wrap64_small by lia.
    change (if nle (nadd y nhalf) (nofZ (d1 - 1)) then nadd y nhalf else nofZ (d1 - 1)) with (fd_hi d1 y). change (if nle n0 (nsub y nhalf) then nsub y nhalf else n0) with (fd_lo y).
    assert (AH := axis_hi d1 y R1 Hy). assert (AL := axis_lo d1 y R1 Hy).
    destruct (interp_near c o a b x _ A Hx AH) as (v1 & E1 & D1 & N1 & _). destruct (interp_near c o a b x _ A Hx AL) as (v2 & E2 & D2 & N2 & _).
    rewrite E1, E2. cbn [bind]. eexists. split; [reflexivity|].
    apply (quot_near v1 v2 _ _ (o + a * fval x) b); auto; try apply AH; try apply AL; try (apply fd_width; auto).
Qed.

(** The right-hand side. *)
Lemma rhs_near : forall c o a b x y t t0 t1, near_affine c o a b -> on_axis d0 x -> on_axis d1 y -> dbl t -> Rabs (fval t) <= M ->
  Rabs (fval t - (o + a * t0 + b * t1)) <= del ->
  exists p, fp_interp s [x; y] c = Ret p /\ dbl (nsub t p) /\ Rabs (fval (nsub t p) - (a * (t0 - fval x) + b * (t1 - fval y))) <= 3 * err_at.
Proof.
  intros c o a b x y t t0 t1 A Hx Hy Dt Bt Ht. assert (M0 := near_M _ _ _ _ A). destruct (err_bounds M0) as (B1 & B2 & B3 & B4 & B5 & B6).
  destruct (interp_near c o a b x y A Hx Hy) as (p & E & Dp & N & Bp). exists p. split; auto. set (e := err_at) in *. clearbody e.
  assert (X : Rabs (fval t - fval p) <= 2 * M + e) by (replace (2 * M + e) with (M + (M + e)) by ring; apply Rabs_split; auto; rewrite Rabs_Ropp; auto).
  destruct (f_sub t p Dt Dp) as [D V]; [eapply big400; [exact X|lra]|]. split; auto. rewrite V. assert (Er := rnd_error (fval t - fval p)).
  assert (UX : uround * Rabs (fval t - fval p) <= uround * (2 * M + e)) by (apply Rmult_le_compat_l; [unfold uround; lra|auto]).
  replace (rnd (fval t - fval p) - (a * (t0 - fval x) + b * (t1 - fval y))) with
    ((rnd (fval t - fval p) - (fval t - fval p)) + ((fval t - (o + a * t0 + b * t1)) + - (fval p - (o + a * fval x + b * fval y)))) by ring.
  eapply Rle_trans; [apply Rabs_split; [exact Er|apply Rabs_split; [exact Ht|rewrite Rabs_Ropp; exact N]]|]. lra.
Qed.
End Coord.

(** ** One step of the search *)
(** The solver on well-conditioned 2 x 2 systems: entries up to [bnd], matrices that stretch by at least [sg];
    the result is within eta |z| + zeta of the exact solution z. *)
Definition accurate2 (g : gels spec_float) (bnd sg eta zeta : R) : Prop :=
  forall J00 J01 J10 J11 r0 r1 lw z0 z1, dbl J00 -> dbl J01 -> dbl J10 -> dbl J11 -> dbl r0 -> dbl r1 ->
  Rabs (fval J00) <= bnd -> Rabs (fval J01) <= bnd -> Rabs (fval J10) <= bnd -> Rabs (fval J11) <= bnd -> Rabs (fval r0) <= bnd -> Rabs (fval r1) <= bnd ->
  (forall u v, sg * nm u v <= nm (fval J00 * u + fval J01 * v) (fval J10 * u + fval J11 * v)) ->
  fval J00 * z0 + fval J01 * z1 = fval r0 -> fval J10 * z0 + fval J11 * z1 = fval r1 ->
  let r := g 2%Z 2%Z [J00; J01; J10; J11] 2%Z [r0; r1] 2%Z lw in
  dbl (g_rhs r 0) /\ dbl (g_rhs r 1) /\
  Rabs (fval (g_rhs r 0) - z0) <= eta * nm z0 z1 + zeta /\ Rabs (fval (g_rhs r 1) - z1) <= eta * nm z0 z1 + zeta.

Lemma trunc0 : forall d x t, (2 <= d <= 2 ^ 31 - 1)%Z -> dbl x -> 0 <= t <= IZR (d - 1) ->
  on_axis d (fp_truncate1 n0 d x) /\ Rabs (fval (fp_truncate1 n0 d x) - t) <= Rabs (fval x - t).
Proof.
  intros d x t Hd Dx Ht. split; [apply truncate_axis; auto; destruct zero_val; auto|].
  destruct (dim_val d Hd) as [DD DV]. destruct zero_val as [ZD ZV]. unfold fp_truncate1. cbv zeta. change (neq (n0 : spec_float) n0) with true. cbv iota.
  rewrite (f_lt x n0) by auto. rewrite ZV. unfold Rltb. destruct (Rlt_dec (fval x) 0) as [L|L].
  - rewrite f_lt by auto. rewrite DV, ZV. unfold Rltb. destruct (Rlt_dec (IZR (d - 1)) 0); [lra|]. rewrite ?ZV, !Rabs_left1; lra.
  - rewrite f_lt by auto. rewrite DV. unfold Rltb. destruct (Rlt_dec (IZR (d - 1)) (fval x)); [|lra]. rewrite ?DV, !Rabs_pos_eq; lra.
Qed.

(** The computed distance is below the tolerance if the coordinates are close enough. *)
Lemma dist_small : forall px py x y tol m, dbl px -> dbl py -> dbl x -> dbl y -> dbl tol -> m <= bpow radix2 404 ->
  Rabs (fval px - fval x) <= m -> Rabs (fval py - fval y) <= m -> 2 * m + bpow radix2 (-535) <= fval tol ->
  nlt (nsqrt (nadd (nadd n0 (nmul (nsub px x) (nsub px x))) (nmul (nsub py y) (nsub py y)))) tol = true.
Proof.
  intros px py x y tol m Dpx Dpy Dx Dy Dt Bm Bx By HT. assert (M0 : 0 <= m) by (assert (Q := Rabs_pos (fval px - fval x)); lra).
  assert (UP : 0 < uround) by (unfold uround; lra). assert (Pe := etiny_pos). assert (PL := etiny_lt).
  assert (K1 : bpow radix2 404 <= bpow radix2 1000) by (apply bpow_le; lia).
  set (m1 := m + uround * m + etiny).
  assert (S1 : forall v, Rabs v <= m -> Rabs (rnd v) <= m1).
  { intros v H. assert (E := rnd_error v). replace (rnd v) with (v + (rnd v - v)) by ring. unfold m1. rewrite Rplus_assoc. apply Rabs_split; auto.
    assert (T : uround * Rabs v <= uround * m) by (apply Rmult_le_compat_l; lra). lra. }
  assert (M1 : m1 <= bpow radix2 405).
  { assert (G : bpow radix2 405 = 2 * bpow radix2 404) by (change 405%Z with (1 + 404)%Z; rewrite bpow_plus; reflexivity).
    assert (G1 : 1 <= bpow radix2 404) by (change 1 with (bpow radix2 0); apply bpow_le; lia). unfold m1. rewrite G. unfold uround in *. lra. }
  assert (M1p : 0 < m1) by (unfold m1; assert (0 <= uround * m) by (apply Rmult_le_pos; lra); lra).
  assert (K2 : bpow radix2 810 <= bpow radix2 998) by (apply bpow_le; lia).
  assert (K3 : bpow radix2 998 * 4 = bpow radix2 1000) by (change 4 with (bpow radix2 2); rewrite <- bpow_plus; reflexivity).
  assert (K5 : 1 <= bpow radix2 998) by (change 1 with (bpow radix2 0); apply bpow_le; lia).
  destruct (f_sub px x Dpx Dx ltac:(lra)) as [Da Va]. destruct (f_sub py y Dpy Dy ltac:(lra)) as [Db Vb].
  assert (Ba := S1 _ Bx). assert (Bb := S1 _ By). rewrite <- Va in Ba. rewrite <- Vb in Bb.
  set (da := nsub px x) in *. set (db := nsub py y) in *. set (a := fval da) in *. set (b := fval db) in *.
  assert (Ba2 := p405 a ltac:(lra)). assert (Bb2 := p405 b ltac:(lra)).
  destruct (f_mul da da Da Da ltac:(fold a; lra)) as [Dp Vp]. destruct (f_mul db db Db Db ltac:(fold b; lra)) as [Dq Vq]. fold a in Vp. fold b in Vq.
  set (sp := nmul da da) in *. set (sq := nmul db db) in *.
  assert (Ep := rnd_error (a * a)). assert (Eq := rnd_error (b * b)). rewrite <- Vp in Ep. rewrite <- Vq in Eq.
  assert (A0 : 0 <= a * a) by nra. assert (B0 : 0 <= b * b) by nra. rewrite (Rabs_pos_eq (a * a)) in * by auto. rewrite (Rabs_pos_eq (b * b)) in * by auto.
  assert (A1 : a * a <= m1 * m1) by (apply Rabs_le_inv in Ba; nra). assert (B1 : b * b <= m1 * m1) by (apply Rabs_le_inv in Bb; nra).
  destruct zero_val as [Dz Vz].
  assert (P0 : 0 <= fval sp) by (rewrite Vp, <- (rnd_Z 0) by lia; apply rnd_le; auto).
  assert (Q0 : 0 <= fval sq) by (rewrite Vq, <- (rnd_Z 0) by lia; apply rnd_le; auto).
  apply Rabs_le_inv in Ep, Eq.
  assert (P1 : fval sp <= bpow radix2 998 * 3 / 2) by (unfold uround in *; lra). assert (Q1 : fval sq <= bpow radix2 998 * 3 / 2) by (unfold uround in *; lra).
  destruct (f_add n0 sp Dz Dp) as [Dp' Vp']; [rewrite Vz, Rplus_0_l, Rabs_pos_eq; lra|]. rewrite Vz, Rplus_0_l, rnd_id in Vp' by auto.
  destruct (f_add (nadd n0 sp) sq Dp' Dq) as [De Ve]; [rewrite Vp', Rabs_pos_eq; lra|]. rewrite Vp' in Ve.
  set (se := nadd (nadd n0 sp) sq) in *. assert (Ee := rnd_error (fval sp + fval sq)). rewrite <- Ve in Ee. rewrite (Rabs_pos_eq (fval sp + fval sq)) in Ee by lra. apply Rabs_le_inv in Ee.
  assert (E0 : 0 <= fval se) by (rewrite Ve, <- (rnd_Z 0) by lia; apply rnd_le; lra).
  destruct (f_sqrt se De E0) as [Dr Vr]. rewrite f_lt by auto. rewrite Vr.
  assert (Er := rnd_error (sqrt (fval se))). rewrite (Rabs_pos_eq (sqrt (fval se))) in Er by apply sqrt_pos. apply Rabs_le_inv in Er.
  set (h := bpow radix2 (-536)). assert (H0 : 0 < h) by apply bpow_gt_0.
  assert (HH : h * h = 4 * etiny) by (unfold h, etiny; change 4 with (bpow radix2 2); rewrite <- !bpow_plus; reflexivity).
  assert (H535 : bpow radix2 (-535) = 2 * h) by (unfold h; change (-535)%Z with (1 + -536)%Z; rewrite bpow_plus; reflexivity).
  assert (TH : etiny <= h / 1024).
  { unfold etiny, h. apply Rle_trans with (bpow radix2 (-546)); [apply bpow_le; lia|]. change (-546)%Z with (-536 + -10)%Z. rewrite bpow_plus. right. simpl (bpow radix2 (-10)). unfold Rdiv. reflexivity. }
  assert (SQ : sqrt (fval se) <= 3 / 2 * m1 + h).
  { rewrite <- (sqrt_Rsqr (3 / 2 * m1 + h)) by lra. apply sqrt_le_1_alt. unfold Rsqr.
    replace ((3 / 2 * m1 + h) * (3 / 2 * m1 + h)) with (9 / 4 * (m1 * m1) + h * h + 3 * (m1 * h)) by field. rewrite HH.
    assert (0 <= m1 * h) by (apply Rmult_le_pos; lra). assert (0 <= m1 * m1) by nra. unfold uround in *. lra. }
  unfold Rltb. destruct (Rlt_dec (rnd (sqrt (fval se))) (fval tol)) as [|N]; auto. exfalso. apply N.
  unfold m1 in SQ. set (sq0 := sqrt (fval se)) in *. clearbody sq0 h. clear - SQ Er HT H535 TH H0 Pe M0. rewrite H535 in HT. unfold uround in *. lra.
Qed.

Section Step.
Variables (d0 d1 : Z) (cx cy : list spec_float) (ox oy a b c d M del sg tau eta zeta : R) (g : gels spec_float).
Variables (tx ty : spec_float) (t0 t1 : R).
Let e := err_at M del.
Hypothesis HD : grid_data [d0; d1]%Z [cx; cy].
Hypothesis HM : M <= bpow radix2 400.
Hypothesis Hdel : 0 <= del <= bpow radix2 400.
Hypothesis AX : near_affine d0 d1 M del cx ox a b.
Hypothesis AY : near_affine d0 d1 M del cy oy c d.
Hypothesis HS : forall u v, sg * nm u v <= nm (a * u + b * v) (c * u + d * v).
Hypothesis Hsg : 0 < sg.
Hypothesis HT : e <= tau * sg.
Hypothesis Htau : tau <= 1 / 64.
Hypothesis Heta : 0 <= eta <= 1 / 16.
Hypothesis Hzeta : 0 <= zeta <= 1.
Hypothesis HG : accurate2 g (2 * M + 10 * e) (sg / 2) eta zeta.
Hypothesis Dtx : dbl tx. Hypothesis Dty : dbl ty.
Hypothesis Btx : Rabs (fval tx) <= M. Hypothesis Bty : Rabs (fval ty) <= M.
Hypothesis Ntx : Rabs (fval tx - (ox + a * t0 + b * t1)) <= del.
Hypothesis Nty : Rabs (fval ty - (oy + c * t0 + d * t1)) <= del.
Hypothesis Ht0 : 0 <= t0 <= IZR (d0 - 1). Hypothesis Ht1 : 0 <= t1 <= IZR (d1 - 1).

(** How the distance to the target's index position shrinks. *)
Definition rate : R := 3 * eta + 28 * tau.
Definition rest : R := 6 * tau + 2 * zeta + 2 * uround * IZR (Z.max d0 d1).

Lemma Gok2 : grid_ok [d0; d1]. Proof. apply HD. Qed.

Lemma add_near : forall dd x dx t w k, (2 <= dd <= 2 ^ 31 - 1)%Z -> (dd <= Z.max d0 d1)%Z -> on_axis dd x -> dbl dx -> 0 <= t <= IZR (dd - 1) -> t - fval x = w ->
  Rabs (fval dx - w) <= k -> k <= bpow radix2 900 ->
  on_axis dd (fp_truncate1 n0 dd (nadd x dx)) /\ Rabs (fval (fp_truncate1 n0 dd (nadd x dx)) - t) <= (1 + uround) * k + uround * IZR (Z.max d0 d1) + etiny.
Proof.
  intros dd x dx t w k Hd Hm Hx Ddx Ht W K KB. destruct Hx as [Dx Px]. assert (B := dim_R dd Hd).
  assert (UP : 0 < uround) by (unfold uround; lra).
  assert (S : Rabs (fval x + fval dx) <= IZR (Z.max d0 d1) + k).
  { replace (fval x + fval dx) with (t + (fval dx - w)) by (rewrite <- W; ring). apply Rabs_split; auto. rewrite Rabs_pos_eq by lra. apply Rle_trans with (IZR (dd - 1)); [lra|]. apply IZR_le. lia. }
  assert (DM : IZR (Z.max d0 d1) <= 2147483648).
  { apply IZR_le. assert (R := dims2 d0 d1 Gok2). lia. }
  assert (KK : 0 <= k) by (assert (Q := Rabs_pos (fval dx - w)); lra).
  destruct (f_add x dx Dx Ddx) as [DA VA].
  { eapply Rle_trans; [exact S|]. assert (G : bpow radix2 1000 = bpow radix2 100 * bpow radix2 900) by (rewrite <- bpow_plus; reflexivity).
    assert (G1 : 1 <= bpow radix2 900) by (change 1 with (bpow radix2 0); apply bpow_le; lia).
    assert (G2 : 4294967296 <= bpow radix2 100) by (change 4294967296 with (bpow radix2 32); apply bpow_le; lia).
    rewrite G. apply Rle_trans with (4294967296 * bpow radix2 900); [lra|]. apply Rmult_le_compat_r; lra. }
  destruct (trunc0 dd (nadd x dx) t Hd DA Ht) as [T1 T2]. split; auto. eapply Rle_trans; [exact T2|].
  rewrite VA. assert (Er := rnd_error (fval x + fval dx)). assert (U : uround * Rabs (fval x + fval dx) <= uround * (IZR (Z.max d0 d1) + k)) by (apply Rmult_le_compat_l; lra).
  replace (rnd (fval x + fval dx) - t) with ((rnd (fval x + fval dx) - (fval x + fval dx)) + (fval dx - w)) by (rewrite <- W; ring).
  eapply Rle_trans; [apply Rabs_split; [exact Er|exact K]|]. lra.
Qed.

Lemma jacobian_near : forall s x y, fp_holds [d0; d1] s -> fp_coords s = [cx; cy] -> fp_target s = [tx; ty] -> fp_dIndices s = [x; y] -> on_axis d0 x -> on_axis d1 y ->
  exists J00 J01 J10 J11 r0 r1, fp_jacobianAndRHS s = Ret ([J00; J01; J10; J11], [r0; r1]) /\
    dbl J00 /\ dbl J01 /\ dbl J10 /\ dbl J11 /\ dbl r0 /\ dbl r1 /\
    Rabs (fval J00 - a) <= 8 * e /\ Rabs (fval J01 - b) <= 8 * e /\ Rabs (fval J10 - c) <= 8 * e /\ Rabs (fval J11 - d) <= 8 * e /\
    Rabs (fval r0 - (a * (t0 - fval x) + b * (t1 - fval y))) <= 3 * e /\ Rabs (fval r1 - (c * (t0 - fval x) + d * (t1 - fval y))) <= 3 * e /\
    Rabs (fval r0) <= 2 * M + 10 * e /\ Rabs (fval r1) <= 2 * M + 10 * e.
Proof.
  intros s x y Hh Hc Htg E Hx Hy. assert (M0 := near_M d0 d1 M del Gok2 _ _ _ _ AX).
  destruct (err_bounds M del HM Hdel M0) as (B1 & B2 & B3 & B4 & B5 & B6). fold e in B1, B2, B3, B4, B5, B6.
  destruct (jac_near d0 d1 s M del Gok2 Hh HM Hdel cx ox a b x y AX Hx Hy E) as [(J00 & F00 & D00 & N00) (J01 & F01 & D01 & N01)].
  destruct (jac_near d0 d1 s M del Gok2 Hh HM Hdel cy oy c d x y AY Hx Hy E) as [(J10 & F10 & D10 & N10) (J11 & F11 & D11 & N11)].
  destruct (rhs_near d0 d1 s M del Gok2 Hh HM Hdel cx ox a b x y tx t0 t1 AX Hx Hy Dtx Btx Ntx) as (p0 & G0 & DR0 & NR0).
  destruct (rhs_near d0 d1 s M del Gok2 Hh HM Hdel cy oy c d x y ty t0 t1 AY Hx Hy Dty Bty Nty) as (p1 & G1 & DR1 & NR1).
  fold e in N00, N01, N10, N11, NR0, NR1.
  assert (RB : forall cc oo aa bb tt p, near_affine d0 d1 M del cc oo aa bb -> dbl tt -> Rabs (fval tt) <= M -> fp_interp s [x; y] cc = Ret p -> Rabs (fval (nsub tt p)) <= 2 * M + 10 * e).
  { intros cc oo aa bb tt p A Dt Bt Ep. destruct (interp_near d0 d1 s M del Gok2 Hh HM Hdel cc oo aa bb x y A Hx Hy) as (p' & Ep' & Dp & _ & Bp). rewrite Ep in Ep'. injection Ep' as <-. fold e in Bp.
    assert (X : Rabs (fval tt - fval p) <= 2 * M + e) by (replace (2 * M + e) with (M + (M + e)) by ring; apply Rabs_split; auto; rewrite Rabs_Ropp; auto).
    destruct (f_sub tt p Dt Dp) as [DD V]; [eapply big400; [exact X|lra]|]. rewrite V. assert (Er := rnd_error (fval tt - fval p)).
    assert (UX : uround * Rabs (fval tt - fval p) <= uround * (2 * M + e)) by (apply Rmult_le_compat_l; [unfold uround; lra|auto]).
    replace (rnd (fval tt - fval p)) with ((rnd (fval tt - fval p) - (fval tt - fval p)) + (fval tt - fval p)) by ring.
    eapply Rle_trans; [apply Rabs_split; [exact Er|exact X]|]. lra. }
  exists J00, J01, J10, J11, (nsub tx p0), (nsub ty p1). split.
  { unfold fp_jacobianAndRHS. assert (Hd : fp_dims s = [d0; d1]) by apply Hh. rewrite Hd, Hc, Htg. cbn [length seq mapM].
    change (vget [cx; cy] (Z.of_nat 0)) with (Ret cx). change (vget [cx; cy] (Z.of_nat 1)) with (Ret cy). change (vget [tx; ty] (Z.of_nat 0)) with (Ret tx). change (vget [tx; ty] (Z.of_nat 1)) with (Ret ty).
    cbn [bind]. rewrite E, G0, G1. cbn [bind]. rewrite F00, F01, F10, F11. reflexivity. }
  repeat (split; [assumption|]). split; [exact (RB _ _ _ _ _ _ AX Dtx Btx G0)|exact (RB _ _ _ _ _ _ AY Dty Bty G1)].
Qed.

Lemma tau_pos : 0 < tau.
Proof.
  assert (M0 := near_M d0 d1 M del Gok2 _ _ _ _ AX). destruct (err_bounds M del HM Hdel M0) as (_ & _ & _ & B4 & _). fold e in B4.
  destruct (Rlt_dec 0 tau) as [|N]; auto. exfalso. assert (tau * sg <= 0) by (apply Rnot_lt_le in N; nra). lra.
Qed.

(** The new indices. *)
Lemma solution_near : forall s x y sv n, fp_holds [d0; d1] s -> fp_coords s = [cx; cy] -> fp_target s = [tx; ty] -> fp_dIndices s = [x; y] -> on_axis d0 x -> on_axis d1 y ->
  ls_wf 2 2 sv -> nm (t0 - fval x) (t1 - fval y) <= n -> n <= 4294967296 ->
  exists jr info sv' dx dy, fp_jacobianAndRHS s = Ret jr /\ ls_run g sv (fst jr) (snd jr) = Ret (info, sv') /\ ls_wf 2 2 sv' /\ ls_getSolution sv' = [dx; dy] /\
    on_axis d0 (fp_truncate1 n0 d0 (nadd x dx)) /\ on_axis d1 (fp_truncate1 n0 d1 (nadd y dy)) /\
    nm (t0 - fval (fp_truncate1 n0 d0 (nadd x dx))) (t1 - fval (fp_truncate1 n0 d1 (nadd y dy))) <= rate * n + rest.
Proof.
  intros s x y sv n Hh Hc Htg E Hx Hy W Hn Bn. assert (M0 := near_M d0 d1 M del Gok2 _ _ _ _ AX). destruct (dims2 d0 d1 Gok2) as [R0 R1]. assert (TP := tau_pos).
  destruct (err_bounds M del HM Hdel M0) as (B1 & B2 & B3 & B4 & B5 & B6). fold e in B1, B2, B3, B4, B5, B6.
  destruct (jacobian_near s x y Hh Hc Htg E Hx Hy) as (J00 & J01 & J10 & J11 & r0 & r1 & EJ & D00 & D01 & D10 & D11 & DR0 & DR1 & N00 & N01 & N10 & N11 & NR0 & NR1 & BR0 & BR1).
  assert (E8 : 8 * (8 * e) <= sg) by nra.
  destruct (slopes d0 d1 M del Gok2 _ _ _ _ AX) as [SA SB]. destruct (slopes d0 d1 M del Gok2 _ _ _ _ AY) as [SC SD].
  assert (BJ : forall J q, Rabs (J - q) <= 8 * e -> Rabs q <= 2 * M + 2 * del -> Rabs J <= 2 * M + 10 * e).
  { intros J q H1 H2. replace J with (q + (J - q)) by ring. eapply Rle_trans; [apply Rabs_split; [exact H2|exact H1]|]. lra. }
  assert (PS := perturb_R a b c d (fval J00) (fval J01) (fval J10) (fval J11) sg (8 * e) HS N00 N01 N10 N11 E8).
  destruct (solvable_R (fval J00) (fval J01) (fval J10) (fval J11) (sg / 2) ltac:(lra) PS) as [_ SV]. destruct (SV (fval r0) (fval r1)) as (z0 & z1 & Z0 & Z1).
  assert (NW := newton_R a b c d _ _ _ _ _ _ z0 z1 (t0 - fval x) (t1 - fval y) sg (8 * e) (3 * e) HS N00 N01 N10 N11 E8 Z0 Z1 NR0 NR1).
  set (w := nm (t0 - fval x) (t1 - fval y)) in *. set (k := nm (z0 - (t0 - fval x)) (z1 - (t1 - fval y))) in *.
  assert (Pw : 0 <= w) by apply nm_pos. assert (Pk : 0 <= k) by apply nm_pos.
  assert (K : k <= 4 * tau + 22 * tau * w).
  { apply (Rmult_le_reg_l (3 * sg)); [lra|]. replace (3 * sg * k) with (3 * (sg * k)) by ring. eapply Rle_trans; [exact NW|].
    replace (4 * (3 * e + 2 * (8 * e) * w)) with (e * (12 + 64 * w)) by ring. apply Rle_trans with (tau * sg * (12 + 64 * w)); [apply Rmult_le_compat_r; lra|].
    replace (3 * sg * (4 * tau + 22 * tau * w)) with (tau * sg * (12 + 66 * w)) by ring. apply Rmult_le_compat_l; [|lra]. apply Rlt_le. apply Rmult_lt_0_compat; lra. }
  assert (NZ : nm z0 z1 <= k + w).
  { apply nm_le.
    - replace z0 with ((z0 - (t0 - fval x)) + (t0 - fval x)) by ring. apply Rabs_split; apply nm_l.
    - replace z1 with ((z1 - (t1 - fval y)) + (t1 - fval y)) by ring. apply Rabs_split; apply nm_r. }
  destruct (HG J00 J01 J10 J11 r0 r1 (Z.max 1 (Z.of_nat 2 + Z.max (Z.of_nat 2) 1 * 1)) z0 z1) as (DX & DY & AX0 & AY0); auto; try (eapply BJ; eauto).
  assert (RUN := ls_run_square 2 sv [J00; J01; J10; J11] [r0; r1] g W eq_refl eq_refl ltac:(lia)). cbv zeta in RUN. change (Z.of_nat 2) with 2%Z in *.
  set (r := g 2%Z 2%Z [J00; J01; J10; J11] 2%Z [r0; r1] 2%Z (Z.max 1 (2 + Z.max 2 1 * 1))) in *.
  assert (W' := ls_run_wf 2 sv [J00; J01; J10; J11] [r0; r1] g _ _ W eq_refl eq_refl ltac:(lia) RUN).
  set (dk := eta * nm z0 z1 + zeta + k). assert (PZ := nm_pos z0 z1).
  assert (X0 : Rabs (fval (g_rhs r 0) - (t0 - fval x)) <= dk).
  { replace (fval (g_rhs r 0) - (t0 - fval x)) with ((fval (g_rhs r 0) - z0) + (z0 - (t0 - fval x))) by ring. apply Rabs_split; auto. apply nm_l. }
  assert (X1 : Rabs (fval (g_rhs r 1) - (t1 - fval y)) <= dk).
  { replace (fval (g_rhs r 1) - (t1 - fval y)) with ((fval (g_rhs r 1) - z1) + (z1 - (t1 - fval y))) by ring. apply Rabs_split; auto. apply nm_r. }
  assert (DK : dk <= (2 * eta + 27 * tau) * n + 5 * tau + zeta).
  { unfold dk. assert (T1 : eta * nm z0 z1 <= eta * (k + w)) by (apply Rmult_le_compat_l; lra). assert (T2 : eta * k <= 1 / 16 * k) by (apply Rmult_le_compat_r; lra).
    assert (T3 : tau * w <= tau * n) by (apply Rmult_le_compat_l; lra). assert (T4 : eta * w <= eta * n) by (apply Rmult_le_compat_l; lra).
    assert (T5 : 0 <= eta * n) by (apply Rmult_le_pos; lra). assert (T6 : 0 <= tau * n) by (apply Rmult_le_pos; lra). lra. }
  assert (DB : dk <= bpow radix2 900).
  { apply Rle_trans with (bpow radix2 64); [|apply bpow_le; lia]. change (bpow radix2 64) with 18446744073709551616.
    assert (T1 : eta * n <= 1 / 16 * n) by (apply Rmult_le_compat_r; lra). assert (T2 : tau * n <= 1 / 64 * n) by (apply Rmult_le_compat_r; lra). lra. }
  destruct (add_near d0 x (g_rhs r 0) t0 (t0 - fval x) dk R0 ltac:(lia) Hx DX Ht0 eq_refl X0 DB) as [A0 C0].
  destruct (add_near d1 y (g_rhs r 1) t1 (t1 - fval y) dk R1 ltac:(lia) Hy DY Ht1 eq_refl X1 DB) as [A1 C1].
  exists ([J00; J01; J10; J11], [r0; r1]), (g_info r). eexists. exists (g_rhs r 0), (g_rhs r 1). split; [exact EJ|]. split; [exact RUN|]. split; [exact W'|]. split; [reflexivity|].
  split; auto. split; auto.
  assert (FIN : (1 + uround) * dk + uround * IZR (Z.max d0 d1) + etiny <= rate * n + rest).
  { assert (D2 : 2 <= IZR (Z.max d0 d1)) by (apply IZR_le; lia). assert (ES := etiny_small). assert (Pe := etiny_pos). unfold rate, rest.
    assert (U : (1 + uround) * dk <= (1 + uround) * ((2 * eta + 27 * tau) * n + 5 * tau + zeta)) by (apply Rmult_le_compat_l; [unfold uround; lra|auto]).
    eapply Rle_trans; [apply Rplus_le_compat_r, Rplus_le_compat_r; exact U|].
    assert (T5 : 0 <= eta * n) by (apply Rmult_le_pos; lra). assert (T6 : 0 <= tau * n) by (apply Rmult_le_pos; lra). clear - D2 ES Pe T5 T6 TP Hzeta. unfold uround in *. lra. }
  apply nm_le; rewrite Rabs_minus_sym; eapply Rle_trans; eauto.
Qed.

Variable B : R.
Hypothesis HB : B <= bpow radix2 366.
Hypothesis Ba : Rabs a <= B. Hypothesis Bb : Rabs b <= B. Hypothesis Bc : Rabs c <= B. Hypothesis Bd : Rabs d <= B.

(** A search object for this grid and target, at the indices x, y. *)
Definition at_xy (s : fp (T:=spec_float)) (x y : spec_float) : Prop :=
  goodF [d0; d1]%Z [cx; cy] s /\ fp_period s = [n0; n0] /\ fp_target s = [tx; ty] /\ fp_dIndices s = [x; y] /\
  fp_inside (fp_target s) (fp_xmins s) (fp_xmaxs s) = true.

(** The coordinates at indices close to t. *)
Lemma position_near : forall s x y m, fp_holds [d0; d1] s -> on_axis d0 x -> on_axis d1 y -> nm (t0 - fval x) (t1 - fval y) <= m ->
  exists p q, fp_interp s [x; y] cx = Ret p /\ fp_interp s [x; y] cy = Ret q /\ dbl p /\ dbl q /\
    Rabs (fval p - fval tx) <= 2 * B * m + 2 * e /\ Rabs (fval q - fval ty) <= 2 * B * m + 2 * e.
Proof.
  intros s x y m Hh Hx Hy Hm. assert (M0 := near_M d0 d1 M del Gok2 _ _ _ _ AX).
  destruct (err_bounds M del HM Hdel M0) as (B1 & _). fold e in B1.
  destruct (interp_near d0 d1 s M del Gok2 Hh HM Hdel cx ox a b x y AX Hx Hy) as (p & Ep & Dp & Np & _).
  destruct (interp_near d0 d1 s M del Gok2 Hh HM Hdel cy oy c d x y AY Hx Hy) as (q & Eq & Dq & Nq & _). fold e in Np, Nq.
  exists p, q. do 4 (split; [assumption|]).
  assert (X : Rabs (t0 - fval x) <= m) by (eapply Rle_trans; [apply nm_l|exact Hm]). assert (Y : Rabs (t1 - fval y) <= m) by (eapply Rle_trans; [apply nm_r|exact Hm]).
  split.
  - replace (fval p - fval tx) with ((fval p - (ox + a * fval x + b * fval y)) + (- (fval tx - (ox + a * t0 + b * t1)) + (- (a * (t0 - fval x)) + - (b * (t1 - fval y))))) by ring.
    apply Rle_trans with (e + (del + (B * m + B * m))); [|lra]. apply Rabs_split; auto. apply Rabs_split; [rewrite Rabs_Ropp; auto|]. apply Rabs_split; rewrite Rabs_Ropp; apply prod_le; auto.
  - replace (fval q - fval ty) with ((fval q - (oy + c * fval x + d * fval y)) + (- (fval ty - (oy + c * t0 + d * t1)) + (- (c * (t0 - fval x)) + - (d * (t1 - fval y))))) by ring.
    apply Rle_trans with (e + (del + (B * m + B * m))); [|lra]. apply Rabs_split; auto. apply Rabs_split; [rewrite Rabs_Ropp; auto|]. apply Rabs_split; rewrite Rabs_Ropp; apply prod_le; auto.
Qed.

Theorem next_near : forall s x y n, at_xy s x y -> (0 <= fp_iter s < int_max)%Z -> (fp_iter s + 1 < fp_nitermax s)%Z -> (length (fp_errors s) < 2)%nat ->
  nm (t0 - fval x) (t1 - fval y) <= n -> n <= 4294967296 ->
  exists code s' x' y', fp_next g s = Ret (code, s') /\ at_xy s' x' y' /\ nm (t0 - fval x') (t1 - fval y') <= rate * n + rest /\
    fp_iter s' = (fp_iter s + 1)%Z /\ fp_nitermax s' = fp_nitermax s /\ fp_tolpos s' = fp_tolpos s /\ length (fp_errors s') = S (length (fp_errors s)) /\
    (code = 0 \/ code = 1)%Z /\
    (dbl (fp_tolpos s) -> 2 * (2 * B * (rate * n + rest) + 2 * e) + bpow radix2 (-535) <= fval (fp_tolpos s) -> code = 1%Z).
Proof.
  intros s x y n (G & Per & Htg & E & IN) It Nit LE Hn Bn. assert (G' := G). destruct G' as (_ & Hh & Hc & _ & Pp & _ & (sv & Hsv & W) & GI).
  assert (Hd : fp_dims s = [d0; d1]) by apply Hh. rewrite Hd in W. cbn [length] in W. rewrite E in GI.
  assert (Hx : on_axis d0 x) by (inversion GI; auto). assert (Hy : on_axis d1 y) by (inversion GI as [|? ? ? ? ? GI']; inversion GI'; auto).
  destruct (solution_near s x y sv n Hh Hc Htg E Hx Hy W Hn Bn) as (jr & info & sv' & dx & dy & EJ & ER & W' & ES & Ax & Ay & NR).
  set (x' := fp_truncate1 n0 d0 (nadd x dx)) in *. set (y' := fp_truncate1 n0 d1 (nadd y dy)) in *.
  assert (M0 := near_M d0 d1 M del Gok2 _ _ _ _ AX). destruct (err_bounds M del HM Hdel M0) as (_ & _ & _ & B4 & _ & B6). fold e in B4, B6.
  set (st errs old := mkFp (Some sv') (fp_coords s) (fp_xmins s) (fp_xmaxs s) (fp_prodDims s) (fp_nodeProdDims s) (fp_period s) (fp_dims s) (fp_target s)
         (fp_nitermax s) (fp_tolpos s) (fp_iter s + 1)%Z [x'; y'] errs old).
  assert (HH : forall errs old, fp_holds [d0; d1] (st errs old)) by (intros; exact Hh).
  assert (AT : forall errs old, at_xy (st errs old) x' y').
  { intros errs old. unfold at_xy. split; [|repeat split; auto]. destruct G as (g1 & g2 & g3 & g4 & g5 & g6 & g7 & g8). unfold goodF. split; [exact g1|]. split; [exact Hh|]. do 4 (split; [assumption|]).
    split; [exists sv'; split; [reflexivity|]; cbn [fp_dims st]; rewrite Hd; exact W'|]. cbn [fp_dIndices st]. apply Forall2_cons; [exact Ax|apply Forall2_cons; [exact Ay|constructor]]. }
  destruct (position_near (st (fp_errors s) (fp_oldError s)) x' y' _ (HH _ _) Ax Ay NR) as (p & q & Ep & Eq & Dp & Dq & Np & Nq).
  set (err := nsqrt (nadd (nadd n0 (nmul (nsub p tx) (nsub p tx))) (nmul (nsub q ty) (nsub q ty)))).
  assert (EE : fp_getError (st (fp_errors s) (fp_oldError s)) = Ret err).
  { unfold fp_getError, fp_getPosition. change (fp_coords (st (fp_errors s) (fp_oldError s))) with (fp_coords s). change (fp_dims (st (fp_errors s) (fp_oldError s))) with (fp_dims s).
    change (fp_target (st (fp_errors s) (fp_oldError s))) with (fp_target s). change (fp_dIndices (st (fp_errors s) (fp_oldError s))) with [x'; y'].
    rewrite Hc, Hd, Htg. cbn [mapM]. rewrite Ep, Eq. cbn [bind]. reflexivity. }
  assert (NX : fp_next g s = Ret (if nlt err (fp_tolpos s) then (1%Z, st (fp_errors s ++ [err]) (fp_oldError s)) else (0%Z, st (fp_errors s ++ [err]) err))).
  { unfold fp_next. rewrite IN. cbn [negb]. rewrite EJ. cbn [bind]. rewrite Hsv, ER. cbn [bind snd]. rewrite ES, E, Hd. cbn [length].
    change (zseq 2) with [0; 1]%Z. cbn [mapM]. change (vget [x; y] 0) with (Ret x). change (vget [x; y] 1) with (Ret y). change (vget [dx; dy] 0) with (Ret dx). change (vget [dx; dy] 1) with (Ret dy). cbn [bind].
    rewrite Per. cbn [fp_truncate]. fold x' y'. rewrite (chk_ok (fp_iter s + 1)) by (unfold int_min, int_max in *; lia). cbn [bind].
    rewrite <- Per, <- Hd.  assert (EE2 := EE). unfold st in EE2. cbv beta in EE2. rewrite EE2. cbn [bind].
    assert (L3 : (3 <=? length (fp_errors s ++ [err]))%nat = false) by (apply Nat.leb_gt; rewrite app_length; cbn [length]; lia). rewrite L3, andb_false_r. cbn [andb].
    assert (LN : (fp_nitermax s <=? fp_iter s + 1)%Z = false) by (apply Z.leb_gt; lia). rewrite LN.
    destruct (nlt err (fp_tolpos s)); reflexivity. }
  assert (KEY : dbl (fp_tolpos s) -> 2 * (2 * B * (rate * n + rest) + 2 * e) + bpow radix2 (-535) <= fval (fp_tolpos s) -> nlt err (fp_tolpos s) = true).
  { intros Dt Tt. eapply dist_small; [exact Dp|exact Dq|exact Dtx|exact Dty|exact Dt| |exact Np|exact Nq|exact Tt].
    assert (RN : rate * n + rest <= 8589934592).
    { unfold rate, rest. assert (TP := tau_pos). assert (DM : IZR (Z.max d0 d1) <= 2147483648) by (apply IZR_le; destruct (dims2 d0 d1 Gok2); lia).
      assert (N0 : 0 <= n) by (eapply Rle_trans; [apply nm_pos|exact Hn]).
      assert (T1 : eta * n <= 1 / 16 * n) by (apply Rmult_le_compat_r; lra). assert (T2 : tau * n <= 1 / 64 * n) by (apply Rmult_le_compat_r; lra). unfold uround. lra. }
    assert (B0 : 0 <= B) by (assert (Q := Rabs_pos a); lra).
    assert (T : 2 * B * (rate * n + rest) <= 2 * bpow radix2 366 * 8589934592) by (assert (T1 : B * (rate * n + rest) <= B * 8589934592) by (apply Rmult_le_compat_l; auto); lra).
    assert (G3 : 2 * bpow radix2 366 * 8589934592 = bpow radix2 400) by (change 8589934592 with (bpow radix2 33); change 2 with (bpow radix2 1); rewrite <- !bpow_plus; reflexivity).
    assert (G4 : bpow radix2 404 = 16 * bpow radix2 400) by (change 16 with (bpow radix2 4); rewrite <- bpow_plus; reflexivity).
    assert (G5 : 1 <= bpow radix2 400) by (change 1 with (bpow radix2 0); apply bpow_le; lia). lra. }
  rewrite NX. destruct (nlt err (fp_tolpos s)) eqn:LT.
  - eexists. eexists. exists x', y'. split; [reflexivity|]. split; [apply AT|]. split; [exact NR|]. cbn [fp_iter fp_nitermax fp_tolpos fp_errors st]. repeat (split; [reflexivity || (rewrite app_length; cbn [length]; lia) || (right; reflexivity)|]). intros; reflexivity.
  - eexists. eexists. exists x', y'. split; [reflexivity|]. split; [apply AT|]. split; [exact NR|]. cbn [fp_iter fp_nitermax fp_tolpos fp_errors st]. repeat (split; [reflexivity || (rewrite app_length; cbn [length]; lia) || (left; reflexivity)|]). intros Dt Tt. specialize (KEY Dt Tt). discriminate.
Qed.

(** The loop ends within two steps. *)
Theorem search_near : forall s x y n, at_xy s x y -> fp_iter s = 0%Z -> fp_errors s = [] -> (3 <= fp_nitermax s)%Z ->
  nm (t0 - fval x) (t1 - fval y) <= n -> n <= 4294967296 -> dbl (fp_tolpos s) ->
  2 * (2 * B * (rate * (rate * n + rest) + rest) + 2 * e) + bpow radix2 (-535) <= fval (fp_tolpos s) ->
  exists s' x' y', fp_search g s = Ret (1%Z, s') /\ at_xy s' x' y' /\ nm (t0 - fval x') (t1 - fval y') <= Rmax (rate * n + rest) (rate * (rate * n + rest) + rest) /\ (1 <= fp_iter s' <= 2)%Z.
Proof.
  intros s x y n A I0 E0 Nit Hn Bn Dt Tt. assert (N0 : 0 <= n) by (eapply Rle_trans; [apply nm_pos|exact Hn]). assert (TP := tau_pos).
  destruct (next_near s x y n A) as (code & s1 & x1 & y1 & N1 & A1 & R1 & I1 & M1 & T1 & L1 & C1 & _); auto; rewrite ?I0, ?E0; cbn [length]; try lia.
  { unfold int_max; lia. }
  unfold fp_search. assert (F : exists k, S (Z.to_nat (fp_nitermax s)) = S (S k)) by (exists (Z.to_nat (fp_nitermax s - 1)); rewrite <- Z2Nat.inj_succ by lia; f_equal; f_equal; lia).
  destruct F as (k & ->). cbn [fp_loop]. rewrite N1. cbn [bind fst snd]. destruct C1 as [-> | ->].
  2:{ cbn [Z.eqb bind]. exists s1, x1, y1. split; [reflexivity|]. split; auto. split; [eapply Rle_trans; [exact R1|apply Rmax_l]|lia]. }
  cbn [Z.eqb]. 
  assert (RN : rate * n + rest <= 4294967296).
  { unfold rate, rest. assert (DM : IZR (Z.max d0 d1) <= 2147483648) by (apply IZR_le; destruct (dims2 d0 d1 Gok2); lia).
    assert (Q1 : eta * n <= 1 / 16 * n) by (apply Rmult_le_compat_r; lra). assert (Q2 : tau * n <= 1 / 64 * n) by (apply Rmult_le_compat_r; lra). unfold uround. lra. }
  rewrite E0 in L1. cbn [length] in L1.
  destruct (next_near s1 x1 y1 (rate * n + rest) A1) as (code2 & s2 & x2 & y2 & N2 & A2 & R2 & I2 & M2 & T2 & L2 & C2 & F2); auto; try (rewrite ?I1, ?I0, ?M1, ?L1; unfold int_max; lia).
  rewrite T1 in F2. specialize (F2 Dt Tt). subst code2. rewrite N2. cbn [bind fst snd Z.eqb].
  exists s2, x2, y2. split; [reflexivity|]. split; auto. split; [eapply Rle_trans; [exact R2|apply Rmax_r]|]. lia.
Qed.
End Step.
