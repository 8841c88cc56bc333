(** C13 in IEEE double arithmetic: on a grid that is affine up to rounding the search finds every target within two steps. *)
From Coq Require Import ZArith List Bool Reals Lra Lia Floats.SpecFloat.
From Flocq Require Import Core BinarySingleNaN.
From Verif Require Import Base Num NumR NumF M_LinearSolve M_FindPoint S_Grid L_LinearSolve L_Interp L_FindPoint L_FindPointR L_FindPointG
  L_Cramer L_Float L_FloatOps L_FindPointF L_NodeInterpF L_AffineF L_CramerF.
Import ListNotations.
Open Scope R_scope.

(** ** The bounding box *)
Lemma max_val : dbl (nmax : spec_float) /\ dbl (nopp nmax : spec_float).
Proof. split; split; reflexivity. Qed.

Lemma eps_val : dbl (fp_eps : spec_float) /\ 0 <= fval fp_eps <= 1.
Proof.
  assert (E : (fp_eps : spec_float) = S754_finite false 7036874417766400 (-98)) by (vm_compute; reflexivity). rewrite E.
  split; [split; reflexivity|]. unfold fval. cbn [SF2R cond_Zopp]. unfold F2R. simpl Fnum. simpl Fexp.
  change (bpow radix2 (-98)) with (/ IZR (2 ^ 98)). change (2 ^ 98)%Z with 316912650057057350374175801344%Z. lra.
Qed.

Lemma runmin_F : forall c i, Forall dbl c -> dbl i -> dbl (runmin i c) /\ fval (runmin i c) <= fval i /\ (forall v, In v c -> fval (runmin i c) <= fval v) /\ (runmin i c = i \/ In (runmin i c) c).
Proof.
  induction c as [|w c IH]; intros i F D; [cbn; repeat split; auto; try apply D; try lra; intros v []|]. apply Forall_cons_iff in F. destruct F as [W F].
  change (runmin i (w :: c)) with (runmin (if nlt i w then i else w) c).
  assert (L := f_lt i w D W). unfold Rltb in L. destruct (Rlt_dec (fval i) (fval w)) as [K|K]; rewrite L.
  - destruct (IH i F D) as (A1 & A2 & A3 & A4). split; auto. split; auto. split; [intros v [<- |I]; [lra|auto]|]. destruct A4 as [A4|A4]; [left; auto|right; right; auto].
  - destruct (IH w F W) as (A1 & A2 & A3 & A4). split; auto. split; [lra|]. split; [intros v [<- |I]; auto|]. right. destruct A4 as [A4|A4]; [left; auto|right; auto].
Qed.

Lemma runmax_F : forall c i, Forall dbl c -> dbl i -> dbl (runmax i c) /\ fval i <= fval (runmax i c) /\ (forall v, In v c -> fval v <= fval (runmax i c)) /\ (runmax i c = i \/ In (runmax i c) c).
Proof.
  induction c as [|w c IH]; intros i F D; [cbn; repeat split; auto; try apply D; try lra; intros v []|]. apply Forall_cons_iff in F. destruct F as [W F].
  change (runmax i (w :: c)) with (runmax (if nlt w i then i else w) c).
  assert (L := f_lt w i W D). unfold Rltb in L. destruct (Rlt_dec (fval w) (fval i)) as [K|K]; rewrite L.
  - destruct (IH i F D) as (A1 & A2 & A3 & A4). split; auto. split; auto. split; [intros v [<- |I]; [lra|auto]|]. destruct A4 as [A4|A4]; [left; auto|right; right; auto].
  - destruct (IH w F W) as (A1 & A2 & A3 & A4). split; auto. split; [lra|]. split; [intros v [<- |I]; auto|]. right. destruct A4 as [A4|A4]; [left; auto|right; auto].
Qed.

Lemma max_big : bpow radix2 971 <= fval nmax /\ fval (nopp nmax) <= - bpow radix2 971.
Proof.
  assert (E : (nmax : spec_float) = S754_finite false 9007199254740991 971) by (vm_compute; reflexivity).
  assert (E' : (nopp nmax : spec_float) = S754_finite true 9007199254740991 971) by (vm_compute; reflexivity). rewrite E', E.
  unfold fval. cbn [SF2R cond_Zopp]. unfold F2R. cbn [Fnum Fexp]. assert (P := bpow_gt_0 radix2 971). set (q := bpow radix2 971) in *. clearbody q.
  change (Z.opp 9007199254740991) with (-9007199254740991)%Z. split; lra.
Qed.

(** A value between two of the node values passes the test of the code. *)
Lemma inside1 : forall c x M, Forall dbl c -> dbl x -> (forall v, In v c -> Rabs (fval v) <= M) -> M <= bpow radix2 400 ->
  (exists v, In v c /\ fval v <= fval x) -> (exists v, In v c /\ fval x <= fval v) ->
  Rabs (fval x) <= M /\ nle (nsub (runmin nmax c) fp_eps) x = true /\ nle x (nadd (runmax (nopp nmax) c) fp_eps) = true.
Proof.
  intros c x M F Dx BM HM (v & Iv & Lv) (w & Iw & Lw). destruct max_val as [X1 X2]. destruct eps_val as [De Ve]. destruct max_big as [Y1 Y2].
  assert (G : bpow radix2 401 <= bpow radix2 971) by (apply bpow_le; lia). assert (G2 : bpow radix2 401 = 2 * bpow radix2 400) by (change 401%Z with (1 + 400)%Z; rewrite bpow_plus; reflexivity).
  assert (G3 : 1 <= bpow radix2 400) by (change 1 with (bpow radix2 0); apply bpow_le; lia). assert (G4 : bpow radix2 971 <= bpow radix2 1000) by (apply bpow_le; lia).
  assert (Bv := BM v Iv). assert (Bw := BM w Iw). apply Rabs_le_inv in Bv, Bw. split; [apply Rabs_le; lra|].
  destruct (runmin_F c nmax F X1) as (A1 & _ & A3 & A4). destruct (runmax_F c (nopp nmax) F X2) as (C1 & _ & C3 & C4). specialize (A3 v Iv). specialize (C3 w Iw).
  set (lo := runmin nmax c) in *. set (hi := runmax (nopp nmax) c) in *.
  assert (BL : - M <= fval lo) by (destruct A4 as [A4|A4]; [rewrite A4 in A3 |- *; lra|apply BM in A4; apply Rabs_le_inv in A4; lra]).
  assert (BH : fval hi <= M) by (destruct C4 as [C4|C4]; [rewrite C4 in C3 |- *; lra|apply BM in C4; apply Rabs_le_inv in C4; lra]).
  destruct (f_sub lo fp_eps A1 De) as [S1 S2]; [apply Rabs_le; lra|]. destruct (f_add hi fp_eps C1 De) as [T1 T2]; [apply Rabs_le; lra|].
  rewrite !f_le by auto. rewrite S2, T2. unfold Rleb.
  assert (K1 : rnd (fval lo - fval fp_eps) <= fval lo) by (rewrite <- (rnd_id lo A1) at 2; apply rnd_le; lra).
  assert (K2 : fval hi <= rnd (fval hi + fval fp_eps)) by (rewrite <- (rnd_id hi C1) at 1; apply rnd_le; lra).
  split; [destruct (Rle_dec (rnd (fval lo - fval fp_eps)) (fval x)); auto; lra|destruct (Rle_dec (fval x) (rnd (fval hi + fval fp_eps))); auto; lra].
Qed.

(** ** The theorem *)
(** The grid, up to [del]: x = ox + a i + b j and y = oy + c i + d j at the node (i, j), a map that stretches every displacement by at
    least [sg]; [tau] bounds the error of an interpolated coordinate (del + 48 u M + 12 etiny) in units of [sg].  The linear solver is
    accurate up to eta |z| + zeta.  [rate] and [rest] then bound what one step leaves of the distance to the target. *)
Theorem C13_ieee : forall g nit tol d0 d1 cx cy (s0 s : fp (T:=spec_float)) gx gy tx ty ox oy a b c d M del B sg tau eta zeta t0 t1,
  let e := del + 48 * uround * M + 12 * etiny in
  let q := rate tau eta in let r := rest d0 d1 tau zeta in let D := IZR (Z.max d0 d1) in
  grid_data [d0; d1]%Z [cx; cy] -> near_affine d0 d1 M del cx ox a b -> near_affine d0 d1 M del cy oy c d ->
  M <= bpow radix2 400 -> 0 <= del <= bpow radix2 400 ->
  Rabs a <= B -> Rabs b <= B -> Rabs c <= B -> Rabs d <= B -> B <= bpow radix2 366 ->
  0 < sg -> (forall u v, sg * Rmax (Rabs u) (Rabs v) <= Rmax (Rabs (a * u + b * v)) (Rabs (c * u + d * v))) ->
  e <= tau * sg -> tau <= 1 / 64 -> 0 <= eta <= 1 / 16 -> 0 <= zeta <= 1 -> accurate2 g (2 * M + 10 * e) (sg / 2) eta zeta ->
  fp_setGrid (fp_new nit tol) [d0; d1]%Z [0; 0]%Z [cx; cy] = Ret s0 ->
  on_axis d0 gx -> on_axis d1 gy ->
  dbl tx -> dbl ty -> 0 <= t0 <= IZR (d0 - 1) -> 0 <= t1 <= IZR (d1 - 1) ->
  Rabs (fval tx - (ox + a * t0 + b * t1)) <= del -> Rabs (fval ty - (oy + c * t0 + d * t1)) <= del ->
  (exists v, In v cx /\ fval v <= fval tx) -> (exists v, In v cx /\ fval tx <= fval v) ->
  (exists v, In v cy /\ fval v <= fval ty) -> (exists v, In v cy /\ fval ty <= fval v) ->
  fp_reset s0 [gx; gy] [tx; ty] = Ret s -> (3 <= nit)%Z -> dbl tol ->
  4 * B * (q * (q * D + r) + r) + 4 * e + bpow radix2 (-535) <= fval tol ->
  exists s' x y, fp_search g s = Ret (1%Z, s') /\ fp_dIndices s' = [x; y] /\ on_axis d0 x /\ on_axis d1 y /\
    Rabs (fval x - t0) <= q * D + 2 * r /\ Rabs (fval y - t1) <= q * D + 2 * r /\ (1 <= fp_iter s' <= 2)%Z.
Proof.
  intros g nit tol d0 d1 cx cy s0 s gx gy tx ty ox oy a b c d M del B sg tau eta zeta t0 t1 e q r D HD AX AY HM Hdel Ba Bb Bc Bd HB Hsg HS HT Htau Heta Hzeta HG SG Hgx Hgy
    Dtx Dty Ht0 Ht1 Ntx Nty Lx Ux Ly Uy HR Nit Dtol TT.
  assert (EE : e = err_at M del) by (unfold e; symmetry; apply err_val). assert (R := dims2 d0 d1 (proj1 (proj2 HD))). destruct R as [R0 R1].
  assert (AX' := AX). destruct AX' as (_ & DX & BX & _). assert (AY' := AY). destruct AY' as (_ & DY & BY & _).
  destruct (inside1 cx tx M DX Dtx BX HM Lx Ux) as (Btx & I1 & I2). destruct (inside1 cy ty M DY Dty BY HM Ly Uy) as (Bty & I3 & I4).
  assert (HG0 : in_gridF [d0; d1] [gx; gy]) by (apply Forall2_cons; [exact Hgx|apply Forall2_cons; [exact Hgy|constructor]]).
  destruct (reset_F (fp_new nit tol) s0 [d0; d1]%Z [0; 0]%Z [cx; cy] [gx; gy] [tx; ty] HD ltac:(constructor) SG HG0 eq_refl) as (_ & s' & ER & G & I0 & Etg & En).
  rewrite HR in ER. injection ER as <-.
  destruct (setGrid_ok (fp_new nit tol) [d0; d1]%Z [0; 0]%Z [cx; cy] HD) as (s1 & E1 & _ & _ & _ & _ & _ & Emin & Emax & Eper & Enit & Etol & _ & _ & _).
  rewrite SG in E1. injection E1 as <-.
  assert (HR' := HR). unfold fp_reset in HR'. apply bind_ret_inv in HR'. destruct HR' as (dd & Hdd & HR'). apply bind_ret_inv in HR'. destruct HR' as (tt & Htt & HR'). injection HR' as Es.
  assert (EI : fp_dIndices s = [gx; gy]).
  { rewrite <- Es. cbn [fp_dIndices]. assert (Hd : fp_dims s0 = [d0; d1]) by (destruct G as (_ & (Hd & _) & _); rewrite <- Es in Hd; exact Hd). rewrite Hd in Hdd.
    cbn [length] in Hdd. change (zseq 2) with [0; 1]%Z in Hdd. cbn [mapM] in Hdd. change (vget [gx; gy] 0) with (Ret gx) in Hdd. change (vget [gx; gy] 1) with (Ret gy) in Hdd. cbn [bind] in Hdd. injection Hdd as <-. reflexivity. }
  assert (AT : at_xy d0 d1 cx cy tx ty s gx gy).
  { split; [exact G|]. split; [|split; [exact Etg|split; [exact EI|]]].
    - rewrite <- Es. cbn [fp_period]. rewrite Eper. reflexivity.
    - rewrite Etg. rewrite <- Es. cbn [fp_xmins fp_xmaxs]. rewrite Emin, Emax. cbn [fp_new fp_xmins fp_xmaxs resize length firstn app repeat Nat.sub zipmap fp_inside]. rewrite I1, I2, I3, I4. reflexivity. }
  assert (TP : fp_tolpos s = tol) by (rewrite <- Es; cbn [fp_tolpos]; rewrite Etol; reflexivity).
  assert (NW : nm (t0 - fval gx) (t1 - fval gy) <= D).
  { destruct Hgx as [_ Pgx], Hgy as [_ Pgy]. assert (K0 : IZR (d0 - 1) <= D) by (apply IZR_le; lia). assert (K1 : IZR (d1 - 1) <= D) by (apply IZR_le; lia). apply nm_le; apply Rabs_le; lra. }
  assert (DB : D <= 4294967296) by (apply IZR_le; lia).
  rewrite EE in HT, HG. 
  destruct (search_near d0 d1 cx cy ox oy a b c d M del sg tau eta zeta g tx ty t0 t1 HD HM Hdel AX AY HS Hsg HT Htau Heta Hzeta HG Dtx Dty Btx Bty Ntx Nty Ht0 Ht1 B HB Ba Bb Bc Bd s gx gy D AT I0)
    as (s' & x & y & ES & (AG & _ & _ & AI & _) & AN & AIt).
  - rewrite <- Es. reflexivity.
  - rewrite En. exact Nit.
  - exact NW.
  - exact DB.
  - rewrite TP. exact Dtol.
  - rewrite TP. rewrite <- EE. fold q r. lra.
  - exists s', x, y. split; [exact ES|]. split; [exact AI|]. destruct AG as (_ & _ & _ & _ & _ & _ & _ & AF). rewrite AI in AF.
    assert (Hx : on_axis d0 x) by (inversion AF; auto). assert (Hy : on_axis d1 y) by (inversion AF as [|? ? ? ? ? AF']; inversion AF'; auto).
    split; auto. split; auto. fold q r in AN.
    assert (TP0 := tau_pos d0 d1 cx cy ox a b M del sg tau HD HM Hdel AX Hsg HT).
    assert (Q1 : 0 <= q <= 1) by (unfold q, rate; lra). assert (D0 : 0 <= D) by (apply IZR_le; lia). assert (R0' : 0 <= r) by (unfold r, rest; fold D; unfold uround; lra).
    assert (QD : 0 <= q * D) by (apply Rmult_le_pos; lra).
    assert (MX : Rmax (q * D + r) (q * (q * D + r) + r) <= q * D + 2 * r).
    { apply Rmax_lub; [lra|]. assert (T : q * (q * D + r) <= 1 * (q * D + r)) by (apply Rmult_le_compat_r; lra). lra. }
    split; [|split; auto]; rewrite Rabs_minus_sym; eapply Rle_trans; [apply nm_l|eapply Rle_trans; [exact AN|exact MX]|apply nm_r|eapply Rle_trans; [exact AN|exact MX]].
Qed.
Print Assumptions C13_ieee.

(** ** A sheared grid of nine nodes, x = i + j/2 and y = j, solved by Cramer's rule in doubles: from the opposite corner the target
    (1.75, 1.5) is found, within 2^-30 of the indices (1, 1.5). *)
Definition hf (z : Z) : spec_float := lit z 2.
Definition shx : list spec_float := map hf [0; 1; 2; 2; 3; 4; 4; 5; 6]%Z.
Definition shy : list spec_float := map hf [0; 2; 4; 0; 2; 4; 0; 2; 4]%Z.
Definition tol30 : spec_float := lit 1 1073741824.

Definition is_dblb (x : spec_float) : bool := (SpecFloat.valid_binary fprec femax x && is_finite_SF x)%bool.
Lemma dbls : forall l, forallb is_dblb l = true -> Forall dbl l.
Proof. intros l H. apply Forall_forall. intros x I. rewrite forallb_forall in H. specialize (H x I). apply andb_true_iff in H. exact H. Qed.

Lemma pow_facts : uround = / 9007199254740992 /\ 0 <= etiny <= / 9007199254740992 /\ 0 <= bpow radix2 (-69) <= / 9007199254740992 /\ 0 <= bpow radix2 (-535) <= / 9007199254740992.
Proof.
  assert (U : bpow radix2 (-53) = / 9007199254740992) by reflexivity. split; [exact U|]. rewrite <- U.
  split; [|split]; (split; [apply bpow_ge_0|apply bpow_le; lia]).
Qed.

Lemma hf_vals : map fval (map hf [0; 1; 2; 3; 4; 5; 6; 7]%Z) = [0; 1 / 2; 1; 3 / 2; 2; 5 / 2; 3; 7 / 2] /\ fval tol30 = / 1073741824.
Proof.
  assert (E : map hf [0; 1; 2; 3; 4; 5; 6; 7]%Z = [S754_zero false; S754_finite false 4503599627370496 (-53); S754_finite false 4503599627370496 (-52); S754_finite false 6755399441055744 (-52);
    S754_finite false 4503599627370496 (-51); S754_finite false 5629499534213120 (-51); S754_finite false 6755399441055744 (-51); S754_finite false 7881299347898368 (-51)]) by (vm_compute; reflexivity).
  rewrite E. assert (E2 : tol30 = S754_finite false 4503599627370496 (-82)) by (vm_compute; reflexivity). rewrite E2.
  unfold fval. cbn [map SF2R cond_Zopp]. unfold F2R. cbn [Fnum Fexp].
  change (bpow radix2 (-53)) with (/ 9007199254740992). change (bpow radix2 (-52)) with (/ 4503599627370496). change (bpow radix2 (-51)) with (/ 2251799813685248).
  change (bpow radix2 (-82)) with (/ 4835703278458516698824704). split; [repeat (f_equal; try lra)|lra].
Qed.

Lemma half_values : fval (hf 0) = 0 /\ fval (hf 1) = 1 / 2 /\ fval (hf 2) = 1 /\ fval (hf 3) = 3 / 2 /\ fval (hf 4) = 2 /\ fval (hf 5) = 5 / 2 /\ fval (hf 6) = 3 /\ fval (lit 7 4) = 7 / 4.
Proof.
  destruct hf_vals as [HV _]. assert (V := fun k => f_equal (fun l => nth k l 0) HV).
  split; [exact (V 0%nat)|]. split; [exact (V 1%nat)|]. split; [exact (V 2%nat)|]. split; [exact (V 3%nat)|]. split; [exact (V 4%nat)|]. split; [exact (V 5%nat)|]. split; [exact (V 6%nat)|].
  assert (E : (lit 7 4 : spec_float) = S754_finite false 7881299347898368 (-52)) by (vm_compute; reflexivity). rewrite E. unfold fval. cbn [SF2R cond_Zopp]. unfold F2R. cbn [Fnum Fexp].
  change (bpow radix2 (-52)) with (/ 4503599627370496). lra.
Qed.

Lemma sheared_grid : grid_data [3; 3]%Z [shx; shy] /\ near_affine 3 3 4 0 shx 0 1 (1 / 2) /\ near_affine 3 3 4 0 shy 0 0 1.
Proof.
  destruct half_values as (V0 & V1 & V2 & V3 & V4 & V5 & V6 & _).
  split; [repeat split; try (vm_compute; congruence); try lia; repeat constructor; vm_compute; auto; discriminate|]. split.
  - split; [reflexivity|]. split; [apply dbls; vm_compute; reflexivity|]. split.
    + intros f I. unfold shx in I. cbn [map In] in I. repeat (destruct I as [<- |I]; [rewrite Rabs_pos_eq; lra|]). destruct I.
    + intros i j Hi Hj. assert (Ci : (i = 0 \/ i = 1 \/ i = 2)%Z) by lia. assert (Cj : (j = 0 \/ j = 1 \/ j = 2)%Z) by lia.
      destruct Ci as [-> |[-> | ->]]; destruct Cj as [-> |[-> | ->]];
        (match goal with |- context [nth ?n shx ?z] => let v := eval vm_compute in n in let h := eval cbn [shx map nth] in (nth v shx z) in change (nth n shx z) with h end); apply Rabs_le; lra.
  - split; [reflexivity|]. split; [apply dbls; vm_compute; reflexivity|]. split.
    + intros f I. unfold shy in I. cbn [map In] in I. repeat (destruct I as [<- |I]; [rewrite Rabs_pos_eq; lra|]). destruct I.
    + intros i j Hi Hj. assert (Ci : (i = 0 \/ i = 1 \/ i = 2)%Z) by lia. assert (Cj : (j = 0 \/ j = 1 \/ j = 2)%Z) by lia.
      destruct Ci as [-> |[-> | ->]]; destruct Cj as [-> |[-> | ->]];
        (match goal with |- context [nth ?n shy ?z] => let v := eval vm_compute in n in let h := eval cbn [shy map nth] in (nth v shy z) in change (nth n shy z) with h end); apply Rabs_le; lra.
Qed.

Lemma sheared_stretch : forall u v, 1 / 2 * Rmax (Rabs u) (Rabs v) <= Rmax (Rabs (1 * u + 1 / 2 * v)) (Rabs (0 * u + 1 * v)).
Proof.
  intros u v. replace (0 * u + 1 * v) with v by ring. replace (1 * u + 1 / 2 * v) with (u + v / 2) by field.
  assert (M1 := Rmax_l (Rabs (u + v / 2)) (Rabs v)). assert (M2 := Rmax_r (Rabs (u + v / 2)) (Rabs v)). set (m := Rmax (Rabs (u + v / 2)) (Rabs v)) in *. clearbody m.
  apply Rmult_le_reg_l with 2; [lra|]. replace (2 * (1 / 2 * Rmax (Rabs u) (Rabs v))) with (Rmax (Rabs u) (Rabs v)) by field.
  revert M1 M2. unfold Rmax, Rabs. destruct (Rle_dec _ _); destruct (Rcase_abs (u + v / 2)); destruct (Rcase_abs u); destruct (Rcase_abs v); lra.
Qed.

Lemma sheared_powers : 64 <= bpow radix2 400 /\ 64 <= bpow radix2 366 /\ 64 <= bpow radix2 405 /\ bpow radix2 (-500) <= / 4.
Proof. repeat split; [change 64 with (bpow radix2 6)|change 64 with (bpow radix2 6)|change 64 with (bpow radix2 6)|change (/ 4) with (bpow radix2 (-2))]; apply bpow_le; lia. Qed.

Example C13_ieee_nonvacuous : exists s0 s s' x y,
  fp_setGrid (fp_new 3 tol30) [3; 3]%Z [0; 0]%Z [shx; shy] = Ret s0 /\ fp_reset s0 [hf 4; hf 0] [lit 7 4; hf 3] = Ret s /\
  fp_search cramer s = Ret (1%Z, s') /\ fp_dIndices s' = [x; y] /\ Rabs (fval x - 1) <= / 1073741824 /\ Rabs (fval y - 3 / 2) <= / 1073741824.
Proof.
  destruct half_values as (V0 & V1 & V2 & V3 & V4 & V5 & V6 & T7). destruct hf_vals as [_ HT]. destruct pow_facts as (U & PE & PZ & PT). destruct sheared_powers as (P400 & P366 & P405 & Pm).
  destruct sheared_grid as (HD & AX & AY).
  destruct (setGrid_ok (fp_new 3 tol30) [3; 3]%Z [0; 0]%Z [shx; shy] HD) as (s0 & SG & _).
  assert (Hgx : on_axis 3 (hf 4)) by (split; [split; reflexivity|rewrite V4; change (3 - 1)%Z with 2%Z; lra]). assert (Hgy : on_axis 3 (hf 0)) by (split; [split; reflexivity|rewrite V0; change (3 - 1)%Z with 2%Z; lra]).
  assert (HG0 : in_gridF [3; 3]%Z [hf 4; hf 0]) by (apply Forall2_cons; [exact Hgx|apply Forall2_cons; [exact Hgy|constructor]]).
  destruct (reset_F (fp_new 3 tol30) s0 [3; 3]%Z [0; 0]%Z [shx; shy] [hf 4; hf 0] [lit 7 4; hf 3] HD ltac:(constructor) SG HG0 eq_refl) as (_ & s & ER & _).
  exists s0, s. 
  destruct (C13_ieee cramer 3 tol30 3 3 shx shy s0 s (hf 4) (hf 0) (lit 7 4) (hf 3) 0 0 1 (1 / 2) 0 1 4 0 1 (1 / 2) (512 * uround) (48 * uround * 36 ^ 2) (bpow radix2 (-69)) 1 (3 / 2))
    as (s' & x & y & A1 & A2 & _ & _ & A3 & A4 & _); auto; try lra.
  - rewrite Rabs_pos_eq; lra.
  - rewrite Rabs_pos_eq; lra.
  - rewrite Rabs_pos_eq; lra.
  - rewrite Rabs_pos_eq; lra.
  - exact sheared_stretch.
  - apply cramer_accurate; lra.
  - split; reflexivity.
  - split; reflexivity.
  - change (3 - 1)%Z with 2%Z; lra.
  - change (3 - 1)%Z with 2%Z; lra.
  - rewrite T7. apply Rabs_le. lra.
  - rewrite V3. apply Rabs_le. lra.
  - exists (hf 3). split; [cbn; tauto|lra].
  - exists (hf 4). split; [cbn; tauto|lra].
  - exists (hf 2). split; [cbn; tauto|lra].
  - exists (hf 4). split; [cbn; tauto|lra].
  - lia.
  - split; reflexivity.
  - unfold rate, rest. change (IZR (Z.max 3 3)) with 3. rewrite U. nra.
  - exists s', x, y. split; [exact SG|]. split; [exact ER|]. split; [exact A1|]. split; [exact A2|].
    revert A3 A4. unfold rate, rest. change (IZR (Z.max 3 3)) with 3. rewrite U. intros A3 A4. split; lra.
Qed.
