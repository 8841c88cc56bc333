(** C91: totals of the fluxes through whole lines across rectilinear grids of moderate size, in double arithmetic. *)
From Coq Require Import ZArith List Bool Reals Lra Lia Permutation Floats.SpecFloat.
From Flocq Require Import Core BinarySingleNaN.
From Verif Require Import Base Num NumR NumF M_BoxIterator M_LinearSolve M_FindPoint M_Triangulate M_Quad M_QuadLine M_FlowInterp
  S_Geometry S_Quad S_Grid S_Sort S_Array S_Flow S_FlowTable S_FlowModerate
  L_LinearSolve L_FindPoint L_NodeInterp L_Intervals L_FlowRect L_Float L_FloatOps L_FindPointF L_NodeInterpF L_Defined L_FlowInterp L_FlowTwin L_FlowTable L_FlowF L_DotF L_ApplyF L_ResidualF L_QuadF L_AffineF L_RectF
  L_FlowRectF L_Clip2F P_Flow P_ApplyF P_FlowRectF.
Import ListNotations.
Open Scope R_scope.

(** Exact sum of the values of doubles. *)
Definition sum_values (l : list spec_float) : R := fold_right (fun v s => fval v + s) 0 l.

(** The data of [C91_moderate_partial]: a grid of d0 x d1 nodes, a stream function F with nodal values psi, and arrays with its edge values. *)
Record moderate_flow (d0 d1 : Z) (X Y : Z -> spec_float) (psi : Z -> Z -> R) (F : point -> R) (xs ys data0 data1 : list spec_float) (H : R) : Prop := {
  mf_d0 : (2 <= d0)%Z; mf_d1 : (2 <= d1)%Z; mf_size : (d0 * d1 <= int_max)%Z;
  mf_xs : stores d0 d1 (fun i _ => X i) xs; mf_ys : stores d0 d1 (fun _ j => Y j) ys;
  mf_X : forall i, (0 <= i < d0)%Z -> dbl (X i); mf_Y : forall j, (0 <= j < d1)%Z -> dbl (Y j);
  mf_mX : moderate_axis d0 (fun i => fval (X i)); mf_mY : moderate_axis d1 (fun j => fval (Y j));
  mf_F : forall i j x y, is_cell2 d0 d1 i j -> 0 <= x <= 1 -> 0 <= y <= 1 ->
    F (fval (X i) + x * (fval (X (i + 1)%Z) - fval (X i)), fval (Y j) + y * (fval (Y (j + 1)%Z) - fval (Y j))) =
    bilinear (psi i j) (psi (i + 1)%Z j) (psi i (j + 1)%Z) (psi (i + 1)%Z (j + 1)%Z) x y;
  mf_data : exists h0 h1, stores (d0 - 1) d1 h0 data0 /\ stores d0 (d1 - 1) h1 data1 /\
    (forall i j, (0 <= i < d0 - 1)%Z -> (0 <= j < d1)%Z -> fval (h0 i j) = psi (i + 1)%Z j - psi i j) /\
    (forall i j, (0 <= i < d0)%Z -> (0 <= j < d1 - 1)%Z -> fval (h1 i j) = psi i (j + 1)%Z - psi i j);
  mf_H : H <= bpow radix2 800;
  mf_bound : forall v, In v (data0 ++ data1) -> dbl v /\ Rabs (fval v) <= H }.

(** Points of the line after the displacement, doubles, with every segment clear of the grid lines. *)
Definition clear_line (d0 d1 : Z) (X Y : Z -> spec_float) (n : Z) (P : Z -> pt spec_float) : Prop :=
  (forall k, (0 <= k < n)%Z -> dbl (fst (P k)) /\ dbl (snd (P k))) /\
  (forall k, (0 <= k < n - 1)%Z -> clear_segment d0 d1 (fun i => fval (X i)) (fun j => fval (Y j)) (fval (fst (P k)), fval (snd (P k))) (fval (fst (P (k + 1)%Z)), fval (snd (P (k + 1)%Z)))).

(** Error of the flux through one segment on a grid of m cells. *)
Definition flux_error (m H : R) : R := m * ((/ 10 ^ 7 + 48 * m * uround) * H) + 12 * m * etiny.

Lemma near_total : forall (f : Z -> R) e l a, (forall k, (k < length l)%nat -> Rabs (fval (nth k l n0) - (f (a + Z.of_nat k + 1)%Z - f (a + Z.of_nat k)%Z)) <= e) ->
  Rabs (sum_values l - (f (a + Z.of_nat (length l))%Z - f a)) <= INR (length l) * e.
Proof.
  intros f e. induction l as [|x l IH]; intros a H.
  - cbn [sum_values fold_right length]. rewrite Z.add_0_r. change (INR 0) with 0. replace (0 - (f a - f a)) with 0 by ring. rewrite Rabs_R0. lra.
  - assert (I := IH (a + 1)%Z). assert (X := H 0%nat ltac:(simpl; lia)). cbn [nth] in X. rewrite Z.add_0_r in X.
    assert (J : Rabs (sum_values l - (f (a + 1 + Z.of_nat (length l))%Z - f (a + 1)%Z)) <= INR (length l) * e).
    { apply I. intros k Hk. specialize (H (S k) ltac:(simpl; lia)). cbn [nth] in H. replace (a + 1 + Z.of_nat k)%Z with (a + Z.of_nat (S k))%Z by lia. exact H. }
    cbn [sum_values fold_right length]. fold (sum_values l). rewrite S_INR. replace (a + 1 + Z.of_nat (length l))%Z with (a + Z.of_nat (S (length l)))%Z in J by lia.
    clear H I IH. apply Rabs_le_inv in X, J. apply Rabs_le. lra.
Qed.

(** C91.  The fluxes through the n - 1 segments of a line add up to the difference of the stream function between its ends
    (of the displaced points), up to n - 1 times the error of a segment; for a closed line they add up to zero with that error. *)
Theorem C91_total_partial : forall g srt cosv d0 d1 X Y psi F n (xs ys dxs dys : list spec_float) data0 data1 out H,
  flow2 g -> sorts srt -> moderate_flow d0 d1 X Y psi F xs ys data0 data1 H -> (2 <= n <= int_max)%Z ->
  Z.of_nat (length dxs) = n -> Z.of_nat (length dys) = n -> Z.of_nat (length out) = (n - 1)%Z ->
  let P := dst_point (fun i => cosv i n) dxs dys in let at_ k := (fval (fst (P k)), fval (snd (P k))) in clear_line d0 d1 X Y n P ->
  exists out', flow_run srt g cosv d0 d1 xs ys n dxs dys 1 data0 data1 out = Ret out' /\ Z.of_nat (length out') = (n - 1)%Z /\
    let e := IZR (n - 1) * flux_error (IZR ((d0 - 1) * (d1 - 1))) H in
    Rabs (sum_values out' - (F (at_ (n - 1)%Z) - F (at_ 0%Z))) <= e /\ (at_ (n - 1)%Z = at_ 0%Z -> Rabs (sum_values out') <= e).
Proof.
  intros g srt cosv d0 d1 X Y psi F n xs ys dxs dys data0 data1 out H G ST MF Hn LX LY LO P at_ [CD CS]. destruct MF as [M0 M1 MI MXS MYS DX DY MX MY INT (h0 & h1 & D0 & D1 & V0 & V1) HB HV].
  destruct (C91_moderate_partial g srt cosv d0 d1 X Y psi F n xs ys dxs dys h0 h1 data0 data1 out H) as (out' & E & L & K); auto.
  exists out'. split; auto. split; [lia|]. intros e.
  assert (S : Rabs (sum_values out' - (F (at_ (n - 1)%Z) - F (at_ 0%Z))) <= e).
  { assert (T := near_total (fun k => F (at_ k)) (flux_error (IZR ((d0 - 1) * (d1 - 1))) H) out' 0).
    replace (0 + Z.of_nat (length out'))%Z with (n - 1)%Z in T by lia. unfold e. replace (IZR (n - 1)) with (INR (length out')) by (rewrite INR_IZR_INZ; f_equal; lia).
    apply T. intros k Hk. destruct (K (Z.of_nat k) ltac:(lia)) as [_ B]. rewrite Nat2Z.id in B. cbv zeta in B. rewrite Z.add_0_l. exact B. }
  split; auto. intros Q. rewrite Q in S. replace (sum_values out') with (sum_values out' - (F (at_ 0%Z) - F (at_ 0%Z))) by ring. exact S.
Qed.
Print Assumptions C91_total_partial.

(** C91.  Two lines between the same (displaced) ends have the same total flux up to the errors of their segments: the total does not depend
    on the way taken, and cutting a segment changes it by the errors only. *)
Theorem C91_path_partial : forall g srt cosv d0 d1 X Y psi F n n' (xs ys dxs dys dxs' dys' : list spec_float) data0 data1 out out' H r r',
  flow2 g -> sorts srt -> moderate_flow d0 d1 X Y psi F xs ys data0 data1 H -> (2 <= n <= int_max)%Z -> (2 <= n' <= int_max)%Z ->
  Z.of_nat (length dxs) = n -> Z.of_nat (length dys) = n -> Z.of_nat (length out) = (n - 1)%Z ->
  Z.of_nat (length dxs') = n' -> Z.of_nat (length dys') = n' -> Z.of_nat (length out') = (n' - 1)%Z ->
  let P := dst_point (fun i => cosv i n) dxs dys in let P' := dst_point (fun i => cosv i n') dxs' dys' in
  clear_line d0 d1 X Y n P -> clear_line d0 d1 X Y n' P' -> P 0%Z = P' 0%Z -> P (n - 1)%Z = P' (n' - 1)%Z ->
  flow_run srt g cosv d0 d1 xs ys n dxs dys 1 data0 data1 out = Ret r -> flow_run srt g cosv d0 d1 xs ys n' dxs' dys' 1 data0 data1 out' = Ret r' ->
  Rabs (sum_values r - sum_values r') <= IZR (n + n' - 2) * flux_error (IZR ((d0 - 1) * (d1 - 1))) H.
Proof.
  intros g srt cosv d0 d1 X Y psi F n n' xs ys dxs dys dxs' dys' data0 data1 out out' H r r' G ST MF Hn Hn' LX LY LO LX' LY' LO' P P' CL CL' EA EB E E'.
  destruct (C91_total_partial g srt cosv d0 d1 X Y psi F n xs ys dxs dys data0 data1 out H) as (o & R1 & _ & S1 & _); auto.
  destruct (C91_total_partial g srt cosv d0 d1 X Y psi F n' xs ys dxs' dys' data0 data1 out' H) as (o' & R2 & _ & S2 & _); auto.
  rewrite E in R1. injection R1 as <-. rewrite E' in R2. injection R2 as <-. fold P in S1. fold P' in S2. rewrite EA, EB in S1.
  replace (n + n' - 2)%Z with ((n - 1) + (n' - 1))%Z by lia. rewrite plus_IZR, Rmult_plus_distr_r.
  clear - S1 S2. apply Rabs_le_inv in S1, S2. apply Rabs_le. lra.
Qed.
Print Assumptions C91_path_partial.

(** *** A case *)
(** The grid and stream function of the case of [C91_moderate_partial]; the triangle (-3/4, 5/16), (5/8, 3/16), (1/2, 5/8), closed, and
    the ways from the second corner to the first directly and through the third. *)
Lemma case_flow : moderate_flow 3 2 (fun i => FZ (i - 1)) FZ (fun i j => IZR (i - 1) * (1 + IZR j)) stream
  (map FZ [-1; -1; 0; 0; 1; 1]%Z) (map FZ [0; 1; 0; 1; 0; 1]%Z) (map FZ [1; 2; 1; 2]%Z) (map FZ [-1; 0; 1]%Z) 2.
Proof.
  assert (FV : forall z, (Z.abs z <= 2 ^ 50)%Z -> dbl (FZ z) /\ fval (FZ z) = IZR z) by (intros z Hz; apply f_ofZ; lia).
  assert (FVv : forall z, (Z.abs z <= 2 ^ 50)%Z -> fval (FZ z) = IZR z) by (intros z Hz; apply FV; auto).
  constructor.
  - lia.
  - lia.
  - unfold int_max. lia.
  - split; [reflexivity|]. intros i j Hi Hj. assert (HI : i = 0%Z \/ i = 1%Z \/ i = 2%Z) by lia. assert (HJ : j = 0%Z \/ j = 1%Z) by lia. destruct HI as [-> |[-> | ->]], HJ as [-> | ->]; reflexivity.
  - split; [reflexivity|]. intros i j Hi Hj. assert (HI : i = 0%Z \/ i = 1%Z \/ i = 2%Z) by lia. assert (HJ : j = 0%Z \/ j = 1%Z) by lia. destruct HI as [-> |[-> | ->]], HJ as [-> | ->]; reflexivity.
  - intros i Hi. apply FV. lia.
  - intros i Hi. apply FV. lia.
  - split; intros i Hi; rewrite !FVv by lia; [rewrite <- abs_IZR; apply IZR_le; lia|rewrite <- minus_IZR; replace (i + 1 - 1 - (i - 1))%Z with 1%Z by lia; lra].
  - split; intros i Hi; rewrite !FVv by lia; [rewrite <- abs_IZR; apply IZR_le; lia|rewrite <- minus_IZR; replace (i + 1 - i)%Z with 1%Z by lia; lra].
  - intros i j x y [Hi Hj] Hx Hy. rewrite !FVv by lia. unfold stream, bilinear. cbn [fst snd]. rewrite !minus_IZR, !plus_IZR. ring.
  - exists (fun _ j => FZ (j + 1)), (fun i _ => FZ (i - 1)). split; [|split; [|split]].
    + split; [reflexivity|]. intros i j Hi Hj. assert (HI : i = 0%Z \/ i = 1%Z) by lia. assert (HJ : j = 0%Z \/ j = 1%Z) by lia. destruct HI as [-> | ->], HJ as [-> | ->]; reflexivity.
    + split; [reflexivity|]. intros i j Hi Hj. assert (HI : i = 0%Z \/ i = 1%Z \/ i = 2%Z) by lia. assert (HJ : j = 0%Z) by lia. destruct HI as [-> |[-> | ->]]; rewrite HJ; reflexivity.
    + intros i j Hi Hj. rewrite FVv by lia. rewrite !minus_IZR, !plus_IZR. ring.
    + intros i j Hi Hj. rewrite FVv by lia. rewrite !minus_IZR, !plus_IZR. ring.
  - apply Rle_trans with (bpow radix2 1); [simpl; lra|apply bpow_le; lia].
  - intros v I. assert (HV : exists z, v = FZ z /\ (Z.abs z <= 2)%Z). { cbn [map app In] in I. repeat (destruct I as [<- |I]; [eexists; split; [reflexivity|lia]|]). destruct I. }
    destruct HV as (z & -> & Hz). destruct (FV z ltac:(lia)) as [D V]. split; auto. rewrite V, <- abs_IZR. apply IZR_le. auto.
Qed.

Definition case_x : list spec_float := [lit (-3) 4; lit 5 8; lit 1 2; lit (-3) 4].
Definition case_y : list spec_float := [lit 5 16; lit 3 16; lit 5 8; lit 5 16].

Lemma case_points : forall k, (0 <= k < 4)%Z -> let p := dst_point (fun _ => n0) case_x case_y k in
  (dbl (fst p) /\ dbl (snd p)) /\ ((k = 0%Z \/ k = 3%Z) /\ fval (fst p) = - (3 / 4) /\ fval (snd p) = 5 / 16 \/ k = 1%Z /\ fval (fst p) = 5 / 8 /\ fval (snd p) = 3 / 16 \/
    k = 2%Z /\ fval (fst p) = 1 / 2 /\ fval (snd p) = 5 / 8).
Proof.
  intros k Hk p. destruct lit_dyadic as (L1 & L2 & L3 & L4). assert (L5 : fval (lit 1 2) = 1 / 2).
  { let w := eval vm_compute in (lit 1 2 : spec_float) in change (lit 1 2) with w. unfold fval; cbn [SF2R cond_Zopp]; unfold F2R; cbn [Fnum Fexp]. change (bpow radix2 (-53)) with (/ 9007199254740992). lra. }
  assert (HK : k = 0%Z \/ k = 1%Z \/ k = 2%Z \/ k = 3%Z) by lia.
  assert (Q : forall a b, fst p = a -> snd p = b -> dbl a -> dbl b -> dbl (fst p) /\ dbl (snd p)) by (intros a b -> ->; auto).
  destruct HK as [-> |[-> |[-> | ->]]].
  - assert (E1 : fst p = lit (-3) 4) by (vm_compute; reflexivity). assert (E2 : snd p = lit 5 16) by (vm_compute; reflexivity). rewrite E1, E2. split; [split; split; vm_compute; reflexivity|tauto].
  - assert (E1 : fst p = lit 5 8) by (vm_compute; reflexivity). assert (E2 : snd p = lit 3 16) by (vm_compute; reflexivity). rewrite E1, E2. split; [split; split; vm_compute; reflexivity|tauto].
  - assert (E1 : fst p = lit 1 2) by (vm_compute; reflexivity). assert (E2 : snd p = lit 5 8) by (vm_compute; reflexivity). rewrite E1, E2. split; [split; split; vm_compute; reflexivity|tauto].
  - assert (E1 : fst p = lit (-3) 4) by (vm_compute; reflexivity). assert (E2 : snd p = lit 5 16) by (vm_compute; reflexivity). rewrite E1, E2. split; [split; split; vm_compute; reflexivity|tauto].
Qed.

Lemma case_segment : forall A B : point, A = (- (3 / 4), 5 / 16) /\ B = (5 / 8, 3 / 16) \/ A = (5 / 8, 3 / 16) /\ B = (1 / 2, 5 / 8) \/ A = (1 / 2, 5 / 8) /\ B = (- (3 / 4), 5 / 16) \/ A = (5 / 8, 3 / 16) /\ B = (- (3 / 4), 5 / 16) \/
    A = (- (3 / 4), 5 / 16) /\ B = (- (1 / 16), 1 / 4) \/ A = (- (1 / 16), 1 / 4) /\ B = (5 / 8, 3 / 16) ->
  clear_segment 3 2 (fun i => fval (FZ (i - 1))) (fun j => fval (FZ j)) A B.
Proof.
  intros A B PQ. assert (FVv : forall z, (Z.abs z <= 2 ^ 50)%Z -> fval (FZ z) = IZR z) by (intros z Hz; apply f_ofZ; lia).
  assert (LX : forall i, (0 <= i < 3)%Z -> fval (FZ (i - 1)) = -1 \/ fval (FZ (i - 1)) = 0 \/ fval (FZ (i - 1)) = 1).
  { intros i Hi. rewrite FVv by lia. assert (HI : i = 0%Z \/ i = 1%Z \/ i = 2%Z) by lia. destruct HI as [-> |[-> | ->]]; auto. }
  assert (LY : forall j, (0 <= j < 2)%Z -> fval (FZ j) = 0 \/ fval (FZ j) = 1).
  { intros j Hj. rewrite FVv by lia. assert (HJ : j = 0%Z \/ j = 1%Z) by lia. destruct HJ as [-> | ->]; auto. }
  assert (AB : forall a, a <= - / 1024 \/ / 1024 <= a -> / 1024 <= Rabs a). { intros a [H|H]; unfold Rabs; destruct (Rcase_abs a); lra. }
  clear FVv.
  assert (E0 : fval (FZ (0 - 1)) = -1 /\ fval (FZ (3 - 1 - 1)) = 1 /\ fval (FZ 0) = 0 /\ fval (FZ (2 - 1)) = 1) by (repeat split; apply f_ofZ; lia).
  destruct E0 as (E1 & E2 & E3 & E4).
  destruct PQ as [[-> ->]|[[-> ->]|[[-> ->]|[[-> ->]|[[-> ->]|[-> ->]]]]]]; (split; [|split; [|split; [|split]]]).
  all: try (apply AB; cbn [fst snd]; lra).
  all: try (intros i j t Hi Hj Ht EQ; specialize (LX i Hi); specialize (LY j Hj); unfold on_seg in *; cbn [fst snd] in *; first [apply AB; lra|exfalso; lra]).
  all: intros c Hc; (split; [|split]).
  all: try (rewrite E1, E2, E3, E4; destruct Hc as [-> | ->]; cbn [fst snd]; lra).
  all: try (intros i Hi; apply AB; specialize (LX i Hi); destruct Hc as [-> | ->]; cbn [fst snd]; lra).
  all: try (intros j Hj; apply AB; specialize (LY j Hj); destruct Hc as [-> | ->]; cbn [fst snd]; lra).
Qed.

Lemma case_line : clear_line 3 2 (fun i => FZ (i - 1)) FZ 4 (dst_point (fun _ => n0) case_x case_y).
Proof.
  split; [intros k Hk; apply case_points; auto|]. intros k Hk. destruct (case_points k ltac:(lia)) as [_ P]. destruct (case_points (k + 1) ltac:(lia)) as [_ Q]. cbv zeta in *.
  set (p := dst_point _ _ _ k) in *. set (q := dst_point _ _ _ (k + 1)%Z) in *. clearbody p q. apply case_segment.
  destruct P as [(K & -> & ->)|[(K & -> & ->)|(K & -> & ->)]]; destruct Q as [(K' & -> & ->)|[(K' & -> & ->)|(K' & -> & ->)]]; try lia; tauto.
Qed.

Example C91_total_case : exists r, flow_run insertion clip2 (fun _ _ => n0) 3 2 (map FZ [-1; -1; 0; 0; 1; 1]%Z) (map FZ [0; 1; 0; 1; 0; 1]%Z)
    4 case_x case_y 1 (map FZ [1; 2; 1; 2]%Z) (map FZ [-1; 0; 1]%Z) [FZ 0; FZ 0; FZ 0] = Ret r /\ Rabs (sum_values r) <= / 10 ^ 5.
Proof.
  destruct (C91_total_partial clip2 insertion (fun _ _ => n0) 3 2 _ _ _ _ 4 _ _ case_x case_y _ _ [FZ 0; FZ 0; FZ 0] 2 clip2_flow (insertion_sorts _) case_flow) as (r & E & _ & _ & K); try reflexivity.
  { unfold int_max. lia. }
  { exact case_line. }
  exists r. split; [exact E|]. eapply Rle_trans; [apply K; vm_compute; reflexivity|]. change (IZR (4 - 1)) with 3. unfold flux_error. change (IZR ((3 - 1) * (2 - 1))) with 2.
  assert (ET : etiny <= / 10 ^ 15) by (assert (T := tiny_u); assert (U := u_rng); unfold uround in *; lra). unfold uround. lra.
Qed.

Example C91_path_case : forall r r', flow_run insertion clip2 (fun _ _ => n0) 3 2 (map FZ [-1; -1; 0; 0; 1; 1]%Z) (map FZ [0; 1; 0; 1; 0; 1]%Z)
    3 (tl case_x) (tl case_y) 1 (map FZ [1; 2; 1; 2]%Z) (map FZ [-1; 0; 1]%Z) [FZ 0; FZ 0] = Ret r ->
  flow_run insertion clip2 (fun _ _ => n0) 3 2 (map FZ [-1; -1; 0; 0; 1; 1]%Z) (map FZ [0; 1; 0; 1; 0; 1]%Z)
    2 (rev (firstn 2 case_x)) (rev (firstn 2 case_y)) 1 (map FZ [1; 2; 1; 2]%Z) (map FZ [-1; 0; 1]%Z) [FZ 0] = Ret r' ->
  Rabs (sum_values r - sum_values r') <= / 10 ^ 5.
Proof.
  intros r r' E E'.
  assert (SH : forall k, (0 <= k < 3)%Z -> dst_point (fun _ => n0) (tl case_x) (tl case_y) k = dst_point (fun _ => n0) case_x case_y (k + 1)).
  { intros k Hk. assert (HK : k = 0%Z \/ k = 1%Z \/ k = 2%Z) by lia. destruct HK as [-> |[-> | ->]]; vm_compute; reflexivity. }
  assert (RV : forall k, (0 <= k < 2)%Z -> dst_point (fun _ => n0) (rev (firstn 2 case_x)) (rev (firstn 2 case_y)) k = dst_point (fun _ => n0) case_x case_y (1 - k)).
  { intros k Hk. assert (HK : k = 0%Z \/ k = 1%Z) by lia. destruct HK as [-> | ->]; vm_compute; reflexivity. }
  assert (B := C91_path_partial clip2 insertion (fun _ _ => n0) 3 2 _ _ _ _ 3 2 _ _ (tl case_x) (tl case_y) (rev (firstn 2 case_x)) (rev (firstn 2 case_y)) _ _ [FZ 0; FZ 0] [FZ 0] 2 r r'
    clip2_flow (insertion_sorts _) case_flow).
  eapply Rle_trans; [apply B; auto; clear B; try reflexivity; try (unfold int_max; lia)|].
  - destruct case_line as [K1 K2]. split; [intros k Hk; rewrite SH by auto; apply K1; lia|]. intros k Hk. rewrite !SH by lia. apply K2. lia.
  - split; [intros k Hk; rewrite RV by auto; apply case_points; lia|]. intros k Hk. assert (HK : k = 0%Z) by lia. subst k. rewrite !RV by lia. apply case_segment.
    destruct (case_points 1 ltac:(lia)) as [_ P]. destruct (case_points 0 ltac:(lia)) as [_ Q]. change (1 - 0)%Z with 1%Z. change (1 - (0 + 1))%Z with 0%Z. cbv zeta in *.
    destruct P as [(K & -> & ->)|[(K & -> & ->)|(K & -> & ->)]]; destruct Q as [(K' & -> & ->)|[(K' & -> & ->)|(K' & -> & ->)]]; try lia; tauto.
  - change (IZR (3 + 2 - 2)) with 3. unfold flux_error. change (IZR ((3 - 1) * (2 - 1))) with 2.
    assert (ET : etiny <= / 10 ^ 15) by (assert (T := tiny_u); assert (U := u_rng); unfold uround in *; lra). unfold uround. lra.
Qed.
