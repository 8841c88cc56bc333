(** C84, C85: line integrals of the interpolated field on rectilinear grids of moderate size, in double arithmetic. *)
From Coq Require Import ZArith List Bool Reals Lra Lia Permutation Floats.SpecFloat.
From Flocq Require Import Core BinarySingleNaN.
From Verif Require Import Base Num NumR NumF M_BoxIterator M_LinearSolve M_FindPoint M_Triangulate M_Quad M_QuadLine M_FlowInterp
  S_Geometry S_Quad S_Grid S_Sort S_Array S_Flow S_FlowTable S_FlowModerate S_FlowIntegral
  L_LinearSolve L_FindPoint L_NodeInterp L_Intervals L_FlowPar L_FlowIntegral L_FlowRect L_Float L_FloatOps L_FindPointF L_NodeInterpF L_Defined L_FlowInterp L_FlowTwin L_FlowTable L_FlowF L_DotF L_ApplyF L_ResidualF L_QuadF L_AffineF L_RectF
  L_FlowRectF L_FlowCellF L_FlowFindF L_FlowWeightF L_FlowSumF L_Clip2F P_Flow P_ApplyF P_FlowRectF P_FlowTotalF.
From Verif Require L_Flow L_ConserveTable L_Box2.
Import ListNotations.
Open Scope R_scope.

(** ** One cell *)
(** Integral of the field along the straight way from (a, b) to (c, d) in the unit square. *)
Definition unit_flux (h00 h01 k00 k10 a b c d : R) : R :=
  (h00 * (1 - (b + d) / 2) + h01 * ((b + d) / 2)) * (c - a) + (k00 * (1 - (a + c) / 2) + k10 * ((a + c) / 2)) * (d - b).

Lemma near_straight : forall a b c d w H h00 h01 k00 k10, near_weights a b c d w -> 0 <= a <= 1 -> 0 <= b <= 1 -> 0 <= c <= 1 -> 0 <= d <= 1 ->
  Rabs h00 <= H -> Rabs h01 <= H -> Rabs k00 <= H -> Rabs k10 <= H ->
  Rabs (fval (nth 0 w n0) * h00 + fval (nth 1 w n0) * h01 + fval (nth 2 w n0) * k00 + fval (nth 3 w n0) * k10 - unit_flux h00 h01 k00 k10 a b c d) <= / 10 ^ 7 * H.
Proof.
  intros a b c d w H h00 h01 k00 k10 (w0 & w1 & w2 & w3 & xa & ya & xb & yb & -> & _ & XA & YA & XB & YB & NXA & NYA & NXB & NYB & W0 & W1 & W2 & W3) Ha Hb Hc Hd B0 B1 B2 B3.
  cbn [nth]. assert (HP : 0 <= H) by (assert (Z := Rabs_pos h00); lra).
  assert (M0 := mul_le _ _ _ _ W0 B0). assert (M1 := mul_le _ _ _ _ W1 B1). assert (M2 := mul_le _ _ _ _ W2 B2). assert (M3 := mul_le _ _ _ _ W3 B3).
  assert (UH : 24 * uround * H <= / 10 ^ 12 * H) by (apply Rmult_le_compat_r; [auto|unfold uround; lra]).
  assert (PART : forall s t s' t' p q p' q' e f, 0 <= s <= 1 -> 0 <= t <= 1 -> 0 <= s' <= 1 -> 0 <= t' <= 1 -> 0 <= p <= 1 -> 0 <= q <= 1 ->
    Rabs (s - s') <= / 10 ^ 8 -> Rabs (t - t') <= / 10 ^ 8 -> Rabs (p - p') <= / 10 ^ 8 -> Rabs (q - q') <= / 10 ^ 8 -> Rabs e <= H -> Rabs f <= H ->
    Rabs ((t - s) * (1 - (p + q) / 2) * e + (t - s) * ((p + q) / 2) * f - (e * (1 - (p' + q') / 2) + f * ((p' + q') / 2)) * (t' - s')) <= / 10 ^ 8 * (4 * H)).
  { clear - HP. intros s t s' t' p q p' q' e f Hs Ht Hs' Ht' Hp Hq Ns Nt Np Nq He Hf.
    set (y := (p + q) / 2) in *. set (y' := (p' + q') / 2) in *. assert (Hy : 0 <= y <= 1) by (unfold y; lra).
    assert (Ny : Rabs (y - y') <= / 10 ^ 8). { apply Rabs_le_inv in Np, Nq. apply Rabs_le. unfold y, y'. lra. }
    clearbody y y'. clear p q p' q' Hp Hq Np Nq.
    replace ((t - s) * (1 - y) * e + (t - s) * y * f - (e * (1 - y') + f * y') * (t' - s')) with (((t - t') - (s - s')) * ((1 - y) * e + y * f) + (t' - s') * ((y - y') * (f - e))) by ring.
    assert (D1 : Rabs ((t - t') - (s - s')) <= 2 * / 10 ^ 8) by (apply Rabs_le_inv in Ns, Nt; apply Rabs_le; lra).
    assert (D2 : Rabs ((1 - y) * e + y * f) <= H). { apply Rabs_le_inv in He. apply Rabs_le_inv in Hf. apply Rabs_le. split; nra. }
    assert (D3 : Rabs (t' - s') <= 1) by (apply Rabs_le; lra).
    assert (D4 : Rabs (f - e) <= 2 * H) by (apply Rabs_le_inv in He; apply Rabs_le_inv in Hf; apply Rabs_le; lra).
    assert (P1 := mul_le _ _ _ _ D1 D2). assert (P2 := mul_le _ _ _ _ D3 (mul_le _ _ _ _ Ny D4)).
    eapply Rle_trans; [apply Rabs_triang|]. lra. }
  assert (P1 := PART xa xb a c ya yb b d h00 h01 XA XB Ha Hc YA YB NXA NXB NYA NYB B0 B1).
  assert (P2 := PART ya yb b d xa xb a c k00 k10 YA YB Hb Hd XA XB NYA NYB NXA NXB B2 B3).
  set (m0 := (xb - xa) * (1 - (ya + yb) / 2)) in *. set (m1 := (xb - xa) * ((ya + yb) / 2)) in *. set (m2 := (yb - ya) * (1 - (xa + xb) / 2)) in *. set (m3 := (yb - ya) * ((xa + xb) / 2)) in *.
  unfold unit_flux. set (g0 := (h00 * (1 - (b + d) / 2) + h01 * ((b + d) / 2)) * (c - a)) in *. set (g1 := (k00 * (1 - (a + c) / 2) + k10 * ((a + c) / 2)) * (d - b)) in *.
  clearbody m0 m1 m2 m3 g0 g1. clear - P1 P2 M0 M1 M2 M3 UH HP.
  apply Rabs_le_inv in P1, P2, M0, M1, M2, M3. rewrite !Rmult_minus_distr_r in M0, M1, M2, M3. apply Rabs_le. lra.
Qed.

(** ** One segment *)
Section One.
Variables d0 d1 : Z.
Hypothesis H0 : (2 <= d0)%Z.
Hypothesis H1 : (2 <= d1)%Z.
Variables X Y : Z -> spec_float.
Hypothesis CX : forall i, (0 <= i < d0)%Z -> dbl (X i).
Hypothesis CY : forall j, (0 <= j < d1)%Z -> dbl (Y j).
Let rX i := fval (X i).
Let rY j := fval (Y j).
Hypothesis MX : moderate_axis d0 rX.
Hypothesis MY : moderate_axis d1 rY.
Let nc := ((d0 - 1) * (d1 - 1))%Z.
Variables px py qx qy : Z -> spec_float.
Variable k : Z.
Hypothesis DP : dbl (px k) /\ dbl (py k) /\ dbl (qx k) /\ dbl (qy k).
Hypothesis CS : clear_segment d0 d1 rX rY (fval (px k), fval (py k)) (fval (qx k), fval (qy k)).
Let x0 c := X (c / (d1 - 1))%Z.
Let x1 c := X (c / (d1 - 1) + 1)%Z.
Let y0 c := Y (c mod (d1 - 1))%Z.
Let y1 c := Y (c mod (d1 - 1) + 1)%Z.
Let ti c := tin px py qx qy x0 x1 y0 y1 k c.
Let to c := tout px py qx qy x0 x1 y0 y1 k c.
Let A : point := (fval (px k), fval (py k)).
Let B : point := (fval (qx k), fval (qy k)).

Lemma rect_par : forall i j, is_cell2 d0 d1 i j -> L_Flow.parallelogram (cell_quad (rx rX) (ry rY) i j).
Proof.
  intros i j [Hi Hj]. assert (SX := moderate_increasing _ _ MX i Hi). assert (SY := moderate_increasing _ _ MY j Hj).
  unfold L_Flow.parallelogram, cell_quad, rx, ry, cr. cbn [q0 q1 q2 q3 fst snd]. split; [ring|split; [ring|]].
  assert (0 < (rX (i + 1)%Z - rX i) * (rY (j + 1)%Z - rY j)) by (apply Rmult_lt_0_compat; lra). lra.
Qed.

Lemma rect_xy : forall i j p, is_cell2 d0 d1 i j -> par_x (cell_quad (rx rX) (ry rY) i j) p = (fst p - rX i) / (rX (i + 1)%Z - rX i) /\
  par_y (cell_quad (rx rX) (ry rY) i j) p = (snd p - rY j) / (rY (j + 1)%Z - rY j).
Proof.
  intros i j p [Hi Hj]. assert (SX := moderate_increasing _ _ MX i Hi). assert (SY := moderate_increasing _ _ MY j Hj).
  destruct (frame_uniq (cell_quad (rx rX) (ry rY) i j) p ((fst p - rX i) / (rX (i + 1)%Z - rX i)) ((snd p - rY j) / (rY (j + 1)%Z - rY j)) (rect_par i j (conj Hi Hj))) as [E1 E2]; [|auto].
  unfold in_frame, cell_quad, rx, ry. cbn [q0 q1 q2 q3 fst snd]. rewrite (surjective_pairing p) at 1. f_equal; field; lra.
Qed.

Variables h0 h1 : Z -> Z -> spec_float.

(** The integral along the part of the segment in cell number c. *)
Definition part (c : Z) : R :=
  let i := (c / (d1 - 1))%Z in let j := (c mod (d1 - 1))%Z in
  if Rlt_dec (ti c) (to c) then
    unit_flux (fval (h0 i j)) (fval (h0 i (j + 1)%Z)) (fval (h1 i j)) (fval (h1 (i + 1)%Z j))
      (ux px qx x0 x1 k c (ti c)) (uy py qy y0 y1 k c (ti c)) (ux px qx x0 x1 k c (to c)) (uy py qy y0 y1 k c (to c))
  else 0.

Lemma part_flux : forall c, (0 <= c < nc)%Z ->
  cell_flux (rx rX) (ry rY) (fun i j => fval (h0 i j)) (fun i j => fval (h1 i j)) (c / (d1 - 1)) (c mod (d1 - 1)) A B (part c).
Proof.
  intros c Hc. assert (TC := time_cell d0 d1 H0 H1 X Y CX CY MX MY px py qx qy k DP CS c).
  assert (HC := cell_rows d0 d1 H1 c Hc).
  assert (TC' : forall t, ti c <= t <= to c <-> 0 <= t <= 1 /\ in_hull (corners (rx rX) (ry rY) (c / (d1 - 1)) (c mod (d1 - 1))) (on_seg A B t)) by (intros t; exact (TC t Hc)). clear TC.
  unfold part. cbv zeta. destruct (Rlt_dec (ti c) (to c)) as [L|L].
  - assert (T0 := proj1 (TC' (ti c)) ltac:(lra)). assert (T1 := proj1 (TC' (to c)) ltac:(lra)).
    assert (S := straight_flux (rx rX) (ry rY) (fun i j => fval (h0 i j)) (fun i j => fval (h1 i j)) (c / (d1 - 1)) (c mod (d1 - 1)) A B (ti c) (to c) (rect_par _ _ HC) ltac:(lra) ltac:(lra)).
    match type of S with _ -> cell_flux _ _ _ _ _ _ _ _ ?v => match goal with |- cell_flux _ _ _ _ _ _ _ _ ?u => replace u with v end end.
    + apply S. intros t Ht. rewrite TC'. tauto.
    + unfold straight. rewrite !(proj1 (rect_xy _ _ _ HC)), !(proj2 (rect_xy _ _ _ HC)). reflexivity.
  - left. split; auto. intros t t' Ht Ht' I1 I2. assert (E1 := proj2 (TC' t) (conj Ht I1)). assert (E2 := proj2 (TC' t') (conj Ht' I2)). lra.
Qed.

Variable H : R.
Hypothesis E0 : forall i j, (0 <= i < d0 - 1)%Z -> (0 <= j < d1)%Z -> Rabs (fval (h0 i j)) <= H.
Hypothesis E1 : forall i j, (0 <= i < d0)%Z -> (0 <= j < d1 - 1)%Z -> Rabs (fval (h1 i j)) <= H.

Lemma one_part : forall c w, (0 <= c < nc)%Z -> stored px py qx qy x0 x1 y0 y1 k c w ->
  Rabs (dot_exact (edge_pairs d1 h0 h1 (c, w)) - part c) <= / 10 ^ 7 * H /\ dot_size (edge_pairs d1 h0 h1 (c, w)) <= 4 * H.
Proof.
  intros c w Hc [T NW]. fold (ti c) (to c) in T, NW. assert (HC := cell_rows d0 d1 H1 c Hc). destruct HC as [Hi Hj].
  assert (TC : forall t, ti c <= t <= to c -> 0 <= ux px qx x0 x1 k c t <= 1 /\ 0 <= uy py qy y0 y1 k c t <= 1).
  { intros t Ht. assert (IH : in_hull (corners (rx rX) (ry rY) (c / (d1 - 1)) (c mod (d1 - 1))) (on_seg A B t)) by (exact (proj2 (proj1 (time_cell d0 d1 H0 H1 X Y CX CY MX MY px py qx qy k DP CS c t Hc) Ht))).
    apply (rect_hull d0 d1) in IH; auto using moderate_increasing; [|exact (cell_rows d0 d1 H1 c Hc)].
    assert (SX := moderate_increasing _ _ MX _ Hi). assert (SY := moderate_increasing _ _ MY _ Hj). unfold on_seg, A, B in IH. cbn [fst snd] in IH.
    assert (U : forall a lo hi, lo < hi -> lo <= a <= hi -> 0 <= (a - lo) / (hi - lo) <= 1).
    { intros a lo hi L R. split; [apply Rmult_le_pos; [lra|left; apply Rinv_0_lt_compat; lra]|].
      apply Rmult_le_reg_r with (hi - lo); [lra|]. unfold Rdiv. rewrite Rmult_assoc, Rinv_l by lra. lra. }
    split; [exact (U _ _ _ SX (proj1 IH))|exact (U _ _ _ SY (proj2 IH))]. }
  unfold edge_pairs. cbn [fst snd dot_exact dot_size fold_right]. unfold part. cbv zeta. destruct (Rlt_dec (ti c) (to c)) as [_|NL]; [|contradiction].
  set (i := (c / (d1 - 1))%Z) in *. set (j := (c mod (d1 - 1))%Z) in *.
  assert (B00 := E0 i j ltac:(lia) ltac:(lia)). assert (B01 := E0 i (j + 1)%Z ltac:(lia) ltac:(lia)). assert (D00 := E1 i j ltac:(lia) ltac:(lia)). assert (D10 := E1 (i + 1)%Z j ltac:(lia) ltac:(lia)).
  destruct (TC (ti c) ltac:(lra)) as [U1 U2]. destruct (TC (to c) ltac:(lra)) as [U3 U4]. split.
  - match goal with |- Rabs (?x - _) <= _ => replace x
      with (fval (nth 0 w n0) * fval (h0 i j) + fval (nth 1 w n0) * fval (h0 i (j + 1)%Z) + fval (nth 2 w n0) * fval (h1 i j) + fval (nth 3 w n0) * fval (h1 (i + 1)%Z j)) by ring end.
    apply near_straight; auto.
  - destruct NW as (w0 & w1 & w2 & w3 & xa & ya & xb & yb & -> & BW & _). cbn [nth].
    assert (K : forall v h, In v [w0; w1; w2; w3] -> Rabs (fval h) <= H -> Rabs (fval v * fval h) <= H). { intros v h I Bh. destruct (BW v I) as [_ Bv]. replace H with (1 * H) by ring. apply mul_le; auto. }
    assert (K0 := K w0 (h0 i j) ltac:(simpl; auto) B00). assert (K1 := K w1 (h0 i (j + 1)%Z) ltac:(simpl; auto) B01). assert (K2 := K w2 (h1 i j) ltac:(simpl; auto) D00). assert (K3 := K w3 (h1 (i + 1)%Z j) ltac:(simpl; auto) D10). lra.
Qed.

Lemma all_parts : forall es, (forall c w, In (c, w) es -> (0 <= c < nc)%Z /\ stored px py qx qy x0 x1 y0 y1 k c w) ->
  Rabs (dot_exact (flat_map (edge_pairs d1 h0 h1) es) - fold_right Rplus 0 (map part (map fst es))) <= INR (length es) * (/ 10 ^ 7 * H) /\
  dot_size (flat_map (edge_pairs d1 h0 h1) es) <= INR (length es) * (4 * H).
Proof.
  induction es as [|[c w] es IH]; intros IN.
  - cbn [flat_map map fold_right length dot_exact dot_size]. change (INR 0) with 0. rewrite Rminus_eq_0, Rabs_R0. lra.
  - destruct IH as [I1 I2]; [intros; apply IN; right; auto|]. destruct (IN c w (or_introl eq_refl)) as [Hc S]. destruct (one_part c w Hc S) as [O1 O2].
    cbn [flat_map map length fst snd]. rewrite dot_exact_app, dot_size_app, S_INR. cbn [fold_right].
    set (a := dot_exact (edge_pairs d1 h0 h1 (c, w))) in *. set (b := dot_exact (flat_map _ es)) in *. set (e := fold_right Rplus 0 _) in *. split; [|lra].
    apply Rabs_le_inv in O1, I1. apply Rabs_le. lra.
Qed.

Lemma parts_filter : forall l, fold_right Rplus 0 (map part (filter (runs px py qx qy x0 x1 y0 y1 k) l)) = fold_right Rplus 0 (map part l).
Proof.
  induction l as [|c l IH]; [reflexivity|]. cbn [filter]. unfold runs at 1. fold (ti c) (to c). destruct (Rlt_dec (ti c) (to c)) as [L|L]; cbn [map fold_right]; rewrite IH; [reflexivity|].
  unfold part at 2. cbv zeta. destruct (Rlt_dec (ti c) (to c)); [contradiction|]. ring.
Qed.
End One.

(** ** The properties *)
(** A rectilinear grid of moderate size and arrays with edge values up to H, all doubles. *)
Record moderate_edges (d0 d1 : Z) (X Y : Z -> spec_float) (h0 h1 : Z -> Z -> spec_float) (xs ys data0 data1 : list spec_float) (H : R) : Prop := {
  me_d0 : (2 <= d0)%Z; me_d1 : (2 <= d1)%Z; me_size : (d0 * d1 <= int_max)%Z;
  me_xs : stores d0 d1 (fun i _ => X i) xs; me_ys : stores d0 d1 (fun _ j => Y j) ys;
  me_X : forall i, (0 <= i < d0)%Z -> dbl (X i); me_Y : forall j, (0 <= j < d1)%Z -> dbl (Y j);
  me_mX : moderate_axis d0 (fun i => fval (X i)); me_mY : moderate_axis d1 (fun j => fval (Y j));
  me_0 : stores (d0 - 1) d1 h0 data0; me_1 : stores d0 (d1 - 1) h1 data1;
  me_H : H <= bpow radix2 800;
  me_bound : forall v, In v (data0 ++ data1) -> dbl v /\ Rabs (fval v) <= H }.

(** The real values of the coordinates of a point. *)
Definition point_of (p : pt spec_float) : point := (fval (fst p), fval (snd p)).

(** C84.  In double arithmetic, on the grids and for the segments of [C91_moderate_partial] and any edge values up to H: the flux is within
    m (1e-7 + 48 m 2^-53) H, and 12 m times the smallest double, of the sum over the m cells of the line integral of the interpolated field. *)
Theorem C84_integral_ieee : forall g srt cosv d0 d1 X Y n (xs ys dxs dys : list spec_float) h0 h1 data0 data1 out H,
  flow2 g -> sorts srt -> moderate_edges d0 d1 X Y h0 h1 xs ys data0 data1 H -> (2 <= n <= int_max)%Z ->
  Z.of_nat (length dxs) = n -> Z.of_nat (length dys) = n -> Z.of_nat (length out) = (n - 1)%Z ->
  let P := dst_point (fun i => cosv i n) dxs dys in clear_line d0 d1 X Y n P ->
  exists out', flow_run srt g cosv d0 d1 xs ys n dxs dys 1 data0 data1 out = Ret out' /\ length out' = length out /\
    forall k, (0 <= k < n - 1)%Z -> let v := nth (Z.to_nat k) out' n0 in
      dbl v /\ exists I, (forall i j, is_cell2 d0 d1 i j ->
          cell_flux (fun i _ => fval (X i)) (fun _ j => fval (Y j)) (fun i j => fval (h0 i j)) (fun i j => fval (h1 i j)) i j (point_of (P k)) (point_of (P (k + 1)%Z)) (I i j)) /\
        Rabs (fval v - cell_sum d0 d1 I) <= flux_error (IZR ((d0 - 1) * (d1 - 1))) H.
Proof.
  intros g srt cosv d0 d1 X Y n xs ys dxs dys h0 h1 data0 data1 out H F2 ST [H0 H1 HI SX SY DX DY MX MY D0 D1 HB HV] Hn LX LY LO P [DP CS].
  set (rX := fun i => fval (X i)) in *. set (rY := fun j => fval (Y j)) in *.
  assert (GF : gives_finite g) by (destruct F2 as [K _]; exact K).
  assert (SL : forall lt l, length (srt lt l) = length l) by (intros lt l; apply Permutation_length; apply ST).
  set (nx := fun i _ : Z => X i). set (ny := fun _ j : Z => Y j).
  destruct (grid_setup cosv d0 d1 nx ny n xs ys dxs dys H0 H1 HI Hn SX SY LX LY) as (t1 & t2 & E1 & E2 & O2 & EW & EN & EL & EC).
  destruct (computeWeightsF_total srt g t2 (n - 1) ((d0 - 1) * (d1 - 1)) _ _ GF EN ltac:(apply O2) EL EC) as (s3 & E3).
  assert (ES : fl_srcNumCells t2 = Some ((d0 - 1) * (d1 - 1))%Z) by apply O2.
  assert (SM : sorted_map (fl_weights t2)) by (rewrite EW; exists 0%Z; exact I).
  assert (ROW := computeWeights_rows srt g t2 s3 _ _ _ _ EN ES EL EC SM E3).
  assert (GM : good_map (fl_weights s3)).
  { apply (computeWeightsF_good srt g t2 s3 _ _ _ _ GF SL EN ES EL EC); auto. rewrite EW. intros k v []. }
  set (px := fun k => fst (P k)). set (py := fun k => snd (P k)). set (qx := fun k => fst (P (k + 1)%Z)). set (qy := fun k => snd (P (k + 1)%Z)).
  set (x0 := fun c => X (c / (d1 - 1))%Z). set (x1 := fun c => X (c / (d1 - 1) + 1)%Z). set (y0 := fun c => Y (c mod (d1 - 1))%Z). set (y1 := fun c => Y (c mod (d1 - 1) + 1)%Z).
  assert (DE : forall k, (0 <= k < n - 1)%Z -> dbl (px k) /\ dbl (py k) /\ dbl (qx k) /\ dbl (qy k)).
  { intros k Hk. destruct (DP k ltac:(lia)). destruct (DP (k + 1)%Z ltac:(lia)). auto. }
  assert (CL : forall k c, (0 <= k < n - 1)%Z -> (0 <= c < (d0 - 1) * (d1 - 1))%Z -> L_FlowCellF.clear_of (px k) (py k) (qx k) (qy k) (x0 c) (x1 c) (y0 c) (y1 c)).
  { intros k c Hk Hc. destruct (DE k Hk) as (A1 & A2 & A3 & A4). apply (segment_cell d0 d1 H0 H1 X Y DX DY MX MY); auto. exact (CS k Hk). }
  assert (AM : all_map (stored px py qx qy x0 x1 y0 y1) (fl_weights s3)).
  { apply (computeWeightsW g F2 srt ST px py qx qy x0 x1 y0 y1 (n - 1) ((d0 - 1) * (d1 - 1)) CL t2 s3); auto. rewrite EW. intros k v c w []. }
  destruct (computeWeights_frame srt g t2 s3 E3) as (J1 & J2 & J3 & J4 & J5 & J6 & J7).
  assert (O3 : src_ok d0 d1 nx ny s3) by (unfold src_ok in *; rewrite J1, J2, J5, J6, J7; exact O2).
  assert (TB : table_ok (n - 1) ((d0 - 1) * (d1 - 1)) (fl_weights s3)).
  { apply (computeWeights_table srt g t2 s3); auto. rewrite EW. split; [exists 0%Z; exact I|intros k r []]. }
  destruct (apply_ok d0 d1 nx ny s3 h0 h1 data0 data1 out (n - 1) O3 D0 D1 TB ltac:(lia)) as (out' & EA & L & K).
  exists out'. split. { unfold flow_run. rewrite E1. cbn [bind]. rewrite E2. cbn [bind]. unfold zseq. cbn [seq map foldM]. rewrite E3. cbn [bind]. exact EA. }
  split; auto. intros k Hk v. unfold v. clear v. set (A := point_of (P k)). set (B := point_of (P (k + 1)%Z)). set (m := IZR ((d0 - 1) * (d1 - 1))).
  destruct (ROW k Hk) as (es & R1 & C). rewrite EW in R1. cbn [row app] in R1.
  assert (MF := contributing g F2 srt ST px py qx qy x0 x1 y0 y1 (n - 1) ((d0 - 1) * (d1 - 1)) CL k _ es Hk (fun c I => proj1 (in_range _ _) I) C).
  assert (CSk : clear_segment d0 d1 rX rY (fval (px k), fval (py k)) (fval (qx k), fval (qy k))) by exact (CS k Hk).
  set (pt := part d1 X Y px py qx qy k h0 h1).
  assert (SUM : fold_right Rplus 0 (map pt (map fst es)) = fold_right Rplus 0 (map pt (range ((d0 - 1) * (d1 - 1))))) by (rewrite MF; exact (parts_filter d1 X Y px py qx qy k h0 h1 _)).
  assert (PF : forall c, (0 <= c < (d0 - 1) * (d1 - 1))%Z -> cell_flux (rx rX) (ry rY) (fun i j => fval (h0 i j)) (fun i j => fval (h1 i j)) (c / (d1 - 1)) (c mod (d1 - 1)) A B (pt c))
    by exact (part_flux d0 d1 H0 H1 X Y DX DY MX MY px py qx qy k (DE k Hk) CSk h0 h1).
  assert (GR := good_row _ k GM). assert (SR := all_row _ _ k AM). rewrite K, Z2Nat.id by lia. rewrite R1 in *.
  assert (CI : forall e, In e es -> (0 <= fst e < (d0 - 1) * (d1 - 1))%Z) by (intros e I; apply in_range; apply (contributions_in _ _ _ _ _ _ C _ I)).
  assert (LE := contributions_le _ _ _ _ _ _ C). rewrite L_Box2.range_length in LE.
  assert (NE : es <> []).
  { intros Z. assert (TEL : increments (fun t => t) (map (fun c => (tin px py qx qy x0 x1 y0 y1 k c, tout px py qx qy x0 x1 y0 y1 k c)) (map fst es)) = 1 - 0) by (rewrite MF; exact (telescope d0 d1 H0 H1 X Y DX DY MX MY px py qx qy k (DE k Hk) CSk (fun t => t))).
    rewrite Z in TEL. cbn [map increments] in TEL. lra. }
  assert (W0 : forall i j, (0 <= i < d0 - 1)%Z -> (0 <= j < d1)%Z -> dbl (h0 i j) /\ Rabs (fval (h0 i j)) <= H) by (intros i j Hi Hj; apply HV; apply in_or_app; left; eapply nth_error_In; apply D0; auto).
  assert (W1 : forall i j, (0 <= i < d0)%Z -> (0 <= j < d1 - 1)%Z -> dbl (h1 i j) /\ Rabs (fval (h1 i j)) <= H) by (intros i j Hi Hj; apply HV; apply in_or_app; right; eapply nth_error_In; apply D1; auto).
  assert (HP : 0 <= H) by (destruct (W0 0%Z 0%Z ltac:(lia) ltac:(lia)) as [_ Z]; assert (Z' := Rabs_pos (fval (h0 0%Z 0%Z))); lra).
  destruct (edge_bound d0 d1 h0 h1 es) as [DV BV]; auto.
  { nia. }
  { intros i j Hi Hj. destruct (W0 i j Hi Hj). split; auto. lra. }
  { intros i j Hi Hj. destruct (W1 i j Hi Hj). split; auto. lra. }
  assert (S12 : Rabs (dot_exact (flat_map (edge_pairs d1 h0 h1) es) - fold_right Rplus 0 (map pt (map fst es))) <= INR (length es) * (/ 10 ^ 7 * H) /\
    dot_size (flat_map (edge_pairs d1 h0 h1) es) <= INR (length es) * (4 * H)).
  { apply (all_parts d0 d1 H0 H1 X Y DX DY MX MY px py qx qy k (DE k Hk) CSk h0 h1 H).
    - intros i j Hi Hj. apply W0; auto.
    - intros i j Hi Hj. apply W1; auto.
    - intros c w I. split; [apply (CI _ I)|apply (SR _ _ I)]. }
  destruct S12 as [S1 S2]. rewrite SUM in S1.
  match goal with |- dbl ?v /\ _ => replace v with (dotF n0 (flat_map (edge_pairs d1 h0 h1) es)) by (rewrite <- edge_sum_dot; destruct es as [|e es']; [congruence|rewrite edge_sum_row; reflexivity]) end.
  split; auto. exists (fun i j => pt (i * (d1 - 1) + j)%Z). split.
  { intros i j [Hi Hj]. assert (F := PF (i * (d1 - 1) + j)%Z ltac:(nia)). rewrite Z.div_add_l, Z.div_small, Z.add_0_r in F by lia.
    replace ((i * (d1 - 1) + j) mod (d1 - 1))%Z with j in F by (rewrite Z.add_comm, Z.mod_add, Z.mod_small; lia). exact F. }
  unfold cell_sum. rewrite (map_ext_in _ pt (range ((d0 - 1) * (d1 - 1)))).
  2: { intros c _. f_equal. rewrite (Z.div_mod c (d1 - 1)) at 3 by lia. ring. }
  set (z := dotF n0 _) in *. set (ex := dot_exact _) in *. set (sz := dot_size _) in *. set (df := fold_right Rplus 0 _) in *. clearbody z ex sz df.
  assert (ML : 0 <= INR (length es) <= m).
  { split; [apply pos_INR|]. unfold m. rewrite INR_IZR_INZ. apply IZR_le. nia. }
  set (r := INR (length es)) in *. clearbody r m. unfold flux_error.
  assert (ET : 0 <= etiny) by (unfold etiny; left; apply bpow_gt_0). assert (UP : 0 < uround) by (unfold uround; lra).
  clear - S1 S2 BV ML HP ET UP.
  assert (T1 : r * (/ 10 ^ 7 * H) <= m * (/ 10 ^ 7 * H)) by (apply Rmult_le_compat_r; [apply Rmult_le_pos; lra|lra]).
  assert (T2 : sz <= m * (4 * H)) by (eapply Rle_trans; [exact S2|]; apply Rmult_le_compat_r; lra).
  assert (T3 : 12 * r * (uround * sz + etiny) <= 12 * m * (uround * (m * (4 * H)) + etiny)).
  { assert (0 <= uround * (m * (4 * H))) by (apply Rmult_le_pos; [lra|apply Rmult_le_pos; lra]). assert (uround * sz <= uround * (m * (4 * H))) by (apply Rmult_le_compat_l; lra).
    apply Rle_trans with (12 * r * (uround * (m * (4 * H)) + etiny)); [apply Rmult_le_compat_l; lra|apply Rmult_le_compat_r; lra]. }
  apply Rabs_le_inv in S1. apply Rabs_le_inv in BV. apply Rabs_le. 
  replace (m * ((/ 10 ^ 7 + 48 * m * uround) * H) + 12 * m * etiny) with (m * (/ 10 ^ 7 * H) + 12 * m * (uround * (m * (4 * H)) + etiny)) by ring. lra.
Qed.
Print Assumptions C84_integral_ieee.

(** *** Reversal *)
Lemma cell_flux_rev : forall nx ny h0 h1 i j A B I I', L_Flow.parallelogram (cell_quad nx ny i j) ->
  cell_flux nx ny h0 h1 i j A B I -> cell_flux nx ny h0 h1 i j B A I' -> I' = - I.
Proof.
  intros nx ny h0 h1 i j A B I I' PA HI HI'. assert (RV : forall t, on_seg B A t = on_seg A B (1 - t)) by (intros t; unfold on_seg; f_equal; ring).
  apply flux_straight in HI; auto. 
  assert (N : cell_flux nx ny h0 h1 i j B A (- I)).
  { destruct HI as [[U ->]|(t0 & t1 & T0 & T1 & IN & ->)].
    - left. split; [|ring]. intros t t' Ht Ht' J J'. rewrite RV in J, J'. assert (E := U (1 - t) (1 - t') ltac:(lra) ltac:(lra) J J'). lra.
    - assert (S := straight_flux nx ny h0 h1 i j B A (1 - t1) (1 - t0) PA ltac:(lra) ltac:(lra)).
      match type of S with _ -> cell_flux _ _ _ _ _ _ _ _ ?v => replace (- straight (h0 i j) (h0 i (j + 1)%Z) (h1 i j) (h1 (i + 1)%Z j) (cell_quad nx ny i j) (on_seg A B t0) (on_seg A B t1)) with v end.
      + apply S. intros t Ht. rewrite RV, IN by lra. lra.
      + rewrite !RV. replace (1 - (1 - t1)) with t1 by ring. replace (1 - (1 - t0)) with t0 by ring. unfold straight. field. }
  apply (cell_flux_unique nx ny h0 h1 i j B A I' (- I) PA HI' N).
Qed.

Lemma cell_sum_ext : forall d0 d1 I J, (2 <= d0)%Z -> (2 <= d1)%Z -> (forall i j, is_cell2 d0 d1 i j -> I i j = J i j) -> cell_sum d0 d1 I = cell_sum d0 d1 J.
Proof.
  intros d0 d1 I J H0 H1 E. unfold cell_sum. f_equal. apply map_ext_in. intros c Hc. apply in_range in Hc. apply E. exact (cell_rows d0 d1 H1 c Hc).
Qed.
Lemma cell_sum_opp : forall d0 d1 I, cell_sum d0 d1 (fun i j => - I i j) = - cell_sum d0 d1 I.
Proof. intros d0 d1 I. unfold cell_sum. induction (range _) as [|c l IH]; cbn [map fold_right]; [ring|]. rewrite IH. ring. Qed.
Lemma cell_sum_plus : forall d0 d1 I J, cell_sum d0 d1 (fun i j => I i j + J i j) = cell_sum d0 d1 I + cell_sum d0 d1 J.
Proof. intros d0 d1 I J. unfold cell_sum. induction (range _) as [|c l IH]; cbn [map fold_right]; [ring|]. rewrite IH. ring. Qed.

(** C85.  In double arithmetic, same grids and segments, any edge values: followed the other way the flux changes its sign, up to twice the
    error of a flux. *)
Theorem C85_reversed_ieee : forall g srt cosv cosv' d0 d1 X Y n n' (xs ys dxs dys dxs' dys' : list spec_float) h0 h1 data0 data1 out out' H k k',
  flow2 g -> sorts srt -> moderate_edges d0 d1 X Y h0 h1 xs ys data0 data1 H -> (2 <= n <= int_max)%Z -> (2 <= n' <= int_max)%Z ->
  Z.of_nat (length dxs) = n -> Z.of_nat (length dys) = n -> Z.of_nat (length out) = (n - 1)%Z ->
  Z.of_nat (length dxs') = n' -> Z.of_nat (length dys') = n' -> Z.of_nat (length out') = (n' - 1)%Z ->
  let P := dst_point (fun i => cosv i n) dxs dys in let P' := dst_point (fun i => cosv' i n') dxs' dys' in
  clear_line d0 d1 X Y n P -> clear_line d0 d1 X Y n' P' -> (0 <= k < n - 1)%Z -> (0 <= k' < n' - 1)%Z ->
  point_of (P' k') = point_of (P (k + 1)%Z) -> point_of (P' (k' + 1)%Z) = point_of (P k) ->
  exists r r', flow_run srt g cosv d0 d1 xs ys n dxs dys 1 data0 data1 out = Ret r /\ flow_run srt g cosv' d0 d1 xs ys n' dxs' dys' 1 data0 data1 out' = Ret r' /\
    Rabs (fval (nth (Z.to_nat k') r' n0) - - fval (nth (Z.to_nat k) r n0)) <= 2 * flux_error (IZR ((d0 - 1) * (d1 - 1))) H.
Proof.
  intros g srt cosv cosv' d0 d1 X Y n n' xs ys dxs dys dxs' dys' h0 h1 data0 data1 out out' H k k' G ST ME Hn Hn' LX LY LO LX' LY' LO' P P' CL CL' Hk Hk' EB EA.
  destruct (C84_integral_ieee g srt cosv d0 d1 X Y n xs ys dxs dys h0 h1 data0 data1 out H) as (r & R1 & _ & K1); auto.
  destruct (C84_integral_ieee g srt cosv' d0 d1 X Y n' xs ys dxs' dys' h0 h1 data0 data1 out' H) as (r' & R2 & _ & K2); auto.
  exists r, r'. split; auto. split; auto. destruct (K1 k Hk) as (_ & I & F1 & B1). destruct (K2 k' Hk') as (_ & I' & F2 & B2). fold P in F1. fold P' in F2. rewrite EA, EB in F2.
  destruct ME as [H0 H1 _ _ _ _ _ MX MY _ _ _ _].
  rewrite (cell_sum_ext d0 d1 I' (fun i j => - I i j)) in B2; auto.
  2: { intros i j HC. apply (cell_flux_rev _ _ _ _ _ _ _ _ _ _ (rect_par d0 d1 X Y MX MY i j HC) (F1 i j HC) (F2 i j HC)). }
  rewrite cell_sum_opp in B2. clear - B1 B2. apply Rabs_le_inv in B1, B2. apply Rabs_le. lra.
Qed.
Print Assumptions C85_reversed_ieee.

(** C85.  The same for a segment cut at one of its points: the flux is the sum of those of the parts, up to three times the error of a flux. *)
Theorem C85_split_ieee : forall g srt cosv cosv' d0 d1 X Y n n' (xs ys dxs dys dxs' dys' : list spec_float) h0 h1 data0 data1 out out' H k k' m,
  flow2 g -> sorts srt -> moderate_edges d0 d1 X Y h0 h1 xs ys data0 data1 H -> (2 <= n <= int_max)%Z -> (2 <= n' <= int_max)%Z ->
  Z.of_nat (length dxs) = n -> Z.of_nat (length dys) = n -> Z.of_nat (length out) = (n - 1)%Z ->
  Z.of_nat (length dxs') = n' -> Z.of_nat (length dys') = n' -> Z.of_nat (length out') = (n' - 1)%Z ->
  let P := dst_point (fun i => cosv i n) dxs dys in let P' := dst_point (fun i => cosv' i n') dxs' dys' in
  clear_line d0 d1 X Y n P -> clear_line d0 d1 X Y n' P' -> (0 <= k < n - 1)%Z -> (0 <= k' < n' - 2)%Z -> 0 < m < 1 ->
  point_of (P' k') = point_of (P k) -> point_of (P' (k' + 1)%Z) = on_seg (point_of (P k)) (point_of (P (k + 1)%Z)) m -> point_of (P' (k' + 2)%Z) = point_of (P (k + 1)%Z) ->
  exists r r', flow_run srt g cosv d0 d1 xs ys n dxs dys 1 data0 data1 out = Ret r /\ flow_run srt g cosv' d0 d1 xs ys n' dxs' dys' 1 data0 data1 out' = Ret r' /\
    Rabs (fval (nth (Z.to_nat k) r n0) - (fval (nth (Z.to_nat k') r' n0) + fval (nth (Z.to_nat (k' + 1)) r' n0))) <= 3 * flux_error (IZR ((d0 - 1) * (d1 - 1))) H.
Proof.
  intros g srt cosv cosv' d0 d1 X Y n n' xs ys dxs dys dxs' dys' h0 h1 data0 data1 out out' H k k' m G ST ME Hn Hn' LX LY LO LX' LY' LO' P P' CL CL' Hk Hk' Hm EA EM EB.
  destruct (C84_integral_ieee g srt cosv d0 d1 X Y n xs ys dxs dys h0 h1 data0 data1 out H) as (r & R1 & _ & K1); auto.
  destruct (C84_integral_ieee g srt cosv' d0 d1 X Y n' xs ys dxs' dys' h0 h1 data0 data1 out' H) as (r' & R2 & _ & K2); auto.
  exists r, r'. split; auto. split; auto. destruct (K1 k Hk) as (_ & I & F1 & B1). destruct (K2 k' ltac:(lia)) as (_ & I1 & F2 & B2). destruct (K2 (k' + 1)%Z ltac:(lia)) as (_ & I2 & F3 & B3).
  fold P in F1. fold P' in F2, F3. replace (k' + 1 + 1)%Z with (k' + 2)%Z in F3 by lia. rewrite EA, EM in F2. rewrite EM, EB in F3.
  destruct ME as [H0 H1 _ _ _ _ _ MX MY _ _ _ _].
  rewrite (cell_sum_ext d0 d1 I (fun i j => I1 i j + I2 i j)) in B1; auto.
  2: { intros i j HC. apply (cell_flux_split _ _ _ _ _ _ _ _ m _ _ _ (rect_par d0 d1 X Y MX MY i j HC) Hm (F1 i j HC) (F2 i j HC) (F3 i j HC)). }
  rewrite cell_sum_plus in B1. clear - B1 B2 B3. apply Rabs_le_inv in B1, B2, B3. apply Rabs_le. lra.
Qed.
Print Assumptions C85_split_ieee.

(** *** Cases *)
(** The grid of the case of [C91_moderate_partial] with edge values that are not the increments of a function: round the left cell they
    add up to 1 + 4 - 3 + 1.  The segment from (-3/4, 5/16) to (5/8, 3/16), the other way, and cut at (-1/16, 1/4). *)
Definition values0 (i j : Z) : spec_float := FZ (1 + i + 2 * j + i * j).
Definition values1 (i j : Z) : spec_float := FZ (-1 + 5 * i - 3 * (i * (i - 1) / 2)).

Lemma case_edges : moderate_edges 3 2 (fun i => FZ (i - 1)) FZ values0 values1
  (map FZ [-1; -1; 0; 0; 1; 1]%Z) (map FZ [0; 1; 0; 1; 0; 1]%Z) (map FZ [1; 3; 2; 5]%Z) (map FZ [-1; 4; 6]%Z) 6.
Proof.
  assert (FV : forall z, (Z.abs z <= 2 ^ 50)%Z -> dbl (FZ z) /\ fval (FZ z) = IZR z) by (intros z Hz; apply f_ofZ; lia).
  destruct case_flow as [M0 M1 MI MXS MYS DX DY MX MY _ _ _ _]. constructor; auto.
  - split; [reflexivity|]. intros i j Hi Hj. assert (HI : i = 0%Z \/ i = 1%Z) by lia. assert (HJ : j = 0%Z \/ j = 1%Z) by lia. destruct HI as [-> | ->], HJ as [-> | ->]; reflexivity.
  - split; [reflexivity|]. intros i j Hi Hj. assert (HI : i = 0%Z \/ i = 1%Z \/ i = 2%Z) by lia. assert (HJ : j = 0%Z) by lia. destruct HI as [-> |[-> | ->]]; rewrite HJ; reflexivity.
  - apply Rle_trans with (bpow radix2 3); [simpl; lra|apply bpow_le; lia].
  - intros v I. assert (HV : exists z, v = FZ z /\ (Z.abs z <= 6)%Z). { cbn [map app In] in I. repeat (destruct I as [<- |I]; [eexists; split; [reflexivity|lia]|]). destruct I. }
    destruct HV as (z & -> & Hz). destruct (FV z ltac:(lia)) as [D V]. split; auto. rewrite V, <- abs_IZR. apply IZR_le. auto.
Qed.

Definition cut_x : list spec_float := [lit (-3) 4; lit (-1) 16; lit 5 8].
Definition cut_y : list spec_float := [lit 5 16; lit 1 4; lit 3 16].
Definition one_x : list spec_float := [lit (-3) 4; lit 5 8].
Definition one_y : list spec_float := [lit 5 16; lit 3 16].

Lemma lit_values : fval (lit (-1) 16) = - (1 / 16) /\ fval (lit 1 4) = 1 / 4.
Proof.
  split; match goal with |- fval ?v = _ => let w := eval vm_compute in v in change v with w end;
  unfold fval; cbn [SF2R cond_Zopp]; unfold F2R; cbn [Fnum Fexp]; rewrite ?opp_IZR; change (bpow radix2 (-56)) with (/ 72057594037927936); change (bpow radix2 (-54)) with (/ 18014398509481984); lra.
Qed.

Lemma cut_points : forall k, (0 <= k < 3)%Z -> let p := dst_point (fun _ => n0) cut_x cut_y k in (dbl (fst p) /\ dbl (snd p)) /\
  (k = 0%Z /\ point_of p = (- (3 / 4), 5 / 16) \/ k = 1%Z /\ point_of p = (- (1 / 16), 1 / 4) \/ k = 2%Z /\ point_of p = (5 / 8, 3 / 16)).
Proof.
  intros k Hk p. destruct lit_dyadic as (L1 & L2 & L3 & L4). destruct lit_values as (L5 & L6).
  assert (HK : k = 0%Z \/ k = 1%Z \/ k = 2%Z) by lia. unfold point_of. destruct HK as [-> |[-> | ->]].
  - assert (E1 : fst p = lit (-3) 4) by (vm_compute; reflexivity). assert (E2 : snd p = lit 5 16) by (vm_compute; reflexivity). rewrite E1, E2, L1, L3. split; [split; split; vm_compute; reflexivity|auto].
  - assert (E1 : fst p = lit (-1) 16) by (vm_compute; reflexivity). assert (E2 : snd p = lit 1 4) by (vm_compute; reflexivity). rewrite E1, E2, L5, L6. split; [split; split; vm_compute; reflexivity|auto].
  - assert (E1 : fst p = lit 5 8) by (vm_compute; reflexivity). assert (E2 : snd p = lit 3 16) by (vm_compute; reflexivity). rewrite E1, E2, L2, L4. split; [split; split; vm_compute; reflexivity|auto].
Qed.

Lemma cut_line : clear_line 3 2 (fun i => FZ (i - 1)) FZ 3 (dst_point (fun _ => n0) cut_x cut_y).
Proof.
  split; [intros k Hk; apply cut_points; auto|]. intros k Hk. destruct (cut_points k ltac:(lia)) as [_ P]. destruct (cut_points (k + 1) ltac:(lia)) as [_ Q]. cbv zeta in *. unfold point_of in P, Q.
  destruct P as [(K & ->)|[(K & ->)|(K & ->)]]; destruct Q as [(K' & ->)|[(K' & ->)|(K' & ->)]]; try lia; apply case_segment; tauto.
Qed.

Lemma one_points : forall k, (0 <= k < 2)%Z -> dst_point (fun _ => n0) one_x one_y k = dst_point (fun _ => n0) cut_x cut_y (2 * k) /\
  dst_point (fun _ => n0) (rev one_x) (rev one_y) k = dst_point (fun _ => n0) cut_x cut_y (2 * (1 - k)).
Proof. intros k Hk. assert (HK : k = 0%Z \/ k = 1%Z) by lia. destruct HK as [-> | ->]; split; vm_compute; reflexivity. Qed.

Lemma one_line : clear_line 3 2 (fun i => FZ (i - 1)) FZ 2 (dst_point (fun _ => n0) one_x one_y) /\ clear_line 3 2 (fun i => FZ (i - 1)) FZ 2 (dst_point (fun _ => n0) (rev one_x) (rev one_y)).
Proof.
  destruct (cut_points 0 ltac:(lia)) as [_ P]. destruct (cut_points 2 ltac:(lia)) as [_ Q]. cbv zeta in *. unfold point_of in P, Q.
  split; (split; [intros k Hk; rewrite ?(proj1 (one_points k Hk)), ?(proj2 (one_points k Hk)); apply cut_points; lia|]); intros k Hk; assert (HK : k = 0%Z) by lia; subst k.
  - rewrite (proj1 (one_points 0 ltac:(lia))), (proj1 (one_points (0 + 1) ltac:(lia))). change (2 * 0)%Z with 0%Z. change (2 * (0 + 1))%Z with 2%Z.
    destruct P as [(K & ->)|[(K & ->)|(K & ->)]]; destruct Q as [(K' & ->)|[(K' & ->)|(K' & ->)]]; try lia; apply case_segment; tauto.
  - rewrite (proj2 (one_points 0 ltac:(lia))), (proj2 (one_points (0 + 1) ltac:(lia))). change (2 * (1 - 0))%Z with 2%Z. change (2 * (1 - (0 + 1)))%Z with 0%Z.
    destruct P as [(K & ->)|[(K & ->)|(K & ->)]]; destruct Q as [(K' & ->)|[(K' & ->)|(K' & ->)]]; try lia; apply case_segment; tauto.
Qed.

Lemma case_error : 3 * flux_error (IZR ((3 - 1) * (2 - 1))) 6 <= / 10 ^ 5.
Proof. unfold flux_error. change (IZR ((3 - 1) * (2 - 1))) with 2. assert (ET : etiny <= / 10 ^ 15) by (assert (T := tiny_u); assert (U := u_rng); unfold uround in *; lra). unfold uround. lra. Qed.
Lemma case_error_pos : 0 <= flux_error (IZR ((3 - 1) * (2 - 1))) 6.
Proof. unfold flux_error. change (IZR ((3 - 1) * (2 - 1))) with 2. assert (ET : 0 <= etiny) by (unfold etiny; left; apply bpow_gt_0). unfold uround. lra. Qed.

(** The flow on the case. *)
Definition case_run (n : Z) (dxs dys out : list spec_float) : exec (list spec_float) :=
  flow_run insertion clip2 (fun _ _ => n0) 3 2 (map FZ [-1; -1; 0; 0; 1; 1]%Z) (map FZ [0; 1; 0; 1; 0; 1]%Z) n dxs dys 1 (map FZ [1; 3; 2; 5]%Z) (map FZ [-1; 4; 6]%Z) out.

Example C84_ieee_case : exists r I, case_run 2 one_x one_y [FZ 0] = Ret r /\
  (forall i j, is_cell2 3 2 i j -> cell_flux (fun i _ => fval (FZ (i - 1))) (fun _ j => fval (FZ j)) (fun i j => fval (values0 i j)) (fun i j => fval (values1 i j)) i j
     (- (3 / 4), 5 / 16) (5 / 8, 3 / 16) (I i j)) /\
  Rabs (fval (nth 0 r n0) - cell_sum 3 2 I) <= / 10 ^ 5.
Proof.
  destruct (C84_integral_ieee clip2 insertion (fun _ _ => n0) 3 2 _ _ 2 _ _ one_x one_y _ _ _ _ [FZ 0] 6 clip2_flow (insertion_sorts _) case_edges) as (r & E & _ & K); try reflexivity.
  { unfold int_max. lia. }
  { exact (proj1 one_line). }
  destruct (K 0%Z ltac:(lia)) as (_ & I & F & B). exists r, I. split; [exact E|]. split.
  - intros i j HC. specialize (F i j HC). cbv beta in F. rewrite (proj1 (one_points 0 ltac:(lia))), (proj1 (one_points (0 + 1) ltac:(lia))) in F. change (2 * 0)%Z with 0%Z in F. change (2 * (0 + 1))%Z with 2%Z in F.
    destruct (cut_points 0 ltac:(lia)) as [_ P]. destruct (cut_points 2 ltac:(lia)) as [_ Q]. cbv zeta in P, Q.
    destruct P as [(K1 & P)|[(K1 & P)|(K1 & P)]]; try discriminate K1. destruct Q as [(K2 & Q)|[(K2 & Q)|(K2 & Q)]]; try discriminate K2. rewrite P, Q in F. exact F.
  - eapply Rle_trans; [exact B|]. assert (T := case_error). assert (T' := case_error_pos). lra.
Qed.

Example C85_reversed_ieee_case : exists r r', case_run 2 one_x one_y [FZ 0] = Ret r /\ case_run 2 (rev one_x) (rev one_y) [FZ 0] = Ret r' /\
  Rabs (fval (nth 0 r' n0) - - fval (nth 0 r n0)) <= / 10 ^ 5.
Proof.
  destruct (C85_reversed_ieee clip2 insertion (fun _ _ => n0) (fun _ _ => n0) 3 2 _ _ 2 2 _ _ one_x one_y (rev one_x) (rev one_y) _ _ _ _ [FZ 0] [FZ 0] 6 0 0 clip2_flow (insertion_sorts _) case_edges) as (r & r' & E & E' & B);
    try reflexivity; try (unfold int_max; lia); try apply one_line; try lia.
  exists r, r'. split; [exact E|]. split; [exact E'|]. eapply Rle_trans; [exact B|]. assert (T := case_error). assert (T' := case_error_pos). lra.
Qed.

Example C85_split_ieee_case : exists r r', case_run 2 one_x one_y [FZ 0] = Ret r /\ case_run 3 cut_x cut_y [FZ 0; FZ 0] = Ret r' /\
  Rabs (fval (nth 0 r n0) - (fval (nth 0 r' n0) + fval (nth 1 r' n0))) <= / 10 ^ 5.
Proof.
  destruct (C85_split_ieee clip2 insertion (fun _ _ => n0) (fun _ _ => n0) 3 2 _ _ 2 3 _ _ one_x one_y cut_x cut_y _ _ _ _ [FZ 0] [FZ 0; FZ 0] 6 0 0 (1 / 2) clip2_flow (insertion_sorts _) case_edges) as (r & r' & E & E' & B);
    try reflexivity; try (unfold int_max; lia); try apply one_line; try exact cut_line; try lia; try lra.
  - cbv beta. rewrite (proj1 (one_points 0 ltac:(lia))), (proj1 (one_points (0 + 1) ltac:(lia))). change (2 * 0)%Z with 0%Z. change (2 * (0 + 1))%Z with 2%Z. change (0 + 1)%Z with 1%Z.
    destruct (cut_points 0 ltac:(lia)) as [_ P]. destruct (cut_points 2 ltac:(lia)) as [_ Q]. destruct (cut_points 1 ltac:(lia)) as [_ S]. cbv zeta in P, Q, S.
    destruct P as [(K1 & P)|[(K1 & P)|(K1 & P)]]; try discriminate K1. destruct Q as [(K2 & Q)|[(K2 & Q)|(K2 & Q)]]; try discriminate K2. destruct S as [(K3 & S)|[(K3 & S)|(K3 & S)]]; try discriminate K3.
    rewrite P, Q, S. unfold on_seg. cbn [fst snd]. f_equal; field.
  - exists r, r'. split; [exact E|]. split; [exact E'|]. eapply Rle_trans; [exact B|]. exact case_error.
Qed.
