(** C91: the flux through a segment of a line across a rectilinear grid of moderate size, in double arithmetic. *)
From Coq Require Import ZArith List Bool Reals Lra Lia Permutation Floats.SpecFloat.
From Flocq Require Import Core BinarySingleNaN.
From Verif Require Import Base Num NumR NumF M_BoxIterator M_LinearSolve M_FindPoint M_Triangulate M_Quad M_QuadLine M_FlowInterp
  S_Geometry S_Quad S_Grid S_Sort S_Array S_Flow S_FlowTable S_FlowModerate
  L_LinearSolve L_FindPoint L_NodeInterp L_Intervals L_FlowRect L_Float L_FloatOps L_FindPointF L_NodeInterpF L_Defined L_FlowInterp L_FlowTwin L_FlowTable L_FlowF L_DotF L_ApplyF L_ResidualF L_QuadF L_AffineF L_RectF
  L_FlowRectF L_FlowCellF L_FlowFindF L_FlowWeightF L_FlowSumF L_Clip2F P_Flow P_ApplyF.
From Verif Require L_ConserveTable L_Box2.
Import ListNotations.
Open Scope R_scope.

Lemma once_map : forall {A} (f : A -> R * R) l, NoDup l -> (forall a b, In a l -> In b l -> a <> b -> meet_once (f a) (f b)) -> pairwise_once (map f l).
Proof.
  intros A f l N. induction N as [|a l NI N IH]; intros H; [exact I|]. cbn [map pairwise_once]. split.
  - intros j Hj. apply in_map_iff in Hj. destruct Hj as (b & <- & Hb). apply H; [left; auto|right; auto|congruence].
  - apply IH. intros u v Hu Hv. apply H; right; auto.
Qed.

Lemma moderate_increasing : forall d X, moderate_axis d X -> increasing d X.
Proof. intros d X [_ H] i Hi. specialize (H i Hi). lra. Qed.

Lemma segment_regular : forall d0 d1 X Y A B, (2 <= d0)%Z -> (2 <= d1)%Z -> increasing d0 X -> increasing d1 Y -> clear_segment d0 d1 X Y A B ->
  cells_cover d0 d1 (rx X) (ry Y) A B /\ cells_share_once d0 d1 (rx X) (ry Y) A B.
Proof.
  intros d0 d1 X Y A B H0 H1 HX HY (EN & DX & DY & _). destruct (rect_regular 0 d0 d1 X Y A B) as (R1 & R2 & _); auto; [lra|].
  assert (TR : forall d Z v, S_Flow.clear_of 0 d Z v) by (intros d Z v i Hi; cbv zeta; lra).
  split; [|split; [|split; [|split]]].
  - intros p Hp. destruct (EN p Hp) as [[E1 E2] _]. auto.
  - intros i Hi [E1 E2]. rewrite E1, E2, Rminus_eq_0, Rabs_R0 in DX. lra.
  - intros i Hi [E1 E2]. rewrite E1, E2, Rminus_eq_0, Rabs_R0 in DY. lra.
  - intros. split; [lra|apply TR].
  - intros. split; [lra|apply TR].
Qed.

(** ** One segment, without the model *)
Section One.
Variables d0 d1 : Z.
Hypothesis H0 : (2 <= d0)%Z.
Hypothesis H1 : (2 <= d1)%Z.
Variables X Y : Z -> spec_float.
Hypothesis CX : forall i, (0 <= i < d0)%Z -> dbl (X i).
Hypothesis CY : forall j, (0 <= j < d1)%Z -> dbl (Y j).
Let rX i := fval (X i).
Let rY j := fval (Y j).
Hypothesis MX : moderate_axis d0 rX.
Hypothesis MY : moderate_axis d1 rY.
Let row_i (c : Z) := (c / (d1 - 1))%Z.
Let col_j (c : Z) := (c mod (d1 - 1))%Z.
Let nc := ((d0 - 1) * (d1 - 1))%Z.

Lemma cell_rows : forall c, (0 <= c < nc)%Z -> is_cell2 d0 d1 (row_i c) (col_j c).
Proof. intros c Hc. unfold nc in Hc. split; [split; [apply Z.div_pos; lia|apply Z.div_lt_upper_bound; lia]|apply Z.mod_pos_bound; lia]. Qed.

Lemma segment_cell : forall px py qx qy c, dbl px -> dbl py -> dbl qx -> dbl qy -> clear_segment d0 d1 rX rY (fval px, fval py) (fval qx, fval qy) -> (0 <= c < nc)%Z ->
  L_FlowCellF.clear_of px py qx qy (X (row_i c)) (X (row_i c + 1)) (Y (col_j c)) (Y (col_j c + 1)).
Proof.
  intros px py qx qy c D1 D2 D3 D4 (EN & DX & DY & VX & VY) Hc. destruct (cell_rows c Hc) as [Hi Hj]. set (i := row_i c) in *. set (j := col_j c) in *. clearbody i j.
  destruct MX as [BX SX]. destruct MY as [BY SY]. cbn [fst snd] in *.
  destruct (EN _ (or_introl eq_refl)) as ([P1 P2] & P3 & P4). destruct (EN _ (or_intror eq_refl)) as ([Q1 Q2] & Q3 & Q4). cbn [fst snd] in *.
  assert (IN : forall lo hi v, Rabs lo <= 4 -> Rabs hi <= 4 -> lo <= v <= hi -> Rabs v <= 4) by (intros lo hi v A B C; apply Rabs_le_inv in A; apply Rabs_le_inv in B; apply Rabs_le; lra).
  assert (Z0 := BX 0%Z ltac:(lia)). assert (Z1 := BX (d0 - 1)%Z ltac:(lia)). assert (Z2 := BY 0%Z ltac:(lia)). assert (Z3 := BY (d1 - 1)%Z ltac:(lia)).
  assert (NX : fval qx - fval px <> 0) by (intros Z; replace (fval px - fval qx) with 0 in DX by lra; rewrite Rabs_R0 in DX; lra).
  assert (NY : fval qy - fval py <> 0) by (intros Z; replace (fval py - fval qy) with 0 in DY by lra; rewrite Rabs_R0 in DY; lra).
  constructor; try (unfold co, coord; split; [assumption|]); unfold ap, apart, sp.
  - apply (IN _ _ _ Z0 Z1 P1).
  - apply (IN _ _ _ Z2 Z3 P2).
  - apply (IN _ _ _ Z0 Z1 Q1).
  - apply (IN _ _ _ Z2 Z3 Q2).
  - unfold co, coord. split; [apply CX; lia|apply BX; lia].
  - unfold co, coord. split; [apply CX; lia|apply BX; lia].
  - unfold co, coord. split; [apply CY; lia|apply BY; lia].
  - unfold co, coord. split; [apply CY; lia|apply BY; lia].
  - apply SX. lia.
  - apply SY. lia.
  - exact DX.
  - exact DY.
  - intros x [-> | ->]; split; (apply P3 || apply Q3); lia.
  - intros y [-> | ->]; split; (apply P4 || apply Q4); lia.
  - assert (K : forall i' j', (0 <= i' < d0)%Z -> (0 <= j' < d1)%Z -> let t := tm (fval px) (fval qx) (rX i') in 0 < t < 1 -> / 1024 <= Rabs (fval py + t * (fval qy - fval py) - rY j')).
    { intros i' j' Hi' Hj' t T. apply (VX i' j' t); auto. apply tm_pos. auto. }
    intros x y [-> | ->] [-> | ->]; cbv zeta; apply K; lia.
  - assert (K : forall i' j', (0 <= i' < d0)%Z -> (0 <= j' < d1)%Z -> let t := tm (fval py) (fval qy) (rY j') in 0 < t < 1 -> / 1024 <= Rabs (fval px + t * (fval qx - fval px) - rX i')).
    { intros i' j' Hi' Hj' t T. apply (VY i' j' t); auto. apply tm_pos. auto. }
    intros x y [-> | ->] [-> | ->]; cbv zeta; apply K; lia.
Qed.

Variables px py qx qy : Z -> spec_float.
Variable k : Z.
Hypothesis DP : dbl (px k) /\ dbl (py k) /\ dbl (qx k) /\ dbl (qy k).
Hypothesis CS : clear_segment d0 d1 rX rY (fval (px k), fval (py k)) (fval (qx k), fval (qy k)).
Let x0 c := X (row_i c).
Let x1 c := X (row_i c + 1)%Z.
Let y0 c := Y (col_j c).
Let y1 c := Y (col_j c + 1)%Z.
Let ti c := tin px py qx qy x0 x1 y0 y1 k c.
Let to c := tout px py qx qy x0 x1 y0 y1 k c.
Let A : point := (fval (px k), fval (py k)).
Let B : point := (fval (qx k), fval (qy k)).

Lemma time_cell : forall c t, (0 <= c < nc)%Z -> ti c <= t <= to c <-> 0 <= t <= 1 /\ in_hull (corners (rx rX) (ry rY) (row_i c) (col_j c)) (on_seg A B t).
Proof.
  intros c t Hc. destruct DP as (D1 & D2 & D3 & D4). assert (CL := segment_cell _ _ _ _ c D1 D2 D3 D4 CS Hc).
  assert (I := in_cell _ _ _ _ _ _ _ _ CL t). rewrite (rect_hull d0 d1); auto using moderate_increasing, cell_rows.
Qed.

Lemma telescope : forall f, increments f (map (fun c => (ti c, to c)) (filter (runs px py qx qy x0 x1 y0 y1 k) (range nc))) = f 1 - f 0.
Proof.
  intros f. destruct (segment_regular d0 d1 rX rY A B H0 H1) as [CV SH]; auto using moderate_increasing.
  apply (increments_once f _ (map ti (range nc)) 0 1); [lra| | |].
  - intros iv I. apply in_map_iff in I. destruct I as (c & <- & I). apply filter_In in I. destruct I as [I RN]. apply in_range in I. cbn [fst snd].
    unfold runs in RN. fold (ti c) (to c) in RN. destruct (Rlt_dec (ti c) (to c)) as [L|]; [|discriminate RN].
    assert (T1 := proj1 (time_cell c (ti c) I) ltac:(lra)). assert (T2 := proj1 (time_cell c (to c) I) ltac:(lra)). destruct T1 as [T1 _], T2 as [T2 _]. lra.
  - apply once_map. { apply NoDup_filter. apply L_ConserveTable.range_NoDup. }
    intros a b Ia Ib NE t t' U1 U2 U3 U4. apply filter_In in Ia, Ib. destruct Ia as [Ia _], Ib as [Ib _]. apply in_range in Ia, Ib. unfold in_iv in U1, U2, U3, U4. cbn [fst snd] in U1, U2, U3, U4.
    apply time_cell in U1, U2, U3, U4; auto. destruct U1 as [T1 U1], U2 as [_ U2], U3 as [T3 U3], U4 as [_ U4].
    apply (SH (row_i a) (col_j a) (row_i b) (col_j b) t t'); auto using cell_rows.
    intros E. injection E as E1 E2. apply NE. unfold row_i in E1. unfold col_j in E2. rewrite (Z.div_mod a (d1 - 1)), (Z.div_mod b (d1 - 1)) by lia. rewrite E1, E2. reflexivity.
  - intros t Ht. destruct (CV t Ht) as (i & j & [Hi Hj] & IH). set (c := (i * (d1 - 1) + j)%Z).
    assert (E1 : row_i c = i) by (unfold row_i, c; rewrite Z.div_add_l, Z.div_small; lia). assert (E2 : col_j c = j) by (unfold col_j, c; rewrite Z.add_comm, Z.mod_add, Z.mod_small; lia).
    assert (Hc : (0 <= c < nc)%Z) by (unfold c, nc; nia).
    assert (T : ti c <= t <= to c) by (apply time_cell; auto; rewrite E1, E2; auto).
    destruct (Rlt_dec (ti c) (to c)) as [L|L].
    + right. exists (ti c, to c). split; [|exact T]. apply in_map_iff. exists c. split; auto. apply filter_In. split; [apply in_range; auto|]. unfold runs. fold (ti c) (to c). destruct (Rlt_dec (ti c) (to c)); tauto.
    + left. apply in_map_iff. exists c. split; [lra|apply in_range; auto].
Qed.

Variable psi : Z -> Z -> R.
Variable F : point -> R.
Hypothesis INT : forall i j x y, is_cell2 d0 d1 i j -> 0 <= x <= 1 -> 0 <= y <= 1 ->
  F (rX i + x * (rX (i + 1)%Z - rX i), rY j + y * (rY (j + 1)%Z - rY j)) = bilinear (psi i j) (psi (i + 1)%Z j) (psi i (j + 1)%Z) (psi (i + 1)%Z (j + 1)%Z) x y.
Variables h0 h1 : Z -> Z -> spec_float.
Variable H : R.
Hypothesis E0 : forall i j, (0 <= i < d0 - 1)%Z -> (0 <= j < d1)%Z -> fval (h0 i j) = psi (i + 1)%Z j - psi i j /\ Rabs (fval (h0 i j)) <= H.
Hypothesis E1 : forall i j, (0 <= i < d0)%Z -> (0 <= j < d1 - 1)%Z -> fval (h1 i j) = psi i (j + 1)%Z - psi i j /\ Rabs (fval (h1 i j)) <= H.

Lemma one_cell : forall c w, (0 <= c < nc)%Z -> stored px py qx qy x0 x1 y0 y1 k c w ->
  Rabs (dot_exact (edge_pairs d1 h0 h1 (c, w)) - (F (on_seg A B (to c)) - F (on_seg A B (ti c)))) <= / 10 ^ 7 * H /\ dot_size (edge_pairs d1 h0 h1 (c, w)) <= 4 * H.
Proof.
  intros c w Hc [T NW]. fold (ti c) (to c) in T, NW. destruct (cell_rows c Hc) as [Hi Hj].
  unfold edge_pairs. cbn [fst snd dot_exact dot_size fold_right]. fold (row_i c) (col_j c). set (i := row_i c) in *. set (j := col_j c) in *.
  destruct (E0 i j ltac:(lia) ltac:(lia)) as [V00 B00]. destruct (E0 i (j + 1)%Z ltac:(lia) ltac:(lia)) as [V01 B01]. destruct (E1 i j ltac:(lia) ltac:(lia)) as [W00 D00]. destruct (E1 (i + 1)%Z j ltac:(lia) ltac:(lia)) as [W10 D10].
  assert (VAL : forall t, ti c <= t <= to c -> let u := ux px qx x0 x1 k c t in let v := uy py qy y0 y1 k c t in
    0 <= u <= 1 /\ 0 <= v <= 1 /\ F (on_seg A B t) = bilinear (psi i j) (psi (i + 1)%Z j) (psi i (j + 1)%Z) (psi (i + 1)%Z (j + 1)%Z) u v).
  { intros t Ht u v. apply time_cell in Ht; auto. destruct Ht as [_ Ht]. apply (rect_hull d0 d1) in Ht; auto using moderate_increasing, cell_rows. fold i j in Ht.
    assert (SX := moderate_increasing _ _ MX i Hi). assert (SY := moderate_increasing _ _ MY j Hj). unfold on_seg, A, B in Ht. cbn [fst snd] in Ht.
    assert (U : forall a lo hi, lo < hi -> lo <= a <= hi -> 0 <= (a - lo) / (hi - lo) <= 1 /\ a = lo + (a - lo) / (hi - lo) * (hi - lo)).
    { intros a lo hi L R. split; [|field; lra]. split; [apply Rmult_le_pos; [lra|left; apply Rinv_0_lt_compat; lra]|].
      apply Rmult_le_reg_r with (hi - lo); [lra|]. unfold Rdiv. rewrite Rmult_assoc, Rinv_l by lra. lra. }
    destruct (U _ _ _ SX (proj1 Ht)) as [UX EX]. destruct (U _ _ _ SY (proj2 Ht)) as [UY EY].
    change (0 <= u <= 1) in UX. change (0 <= v <= 1) in UY. split; auto. split; auto.
    rewrite <- INT by (auto; split; auto). unfold on_seg, A, B. cbn [fst snd]. f_equal. f_equal; [exact EX|exact EY]. }
  destruct (VAL (ti c) ltac:(lra)) as (U1 & U2 & U3). destruct (VAL (to c) ltac:(lra)) as (U4 & U5 & U6).
  split.
  - replace (fval (nth 0 w n0) * fval (h0 i j) + (fval (nth 1 w n0) * fval (h0 i (j + 1)%Z) + (fval (nth 2 w n0) * fval (h1 i j) + (fval (nth 3 w n0) * fval (h1 (i + 1)%Z j) + 0))))
      with (fval (nth 0 w n0) * fval (h0 i j) + fval (nth 1 w n0) * fval (h0 i (j + 1)%Z) + fval (nth 2 w n0) * fval (h1 i j) + fval (nth 3 w n0) * fval (h1 (i + 1)%Z j)) by ring.
    eapply near_increment; try eassumption.
  - destruct NW as (w0 & w1 & w2 & w3 & xa & ya & xb & yb & -> & BW & _). cbn [nth].
    assert (K : forall v h, In v [w0; w1; w2; w3] -> Rabs (fval h) <= H -> Rabs (fval v * fval h) <= H). { intros v h I Bh. destruct (BW v I) as [_ Bv]. replace H with (1 * H) by ring. apply mul_le; auto. }
    assert (K0 := K w0 (h0 i j) ltac:(simpl; auto) B00). assert (K1 := K w1 (h0 i (j + 1)%Z) ltac:(simpl; auto) B01). assert (K2 := K w2 (h1 i j) ltac:(simpl; auto) D00). assert (K3 := K w3 (h1 (i + 1)%Z j) ltac:(simpl; auto) D10). lra.
Qed.

Lemma dot_exact_app : forall l m, dot_exact (l ++ m) = dot_exact l + dot_exact m.
Proof. intros l m. induction l as [|x l IH]; cbn [app dot_exact fold_right]; [unfold dot_exact; lra|]. fold (dot_exact (l ++ m)) (dot_exact l). rewrite IH. ring. Qed.
Lemma dot_size_app : forall l m, dot_size (l ++ m) = dot_size l + dot_size m.
Proof. intros l m. induction l as [|x l IH]; cbn [app dot_size fold_right]; [unfold dot_size; lra|]. fold (dot_size (l ++ m)) (dot_size l). rewrite IH. ring. Qed.

Lemma all_cells : forall es, (forall c w, In (c, w) es -> (0 <= c < nc)%Z /\ stored px py qx qy x0 x1 y0 y1 k c w) ->
  Rabs (dot_exact (flat_map (edge_pairs d1 h0 h1) es) - increments (fun t => F (on_seg A B t)) (map (fun c => (ti c, to c)) (map fst es))) <= INR (length es) * (/ 10 ^ 7 * H) /\
  dot_size (flat_map (edge_pairs d1 h0 h1) es) <= INR (length es) * (4 * H).
Proof.
  induction es as [|[c w] es IH]; intros IN.
  - cbn [flat_map map increments length dot_exact dot_size fold_right]. change (INR 0) with 0. rewrite Rminus_eq_0, Rabs_R0. lra.
  - destruct IH as [I1 I2]; [intros; apply IN; right; auto|]. destruct (IN c w (or_introl eq_refl)) as [Hc S]. destruct (one_cell c w Hc S) as [O1 O2].
    cbn [flat_map map increments length fst snd]. rewrite dot_exact_app, dot_size_app, S_INR.
    set (a := dot_exact (edge_pairs d1 h0 h1 (c, w))) in *. set (b := dot_exact (flat_map _ es)) in *. set (e := increments _ _) in *. split; [|lra].
    apply Rabs_le_inv in O1, I1. apply Rabs_le. lra.
Qed.
End One.

(** C91.  In double arithmetic, with any solver that has small errors on 2 x 2 systems: on a rectilinear grid of m cells with coordinates up to 4
    and cells of at least 1/8 by 1/8, the flux computed through a segment of the line that is clear of the grid lines in the sense above is a
    double within m (1e-7 + 48 m 2^-53) H, and 12 m times the smallest double, of the increment of the stream function from the start to
    the end of the segment, for edge values that are doubles up to H and the exact increments of the nodal values.
    The ends are those of the line after the displacement the code applies. *)
Theorem C91_moderate_partial : forall g srt cosv d0 d1 X Y psi F n (xs ys dxs dys : list spec_float) h0 h1 data0 data1 out H,
  flow2 g -> sorts srt -> (2 <= d0)%Z -> (2 <= d1)%Z -> (d0 * d1 <= int_max)%Z -> (2 <= n <= int_max)%Z ->
  stores d0 d1 (fun i _ => X i) xs -> stores d0 d1 (fun _ j => Y j) ys -> Z.of_nat (length dxs) = n -> Z.of_nat (length dys) = n ->
  (forall i, (0 <= i < d0)%Z -> dbl (X i)) -> (forall j, (0 <= j < d1)%Z -> dbl (Y j)) ->
  let rX i := fval (X i) in let rY j := fval (Y j) in moderate_axis d0 rX -> moderate_axis d1 rY ->
  (forall i j x y, is_cell2 d0 d1 i j -> 0 <= x <= 1 -> 0 <= y <= 1 ->
     F (rX i + x * (rX (i + 1)%Z - rX i), rY j + y * (rY (j + 1)%Z - rY j)) = bilinear (psi i j) (psi (i + 1)%Z j) (psi i (j + 1)%Z) (psi (i + 1)%Z (j + 1)%Z) x y) ->
  stores (d0 - 1) d1 h0 data0 -> stores d0 (d1 - 1) h1 data1 -> Z.of_nat (length out) = (n - 1)%Z -> H <= bpow radix2 800 ->
  (forall v, In v (data0 ++ data1) -> dbl v /\ Rabs (fval v) <= H) ->
  (forall i j, (0 <= i < d0 - 1)%Z -> (0 <= j < d1)%Z -> fval (h0 i j) = psi (i + 1)%Z j - psi i j) ->
  (forall i j, (0 <= i < d0)%Z -> (0 <= j < d1 - 1)%Z -> fval (h1 i j) = psi i (j + 1)%Z - psi i j) ->
  let P k := dst_point (fun i => cosv i n) dxs dys k in let at_ k := (fval (fst (P k)), fval (snd (P k))) in
  (forall k, (0 <= k < n)%Z -> dbl (fst (P k)) /\ dbl (snd (P k))) ->
  (forall k, (0 <= k < n - 1)%Z -> clear_segment d0 d1 rX rY (at_ k) (at_ (k + 1)%Z)) ->
  exists out', flow_run srt g cosv d0 d1 xs ys n dxs dys 1 data0 data1 out = Ret out' /\ length out' = length out /\
    forall k, (0 <= k < n - 1)%Z -> let v := nth (Z.to_nat k) out' n0 in let m := IZR ((d0 - 1) * (d1 - 1)) in
      dbl v /\ Rabs (fval v - (F (at_ (k + 1)%Z) - F (at_ k))) <= m * ((/ 10 ^ 7 + 48 * m * uround) * H) + 12 * m * etiny.
Proof.
  intros g srt cosv d0 d1 X Y psi F n xs ys dxs dys h0 h1 data0 data1 out H F2 ST H0 H1 HI Hn SX SY LX LY DX DY rX rY MX MY INT D0 D1 LO HB HV V0 V1 P at_ DP CS.
  assert (GF : gives_finite g) by (destruct F2 as [K _]; exact K).
  assert (SL : forall lt l, length (srt lt l) = length l) by (intros lt l; apply Permutation_length; apply ST).
  set (nx := fun i _ : Z => X i). set (ny := fun _ j : Z => Y j).
  destruct (grid_setup cosv d0 d1 nx ny n xs ys dxs dys H0 H1 HI Hn SX SY LX LY) as (t1 & t2 & E1 & E2 & O2 & EW & EN & EL & EC).
  destruct (computeWeightsF_total srt g t2 (n - 1) ((d0 - 1) * (d1 - 1)) _ _ GF EN ltac:(apply O2) EL EC) as (s3 & E3).
  assert (ES : fl_srcNumCells t2 = Some ((d0 - 1) * (d1 - 1))%Z) by apply O2.
  assert (SM : sorted_map (fl_weights t2)) by (rewrite EW; exists 0%Z; exact I).
  assert (ROW := computeWeights_rows srt g t2 s3 _ _ _ _ EN ES EL EC SM E3).
  assert (GM : good_map (fl_weights s3)).
  { apply (computeWeightsF_good srt g t2 s3 _ _ _ _ GF SL EN ES EL EC); auto. rewrite EW. intros k v []. }
  set (px := fun k => fst (P k)). set (py := fun k => snd (P k)). set (qx := fun k => fst (P (k + 1)%Z)). set (qy := fun k => snd (P (k + 1)%Z)).
  set (x0 := fun c => X (c / (d1 - 1))%Z). set (x1 := fun c => X (c / (d1 - 1) + 1)%Z). set (y0 := fun c => Y (c mod (d1 - 1))%Z). set (y1 := fun c => Y (c mod (d1 - 1) + 1)%Z).
  assert (DE : forall k, (0 <= k < n - 1)%Z -> dbl (px k) /\ dbl (py k) /\ dbl (qx k) /\ dbl (qy k)).
  { intros k Hk. destruct (DP k ltac:(lia)). destruct (DP (k + 1)%Z ltac:(lia)). auto. }
  assert (CL : forall k c, (0 <= k < n - 1)%Z -> (0 <= c < (d0 - 1) * (d1 - 1))%Z -> L_FlowCellF.clear_of (px k) (py k) (qx k) (qy k) (x0 c) (x1 c) (y0 c) (y1 c)).
  { intros k c Hk Hc. destruct (DE k Hk) as (A1 & A2 & A3 & A4). apply (segment_cell d0 d1 H0 H1 X Y DX DY MX MY); auto. apply (CS k Hk). }
  assert (AM : all_map (stored px py qx qy x0 x1 y0 y1) (fl_weights s3)).
  { apply (computeWeightsW g F2 srt ST px py qx qy x0 x1 y0 y1 (n - 1) ((d0 - 1) * (d1 - 1)) CL t2 s3); auto. rewrite EW. intros k v c w []. }
  destruct (computeWeights_frame srt g t2 s3 E3) as (J1 & J2 & J3 & J4 & J5 & J6 & J7).
  assert (O3 : src_ok d0 d1 nx ny s3) by (unfold src_ok in *; rewrite J1, J2, J5, J6, J7; exact O2).
  assert (TB : table_ok (n - 1) ((d0 - 1) * (d1 - 1)) (fl_weights s3)).
  { apply (computeWeights_table srt g t2 s3); auto. rewrite EW. split; [exists 0%Z; exact I|intros k r []]. }
  destruct (apply_ok d0 d1 nx ny s3 h0 h1 data0 data1 out (n - 1) O3 D0 D1 TB ltac:(lia)) as (out' & EA & L & K).
  exists out'. split. { unfold flow_run. rewrite E1. cbn [bind]. rewrite E2. cbn [bind]. unfold zseq. cbn [seq map foldM]. rewrite E3. cbn [bind]. exact EA. }
  split; auto. intros k Hk v m. unfold v. clear v.
  destruct (ROW k Hk) as (es & R1 & C). rewrite EW in R1. cbn [row app] in R1.
  assert (MF := contributing g F2 srt ST px py qx qy x0 x1 y0 y1 (n - 1) ((d0 - 1) * (d1 - 1)) CL k _ es Hk (fun c I => proj1 (in_range _ _) I) C).
  set (iv := fun c => (tin px py qx qy x0 x1 y0 y1 k c, tout px py qx qy x0 x1 y0 y1 k c)).
  assert (TEL : forall f, increments f (map iv (map fst es)) = f 1 - f 0) by (intros f; rewrite MF; exact (telescope d0 d1 H0 H1 X Y DX DY MX MY px py qx qy k (DE k Hk) (CS k Hk) f)).
  assert (GR := good_row _ k GM). assert (SR := all_row _ _ k AM). rewrite K, Z2Nat.id by lia. rewrite R1 in *.
  assert (CI : forall e, In e es -> (0 <= fst e < (d0 - 1) * (d1 - 1))%Z) by (intros e I; apply in_range; apply (contributions_in _ _ _ _ _ _ C _ I)).
  assert (LE := contributions_le _ _ _ _ _ _ C). rewrite L_Box2.range_length in LE.
  assert (NE : es <> []). { intros Z. rewrite Z in TEL. specialize (TEL (fun t => t)). cbn [map increments] in TEL. lra. }
  assert (W0 : forall i j, (0 <= i < d0 - 1)%Z -> (0 <= j < d1)%Z -> dbl (h0 i j) /\ Rabs (fval (h0 i j)) <= H) by (intros i j Hi Hj; apply HV; apply in_or_app; left; eapply nth_error_In; apply D0; auto).
  assert (W1 : forall i j, (0 <= i < d0)%Z -> (0 <= j < d1 - 1)%Z -> dbl (h1 i j) /\ Rabs (fval (h1 i j)) <= H) by (intros i j Hi Hj; apply HV; apply in_or_app; right; eapply nth_error_In; apply D1; auto).
  assert (HP : 0 <= H) by (destruct (W0 0%Z 0%Z ltac:(lia) ltac:(lia)) as [_ Z]; assert (Z' := Rabs_pos (fval (h0 0%Z 0%Z))); lra).
  destruct (edge_bound d0 d1 h0 h1 es) as [DV BV]; auto.
  { nia. }
  { intros i j Hi Hj. destruct (W0 i j Hi Hj). split; auto. lra. }
  { intros i j Hi Hj. destruct (W1 i j Hi Hj). split; auto. lra. }
  set (A := (fval (px k), fval (py k)) : point) in *. set (B := (fval (qx k), fval (qy k)) : point) in *.
  assert (S12 : Rabs (dot_exact (flat_map (edge_pairs d1 h0 h1) es) - increments (fun t => F (on_seg A B t)) (map iv (map fst es))) <= INR (length es) * (/ 10 ^ 7 * H) /\
    dot_size (flat_map (edge_pairs d1 h0 h1) es) <= INR (length es) * (4 * H)).
  { apply (all_cells d0 d1 H0 H1 X Y DX DY MX MY px py qx qy k (DE k Hk) (CS k Hk) psi F INT h0 h1 H).
    - intros i j Hi Hj. split; [auto|apply W0; auto].
    - intros i j Hi Hj. split; [auto|apply W1; auto].
    - intros c w I. split; [apply (CI _ I)|apply (SR _ _ I)]. }
  destruct S12 as [S1 S2]. rewrite TEL in S1.
  match goal with |- dbl ?v /\ _ => replace v with (dotF n0 (flat_map (edge_pairs d1 h0 h1) es)) by (rewrite <- edge_sum_dot; destruct es as [|e es']; [congruence|rewrite edge_sum_row; reflexivity]) end.
  split; auto.
  assert (A0 : on_seg A B 0 = at_ k) by (unfold on_seg, at_, A, B, px, py; cbn [fst snd]; f_equal; ring).
  assert (A1 : on_seg A B 1 = at_ (k + 1)%Z) by (unfold on_seg, at_, A, B, px, py, qx, qy; cbn [fst snd]; f_equal; ring).
  rewrite A0, A1 in S1.
  set (z := dotF n0 _) in *. set (ex := dot_exact _) in *. set (sz := dot_size _) in *. clearbody z ex sz.
  assert (ML : 0 <= INR (length es) <= m).
  { split; [apply pos_INR|]. unfold m. rewrite INR_IZR_INZ. apply IZR_le. nia. }
  set (r := INR (length es)) in *. clearbody r m. set (df := F (at_ (k + 1)%Z) - F (at_ k)) in *. clearbody df.
  assert (ET : 0 <= etiny) by (unfold etiny; left; apply bpow_gt_0). assert (UP : 0 < uround) by (unfold uround; lra).
  clear - S1 S2 BV ML HP ET UP.
  assert (T1 : r * (/ 10 ^ 7 * H) <= m * (/ 10 ^ 7 * H)) by (apply Rmult_le_compat_r; [apply Rmult_le_pos; lra|lra]).
  assert (T2 : sz <= m * (4 * H)) by (eapply Rle_trans; [exact S2|]; apply Rmult_le_compat_r; lra).
  assert (T3 : 12 * r * (uround * sz + etiny) <= 12 * m * (uround * (m * (4 * H)) + etiny)).
  { assert (0 <= uround * (m * (4 * H))) by (apply Rmult_le_pos; [lra|apply Rmult_le_pos; lra]). assert (uround * sz <= uround * (m * (4 * H))) by (apply Rmult_le_compat_l; lra).
    apply Rle_trans with (12 * r * (uround * (m * (4 * H)) + etiny)); [apply Rmult_le_compat_l; lra|apply Rmult_le_compat_r; lra]. }
  apply Rabs_le_inv in S1. apply Rabs_le_inv in BV. apply Rabs_le. 
  replace (m * ((/ 10 ^ 7 + 48 * m * uround) * H) + 12 * m * etiny) with (m * (/ 10 ^ 7 * H) + 12 * m * (uround * (m * (4 * H)) + etiny)) by ring. lra.
Qed.
Print Assumptions C91_moderate_partial.

(** *** A case *)
(** The lines x = -1, 0, 1 and y = 0, 1; the stream function x + x y; from (-3/4, 5/16) to (5/8, 3/16) across the line x = 0. *)
Definition stream (p : point) : R := fst p + fst p * snd p.

Lemma lit_dyadic : fval (lit (-3) 4) = - (3 / 4) /\ fval (lit 5 8) = 5 / 8 /\ fval (lit 5 16) = 5 / 16 /\ fval (lit 3 16) = 3 / 16.
Proof.
  split; [|split; [|split]]; match goal with |- fval ?v = _ => let w := eval vm_compute in v in change v with w end;
  unfold fval; cbn [SF2R cond_Zopp]; unfold F2R; cbn [Fnum Fexp]; rewrite ?opp_IZR; change (bpow radix2 (-53)) with (/ 9007199254740992); change (bpow radix2 (-54)) with (/ 18014398509481984); change (bpow radix2 (-55)) with (/ 36028797018963968); lra.
Qed.

Example C91_moderate_case : exists v,
  flow_run insertion clip2 (fun _ _ => n0) 3 2 (map FZ [-1; -1; 0; 0; 1; 1]%Z) (map FZ [0; 1; 0; 1; 0; 1]%Z)
    2 [lit (-3) 4; lit 5 8] [lit 5 16; lit 3 16] 1 (map FZ [1; 2; 1; 2]%Z) (map FZ [-1; 0; 1]%Z) [FZ 0] = Ret [v] /\
  Rabs (fval v - (stream (5 / 8, 3 / 16) - stream (- (3 / 4), 5 / 16))) <= / 10 ^ 6.
Proof.
  assert (FV : forall z, (Z.abs z <= 2 ^ 50)%Z -> dbl (FZ z) /\ fval (FZ z) = IZR z) by (intros z Hz; apply f_ofZ; lia).
  assert (FVv : forall z, (Z.abs z <= 2 ^ 50)%Z -> fval (FZ z) = IZR z) by (intros z Hz; apply FV; auto).
  destruct lit_dyadic as (L1 & L2 & L3 & L4). destruct zero_one as (DZ & VZ & _).
  assert (PT : forall k, (0 <= k < 2)%Z -> let p := dst_point (fun _ => n0) [lit (-3) 4; lit 5 8] [lit 5 16; lit 3 16] k in
    dbl (fst p) /\ dbl (snd p) /\ fval (fst p) = (if (k =? 0)%Z then - (3 / 4) else 5 / 8) /\ fval (snd p) = (if (k =? 0)%Z then 5 / 16 else 3 / 16)).
  { intros k Hk p. assert (HK : k = 0%Z \/ k = 1%Z) by lia. destruct HK as [-> | ->].
    - assert (E1 : fst p = lit (-3) 4) by (vm_compute; reflexivity). assert (E2 : snd p = lit 5 16) by (vm_compute; reflexivity). rewrite E1, E2. cbn [Z.eqb].
      split; [split; vm_compute; reflexivity|]. split; [split; vm_compute; reflexivity|]. auto.
    - assert (E1 : fst p = lit 5 8) by (vm_compute; reflexivity). assert (E2 : snd p = lit 3 16) by (vm_compute; reflexivity). rewrite E1, E2. cbn [Z.eqb].
      split; [split; vm_compute; reflexivity|]. split; [split; vm_compute; reflexivity|]. auto. }
  destruct (C91_moderate_partial clip2 insertion (fun _ _ => n0) 3 2 (fun i => FZ (i - 1)) FZ (fun i j => IZR (i - 1) * (1 + IZR j)) stream 2
    (map FZ [-1; -1; 0; 0; 1; 1]%Z) (map FZ [0; 1; 0; 1; 0; 1]%Z) [lit (-3) 4; lit 5 8] [lit 5 16; lit 3 16] (fun _ j => FZ (j + 1)) (fun i _ => FZ (i - 1))
    (map FZ [1; 2; 1; 2]%Z) (map FZ [-1; 0; 1]%Z) [FZ 0] 2) as (out' & E & L & K).
  - exact clip2_flow.
  - apply insertion_sorts.
  - lia.
  - lia.
  - unfold int_max. lia.
  - unfold int_max. lia.
  - split; [reflexivity|]. intros i j Hi Hj. assert (HI : i = 0%Z \/ i = 1%Z \/ i = 2%Z) by lia. assert (HJ : j = 0%Z \/ j = 1%Z) by lia. destruct HI as [-> |[-> | ->]], HJ as [-> | ->]; reflexivity.
  - split; [reflexivity|]. intros i j Hi Hj. assert (HI : i = 0%Z \/ i = 1%Z \/ i = 2%Z) by lia. assert (HJ : j = 0%Z \/ j = 1%Z) by lia. destruct HI as [-> |[-> | ->]], HJ as [-> | ->]; reflexivity.
  - reflexivity.
  - reflexivity.
  - intros i Hi. apply FV. lia.
  - intros i Hi. apply FV. lia.
  - split; intros i Hi; rewrite !FVv by lia; [rewrite <- abs_IZR; apply IZR_le; lia|rewrite <- minus_IZR; replace (i + 1 - 1 - (i - 1))%Z with 1%Z by lia; lra].
  - split; intros i Hi; rewrite !FVv by lia; [rewrite <- abs_IZR; apply IZR_le; lia|rewrite <- minus_IZR; replace (i + 1 - i)%Z with 1%Z by lia; lra].
  - intros i j x y [Hi Hj] Hx Hy. rewrite !FVv by lia. unfold stream, bilinear. cbn [fst snd]. rewrite !minus_IZR, !plus_IZR. ring.
  - split; [reflexivity|]. intros i j Hi Hj. assert (HI : i = 0%Z \/ i = 1%Z) by lia. assert (HJ : j = 0%Z \/ j = 1%Z) by lia. destruct HI as [-> | ->], HJ as [-> | ->]; reflexivity.
  - split; [reflexivity|]. intros i j Hi Hj. assert (HI : i = 0%Z \/ i = 1%Z \/ i = 2%Z) by lia. assert (HJ : j = 0%Z) by lia. destruct HI as [-> |[-> | ->]]; rewrite HJ; reflexivity.
  - reflexivity.
  - apply Rle_trans with (bpow radix2 1); [simpl; lra|apply bpow_le; lia].
  - intros v I. assert (HV : exists z, v = FZ z /\ (Z.abs z <= 2)%Z). { cbn [map app In] in I. repeat (destruct I as [<- |I]; [eexists; split; [reflexivity|lia]|]). destruct I. }
    destruct HV as (z & -> & Hz). destruct (FV z ltac:(lia)) as [D V]. split; auto. rewrite V, <- abs_IZR. apply IZR_le. auto.
  - intros i j Hi Hj. rewrite FVv by lia. rewrite !minus_IZR, !plus_IZR. ring.
  - intros i j Hi Hj. rewrite FVv by lia. rewrite !minus_IZR, !plus_IZR. ring.
  - intros k Hk. destruct (PT k Hk) as (D1 & D2 & _). auto.
  - intros k Hk. assert (HK : k = 0%Z) by lia. subst k. destruct (PT 0%Z ltac:(lia)) as (_ & _ & X0 & Y0). destruct (PT 1%Z ltac:(lia)) as (_ & _ & X1 & Y1). change (0 + 1)%Z with 1%Z. cbv zeta in *. rewrite X0, Y0, X1, Y1. cbn [Z.eqb].
    assert (LX : forall i, (0 <= i < 3)%Z -> fval (FZ (i - 1)) = -1 \/ fval (FZ (i - 1)) = 0 \/ fval (FZ (i - 1)) = 1).
    { intros i Hi. rewrite FVv by lia. assert (HI : i = 0%Z \/ i = 1%Z \/ i = 2%Z) by lia. destruct HI as [-> |[-> | ->]]; auto. }
    assert (LY : forall j, (0 <= j < 2)%Z -> fval (FZ j) = 0 \/ fval (FZ j) = 1).
    { intros j Hj. rewrite FVv by lia. assert (HJ : j = 0%Z \/ j = 1%Z) by lia. destruct HJ as [-> | ->]; auto. }
    assert (AB : forall a, a <= - / 1024 \/ / 1024 <= a -> / 1024 <= Rabs a). { intros a [H|H]; unfold Rabs; destruct (Rcase_abs a); lra. }
    split; [|split; [|split; [|split]]].
    + intros p Hp. split; [|split].
      * rewrite !FVv by lia. change (IZR (0 - 1)) with (-1). change (IZR (3 - 1 - 1)) with 1. change (IZR (2 - 1)) with 1. destruct Hp as [-> | ->]; cbn [fst snd]; lra.
      * intros i Hi. apply AB. specialize (LX i Hi). destruct Hp as [-> | ->]; cbn [fst snd]; lra.
      * intros j Hj. apply AB. specialize (LY j Hj). destruct Hp as [-> | ->]; cbn [fst snd]; lra.
    + apply AB. cbn [fst]. lra.
    + apply AB. cbn [snd]. lra.
    + intros i j t Hi Hj Ht EQ. apply AB. specialize (LX i Hi). specialize (LY j Hj). unfold on_seg in *. cbn [fst snd] in *. lra.
    + intros i j t Hi Hj Ht EQ. exfalso. specialize (LY j Hj). unfold on_seg in *. cbn [fst snd] in *. lra.
  - destruct out' as [|v [|]]; try discriminate L. exists v. split; [exact E|]. destruct (K 0%Z ltac:(lia)) as [_ B]. cbn [Z.to_nat nth] in B.
    destruct (PT 0%Z ltac:(lia)) as (_ & _ & X0 & Y0). destruct (PT 1%Z ltac:(lia)) as (_ & _ & X1 & Y1). change (0 + 1)%Z with 1%Z in B. cbv zeta in *. rewrite X0, Y0, X1, Y1 in B. cbn [Z.eqb] in B.
    eapply Rle_trans; [exact B|]. change (IZR ((3 - 1) * (2 - 1))) with 2. assert (ET : etiny <= / 10 ^ 15) by (assert (T := tiny_u); assert (U := u_rng); unfold uround in *; lra). unfold uround. lra.
Qed.
