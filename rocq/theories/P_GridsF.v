(** Property theorem C82: rectangular grids in IEEE double arithmetic. *)
From Coq Require Import ZArith List Bool Reals Lra Lia Floats.SpecFloat.
From Flocq Require Import Core BinarySingleNaN.
From Verif Require Import Base Num NumR NumF M_Grids S_Geometry S_Quad S_Area S_ConserveGrid S_Rectilinear L_Grids L_ConserveRect
  L_Float L_FloatOps L_OctreeF L_GridsF P_FindPoint P_Grids.
Import ListNotations.
Open Scope R_scope.

Lemma rect_nodes_F : forall d0 d1 x0 y0 x1 y1 (c : arrays spec_float), (2 <= d0 < 2 ^ 31)%Z -> (2 <= d1 < 2 ^ 31)%Z ->
  (d0 * d1 <= Z.of_nat (length (fst c)))%Z -> (d0 * d1 <= Z.of_nat (length (snd c)))%Z ->
  exists c', createRectangularGrid d0 d1 (x0, y0) (x1, y1) c = Ret c' /\ untouched (d0 * d1) c c' /\
    forall i j d, (0 <= i < d0)%Z -> (0 <= j < d1)%Z -> node c' d1 i j d = (axisF x0 x1 d0 i, axisF y0 y1 d1 j).
Proof.
  intros d0 d1 x0 y0 x1 y1 c H0 H1 L0 L1. unfold createRectangularGrid. rewrite !chk_ok by (unfold int_min, int_max; lia). cbn [bind fst snd].
  match goal with |- context [fill d0 d1 ?f c] => destruct (fill_ok d0 d1 f c) as (c' & E & A1 & A2 & A3 & A4); [lia|lia|split; auto|] end.
  exists c'. split; [exact E|]. split.
  - split; auto. split; auto. intros k d Hk. specialize (A4 k d Hk). unfold at_ in A4. injection A4. auto.
  - intros i j d Hi Hj. apply (A3 i j d Hi Hj).
Qed.

(** C82. Bounds up to 2^990.  [axis_tol a b] is (|a| + |b|) 2^-50 + 2^-1040. *)
Theorem C82_rectangular_ieee : forall d0 d1 x0 y0 x1 y1 (c : arrays spec_float), (2 <= d0 < 2 ^ 31)%Z -> (2 <= d1 < 2 ^ 31)%Z ->
  (d0 * d1 <= Z.of_nat (length (fst c)))%Z -> (d0 * d1 <= Z.of_nat (length (snd c)))%Z ->
  modest x0 -> modest y0 -> modest x1 -> modest y1 -> fval x0 <= fval x1 -> fval y0 <= fval y1 ->
  exists c', createRectangularGrid d0 d1 (x0, y0) (x1, y1) c = Ret c' /\ untouched (d0 * d1) c c' /\
    let X i j := fst (node c' d1 i j n0) in let Y i j := snd (node c' d1 i j n0) in
    (* finite numbers *)
    (forall i j, (0 <= i < d0)%Z -> (0 <= j < d1)%Z -> dbl (X i j) /\ dbl (Y i j)) /\
    (* the first node is at the low corner *)
    fval (X 0 0)%Z = fval x0 /\ fval (Y 0 0)%Z = fval y0 /\
    (* lines of the grid are parallel to the axes, to the last bit *)
    (forall i j j', (0 <= i < d0)%Z -> (0 <= j < d1)%Z -> (0 <= j' < d1)%Z -> X i j = X i j') /\
    (forall i i' j, (0 <= i < d0)%Z -> (0 <= i' < d0)%Z -> (0 <= j < d1)%Z -> Y i j = Y i' j) /\
    (* nodes never go back *)
    (forall i i' j, (0 <= i <= i')%Z -> (i' < d0)%Z -> (0 <= j < d1)%Z -> fval (X i j) <= fval (X i' j)) /\
    (forall i j j', (0 <= i < d0)%Z -> (0 <= j <= j')%Z -> (j' < d1)%Z -> fval (Y i j) <= fval (Y i j')) /\
    (* close to the exact place *)
    (forall i j, (0 <= i < d0)%Z -> (0 <= j < d1)%Z ->
      Rabs (fval (X i j) - (fval x0 + (fval x1 - fval x0) * IZR i / IZR (d0 - 1))) <= axis_tol (fval x0) (fval x1) /\
      Rabs (fval (Y i j) - (fval y0 + (fval y1 - fval y0) * IZR j / IZR (d1 - 1))) <= axis_tol (fval y0) (fval y1)) /\
    (* cells that are not thin compared with the rounding tile the rectangle between the first and the last node *)
    (2 * axis_tol (fval x0) (fval x1) < (fval x1 - fval x0) / IZR (d0 - 1) -> 2 * axis_tol (fval y0) (fval y1) < (fval y1 - fval y0) / IZR (d1 - 1) ->
      let xl := fval (X (d0 - 1) 0)%Z in let yl := fval (Y 0 (d1 - 1))%Z in
      tiles ((d0 - 1) * (d1 - 1)) (grid_cell d1 (fun i j => fval (X i j)) (fun i j => fval (Y i j)))
        [(fval x0, fval y0); (xl, fval y0); (xl, yl); (fval x0, yl)]).
Proof.
  intros d0 d1 x0 y0 x1 y1 c H0 H1 L0 L1 Mx0 My0 Mx1 My1 Hx Hy. destruct (rect_nodes_F d0 d1 x0 y0 x1 y1 c H0 H1 L0 L1) as (c' & E & U & V).
  exists c'. split; auto. split; auto. cbv zeta.
  assert (AX := fun i => axis_val x0 x1 d0 i Mx0 Mx1 H0). assert (AY := fun j => axis_val y0 y1 d1 j My0 My1 H1).
  assert (P0 : 1 <= IZR (d0 - 1)) by (apply IZR_le; lia). assert (P1 : 1 <= IZR (d1 - 1)) by (apply IZR_le; lia).
  split; [|split; [|split; [|split; [|split; [|split; [|split; [|split]]]]]]].
  - intros i j Hi Hj. rewrite V by lia. split; [apply AX|apply AY]; lia.
  - rewrite V by lia. cbn [fst]. rewrite (proj2 (AX 0%Z ltac:(lia))). apply axis_first. apply Mx0.
  - rewrite V by lia. cbn [snd]. rewrite (proj2 (AY 0%Z ltac:(lia))). apply axis_first. apply My0.
  - intros i j j' Hi Hj Hj'. rewrite !V by lia. reflexivity.
  - intros i i' j Hi Hi' Hj. rewrite !V by lia. reflexivity.
  - intros i i' j Hi Hi' Hj. rewrite !V by lia. cbn [fst]. rewrite (proj2 (AX i ltac:(lia))), (proj2 (AX i' ltac:(lia))). apply axis_mono; auto; lia.
  - intros i j j' Hi Hj Hj'. rewrite !V by lia. cbn [snd]. rewrite (proj2 (AY j ltac:(lia))), (proj2 (AY j' ltac:(lia))). apply axis_mono; auto; lia.
  - intros i j Hi Hj. rewrite !V by lia. cbn [fst snd]. rewrite (proj2 (AX i ltac:(lia))), (proj2 (AY j ltac:(lia))). split; apply axis_error; lia.
  - intros TX TY.
    set (X' := fun i : Z => axisR (fval x0) (fval x1) d0 i). set (Y' := fun j : Z => axisR (fval y0) (fval y1) d1 j).
    assert (CE : forall k, (0 <= k < (d0 - 1) * (d1 - 1))%Z ->
      grid_cell d1 (fun i j => fval (fst (node c' d1 i j n0))) (fun i j => fval (snd (node c' d1 i j n0))) k = grid_cell d1 (fun i _ => X' i) (fun _ j => Y' j) k).
    { intros k Hk. destruct (cell_split d0 d1 k ltac:(lia) ltac:(lia) Hk) as [S1 S2]. unfold grid_cell. rewrite !V by lia. cbn [fst snd].
      rewrite !(fun i Hi => proj2 (AX i Hi)), !(fun i Hi => proj2 (AY i Hi)) by lia. reflexivity. }
    rewrite !V by lia. cbn [fst snd]. rewrite (proj2 (AX (d0 - 1)%Z ltac:(lia))), (proj2 (AY (d1 - 1)%Z ltac:(lia))).
    fold (X' (d0 - 1)%Z). fold (Y' (d1 - 1)%Z).
    set (sx := (fval x1 - fval x0) / IZR (d0 - 1)) in *. set (sy := (fval y1 - fval y0) / IZR (d1 - 1)) in *.
    set (tx := axis_tol (fval x0) (fval x1)) in *. set (ty := axis_tol (fval y0) (fval y1)) in *.
    assert (NX : forall i, (0 <= i < d0)%Z -> fval x0 + sx * IZR i - tx <= X' i <= fval x0 + sx * IZR i + tx).
    { intros i Hi. assert (A := axis_error (fval x0) (fval x1) d0 i H0 Hi). apply Rabs_le_inv in A. fold (X' i) tx in A.
      replace ((fval x1 - fval x0) * IZR i / IZR (d0 - 1)) with (sx * IZR i) in A by (unfold sx; field; lra). lra. }
    assert (NY : forall i, (0 <= i < d1)%Z -> fval y0 + sy * IZR i - ty <= Y' i <= fval y0 + sy * IZR i + ty).
    { intros i Hi. assert (A := axis_error (fval y0) (fval y1) d1 i H1 Hi). apply Rabs_le_inv in A. fold (Y' i) ty in A.
      replace ((fval y1 - fval y0) * IZR i / IZR (d1 - 1)) with (sy * IZR i) in A by (unfold sy; field; lra). lra. }
    assert (SX : forall i, (0 <= i < d0 - 1)%Z -> sx - 2 * tx <= X' (i + 1)%Z - X' i <= sx + 2 * tx).
    { intros i Hi. assert (A := NX i ltac:(lia)). assert (B := NX (i + 1)%Z ltac:(lia)). rewrite plus_IZR in B. lra. }
    assert (SY : forall i, (0 <= i < d1 - 1)%Z -> sy - 2 * ty <= Y' (i + 1)%Z - Y' i <= sy + 2 * ty).
    { intros i Hi. assert (A := NY i ltac:(lia)). assert (B := NY (i + 1)%Z ltac:(lia)). rewrite plus_IZR in B. lra. }
    set (lo := Rmin (sx - 2 * tx) (sy - 2 * ty) / 2). set (hi := Rmax (sx + 2 * tx) (sy + 2 * ty)).
    assert (LO : 0 < lo /\ lo < sx - 2 * tx /\ lo < sy - 2 * ty) by (unfold lo, Rmin; destruct (Rle_dec _ _); lra).
    assert (HI : sx + 2 * tx <= hi /\ sy + 2 * ty <= hi) by (unfold hi, Rmax; destruct (Rle_dec _ _); lra).
    assert (X0 : X' 0%Z = fval x0) by (apply axis_first, Mx0). assert (Y0 : Y' 0%Z = fval y0) by (apply axis_first, My0).
    assert (MX : X' 0%Z < X' (d0 - 1)%Z).
    { apply Rlt_le_trans with (X' (0 + 1)%Z); [assert (A := SX 0%Z ltac:(lia)); lra|]. apply axis_mono; auto; lia. }
    assert (MY : Y' 0%Z < Y' (d1 - 1)%Z).
    { apply Rlt_le_trans with (Y' (0 + 1)%Z); [assert (A := SY 0%Z ltac:(lia)); lra|]. apply axis_mono; auto; lia. }
    destruct (rect_tiles_any lo hi d0 d1 X' Y' (fval x0) (X' (d0 - 1)%Z) (fval y0) (Y' (d1 - 1)%Z)) as [T1 T2]; try lia; try lra.
    + intros i Hi. assert (A := SX i Hi). lra.
    + intros i Hi. assert (A := SY i Hi). lra.
    + split.
      * intros p I. destruct (T1 p I) as (k & Hk & I'). exists k. split; auto. rewrite CE; auto.
      * intros k k' Hk Hk' NE. rewrite !CE by auto. apply T2; auto.
Qed.
Print Assumptions C82_rectangular_ieee.

(** Nothing is lost when the spacing is a whole number k of steps 2^e and the bounds are at most 2^52 steps away from 0. *)
Theorem C82_exact_ieee : forall d0 d1 x0 y0 x1 y1 (c : arrays spec_float), (2 <= d0 < 2 ^ 31)%Z -> (2 <= d1 < 2 ^ 31)%Z ->
  (d0 * d1 <= Z.of_nat (length (fst c)))%Z -> (d0 * d1 <= Z.of_nat (length (snd c)))%Z ->
  forall e ax bx kx ay by' ky, (-900 <= e <= 900)%Z -> steps e x0 ax -> steps e x1 bx -> steps e y0 ay -> steps e y1 by' ->
  (bx - ax = (d0 - 1) * kx)%Z -> (by' - ay = (d1 - 1) * ky)%Z ->
  exists c', createRectangularGrid d0 d1 (x0, y0) (x1, y1) c = Ret c' /\
    forall i j, (0 <= i < d0)%Z -> (0 <= j < d1)%Z ->
      fval (fst (node c' d1 i j n0)) = fval x0 + (fval x1 - fval x0) * IZR i / IZR (d0 - 1) /\
      fval (snd (node c' d1 i j n0)) = fval y0 + (fval y1 - fval y0) * IZR j / IZR (d1 - 1).
Proof.
  intros d0 d1 x0 y0 x1 y1 c H0 H1 L0 L1 e ax bx kx ay by' ky He Sx0 Sx1 Sy0 Sy1 Kx Ky.
  destruct (rect_nodes_F d0 d1 x0 y0 x1 y1 c H0 H1 L0 L1) as (c' & E & U & V). exists c'. split; auto.
  assert (P0 : 1 <= IZR (d0 - 1)) by (apply IZR_le; lia). assert (P1 : 1 <= IZR (d1 - 1)) by (apply IZR_le; lia).
  intros i j Hi Hj. rewrite V by lia. cbn [fst snd].
  rewrite (proj2 (axis_val x0 x1 d0 i (steps_modest _ _ _ He Sx0) (steps_modest _ _ _ He Sx1) H0 Hi)).
  rewrite (proj2 (axis_val y0 y1 d1 j (steps_modest _ _ _ He Sy0) (steps_modest _ _ _ He Sy1) H1 Hj)).
  rewrite (axis_exact e x0 x1 ax bx d0 kx i He Sx0 Sx1 H0 Kx Hi), (axis_exact e y0 y1 ay by' d1 ky j He Sy0 Sy1 H1 Ky Hj).
  destruct Sx0 as (_ & _ & ->). destruct Sx1 as (_ & _ & ->). destruct Sy0 as (_ & _ & ->). destruct Sy1 as (_ & _ & ->).
  assert (IX : IZR bx = IZR ax + IZR (d0 - 1) * IZR kx) by (rewrite <- mult_IZR, <- Kx, minus_IZR; ring).
  assert (IY : IZR by' = IZR ay + IZR (d1 - 1) * IZR ky) by (rewrite <- mult_IZR, <- Ky, minus_IZR; ring).
  rewrite IX, IY, !plus_IZR, !mult_IZR. split; field; lra.
Qed.
Print Assumptions C82_exact_ieee.

(** The 50 x 2 grid of C54_last_node_refuted meets the hypotheses of the first theorem, 5 x 2 nodes on the same square those of the second. *)
Lemma Fq01 : steps (-2) (Fq 0 1) 0 /\ steps (-2) (Fq 1 1) 4.
Proof.
  split; [split; [split; vm_compute; reflexivity|split; [vm_compute; discriminate|]]|].
  - assert (E : Fq 0 1 = S754_zero false) by (vm_compute; reflexivity). rewrite E. unfold fval. cbn [SF2R]. rewrite Rmult_0_l. reflexivity.
  - split; [split; vm_compute; reflexivity|split; [vm_compute; discriminate|]].
    assert (E : Fq 1 1 = S754_finite false 4503599627370496 (-52)) by (vm_compute; reflexivity). rewrite E. unfold fval. cbn [SF2R cond_Zopp]. unfold F2R. simpl Fnum. simpl Fexp.
    change 4503599627370496 with (bpow radix2 52). change 4 with (bpow radix2 2). rewrite <- !bpow_plus. reflexivity.
Qed.

Example C82_nonvacuous : modest (Fq 0 1) /\ modest (Fq 1 1) /\ 2 * axis_tol (fval (Fq 0 1)) (fval (Fq 1 1)) < (fval (Fq 1 1) - fval (Fq 0 1)) / IZR (50 - 1) /\
  steps (-2) (Fq 0 1) 0 /\ steps (-2) (Fq 1 1) 4 /\ (4 - 0 = (5 - 1) * 1)%Z /\ (4 - 0 = (2 - 1) * 4)%Z.
Proof.
  destruct Fq01 as [A B]. split; [exact (steps_modest (-2) _ _ ltac:(lia) A)|]. split; [exact (steps_modest (-2) _ _ ltac:(lia) B)|].
  split; [|split; [exact A|split; [exact B|split; reflexivity]]].
  destruct A as (_ & _ & ->). destruct B as (_ & _ & ->). change (bpow radix2 (-2)) with (/ 4). unfold axis_tol.
  replace (0 * / 4) with 0 by ring. replace (4 * / 4) with 1 by field. rewrite Rabs_R0, Rabs_R1.
  assert (bpow radix2 (-1040) <= bpow radix2 (-20)) by (apply bpow_le; lia). change (bpow radix2 (-20)) with (/ 1048576) in H. change (IZR (50 - 1)) with 49.
  assert (/ 1048576 < / 1000) by (apply Rinv_lt_contravar; lra). assert (/ 1125899906842624 < / 1000) by (apply Rinv_lt_contravar; lra). lra.
Qed.
