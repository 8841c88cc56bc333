(** Property theorems C54, C61: rectangular and polar grids. *)
From Coq Require Import ZArith List Bool Lia Reals Lra.
From Coq Require Import Floats.SpecFloat.
From Verif Require Import Base Num NumR NumF M_LinearSolve M_FindPoint M_Grids TrigR S_Grid S_LinAlg S_Geometry S_Quad S_Area S_ConserveGrid S_Rectilinear
  L_LinearSolve L_Interp L_Cramer L_FindPointR L_FindPointA L_Grids L_ConserveRect P_FindPoint.
Import ListNotations.
Open Scope R_scope.

(** Position of the node (i, j) of a grid with d1 nodes on the second axis. *)
Definition node {T} (c : arrays T) (d1 i j : Z) (d : T) : T * T := (nth (Z.to_nat (i * d1 + j)) (fst c) d, nth (Z.to_nat (i * d1 + j)) (snd c) d).
(** The rest of the arrays is left alone. *)
Definition untouched {T} (n : Z) (c c' : arrays T) : Prop :=
  length (fst c') = length (fst c) /\ length (snd c') = length (snd c) /\
  forall k d, (n <= k)%Z -> nth (Z.to_nat k) (fst c') d = nth (Z.to_nat k) (fst c) d /\ nth (Z.to_nat k) (snd c') d = nth (Z.to_nat k) (snd c) d.

Lemma rect_nodes : forall d0 d1 x0 y0 x1 y1 (c : arrays R), (2 <= d0 < 2 ^ 31)%Z -> (2 <= d1 < 2 ^ 31)%Z ->
  (d0 * d1 <= Z.of_nat (length (fst c)))%Z -> (d0 * d1 <= Z.of_nat (length (snd c)))%Z ->
  exists c', createRectangularGrid d0 d1 (x0, y0) (x1, y1) c = Ret c' /\ untouched (d0 * d1) c c' /\
    forall i j d, (0 <= i < d0)%Z -> (0 <= j < d1)%Z ->
      node c' d1 i j d = (x0 + (x1 - x0) / IZR (d0 - 1) * IZR i, y0 + (y1 - y0) / IZR (d1 - 1) * IZR j).
Proof.
  intros d0 d1 x0 y0 x1 y1 c H0 H1 L0 L1. unfold createRectangularGrid. rewrite !chk_ok by (unfold int_min, int_max; lia). cbn [bind fst snd].
  match goal with |- context [fill d0 d1 ?f c] => destruct (fill_ok d0 d1 f c) as (c' & E & A1 & A2 & A3 & A4); [lia|lia|split; auto|] end.
  exists c'. split; [exact E|]. split.
  - split; auto. split; auto. intros k d Hk. specialize (A4 k d Hk). unfold at_ in A4. injection A4. auto.
  - intros i j d Hi Hj. apply (A3 i j d Hi Hj).
Qed.

(** C54. Exact arithmetic. *)
Theorem C54_rectangular : forall d0 d1 x0 y0 x1 y1 (c : arrays R), (2 <= d0 < 2 ^ 31)%Z -> (2 <= d1 < 2 ^ 31)%Z ->
  (d0 * d1 <= Z.of_nat (length (fst c)))%Z -> (d0 * d1 <= Z.of_nat (length (snd c)))%Z ->
  exists c', createRectangularGrid d0 d1 (x0, y0) (x1, y1) c = Ret c' /\ untouched (d0 * d1) c c' /\
    (* corners *)
    (forall d, node c' d1 0 0 d = (x0, y0) /\ node c' d1 (d0 - 1) (d1 - 1) d = (x1, y1)) /\
    (* lines of the grid are parallel to the axes *)
    (forall i j j' d, (0 <= i < d0)%Z -> (0 <= j < d1)%Z -> (0 <= j' < d1)%Z -> fst (node c' d1 i j d) = fst (node c' d1 i j' d)) /\
    (forall i i' j d, (0 <= i < d0)%Z -> (0 <= i' < d0)%Z -> (0 <= j < d1)%Z -> snd (node c' d1 i j d) = snd (node c' d1 i' j d)) /\
    (* uniform spacing *)
    (forall i j d, (0 <= i < d0 - 1)%Z -> (0 <= j < d1)%Z -> IZR (d0 - 1) * (fst (node c' d1 (i + 1) j d) - fst (node c' d1 i j d)) = x1 - x0) /\
    (forall i j d, (0 <= i < d0)%Z -> (0 <= j < d1 - 1)%Z -> IZR (d1 - 1) * (snd (node c' d1 i (j + 1) d) - snd (node c' d1 i j d)) = y1 - y0) /\
    (* the cells tile the rectangle *)
    (x0 < x1 -> y0 < y1 -> forall d,
      tiles ((d0 - 1) * (d1 - 1)) (grid_cell d1 (fun i j => fst (node c' d1 i j d)) (fun i j => snd (node c' d1 i j d))) [(x0, y0); (x1, y0); (x1, y1); (x0, y1)]).
Proof.
  intros d0 d1 x0 y0 x1 y1 c H0 H1 L0 L1. destruct (rect_nodes d0 d1 x0 y0 x1 y1 c H0 H1 L0 L1) as (c' & E & U & V).
  exists c'. split; auto. split; auto.
  assert (P0 : 1 <= IZR (d0 - 1)) by (apply IZR_le; lia). assert (P1 : 1 <= IZR (d1 - 1)) by (apply IZR_le; lia).
  split; [|split; [|split; [|split; [|split]]]].
  - intros d. rewrite !V by lia. split; f_equal; field; lra.
  - intros i j j' d Hi Hj Hj'. rewrite !V by lia. reflexivity.
  - intros i i' j d Hi Hi' Hj. rewrite !V by lia. reflexivity.
  - intros i j d Hi Hj. rewrite !V by lia. cbn [fst]. rewrite plus_IZR. field. lra.
  - intros i j d Hi Hj. rewrite !V by lia. cbn [snd]. rewrite plus_IZR. field. lra.
  - intros X Y d.
    set (X' := fun i : Z => x0 + (x1 - x0) / IZR (d0 - 1) * IZR i). set (Y' := fun j : Z => y0 + (y1 - y0) / IZR (d1 - 1) * IZR j).
    assert (CE : forall k, (0 <= k < (d0 - 1) * (d1 - 1))%Z -> grid_cell d1 (fun i j => fst (node c' d1 i j d)) (fun i j => snd (node c' d1 i j d)) k = grid_cell d1 (fun i _ => X' i) (fun _ j => Y' j) k).
    { intros k Hk. destruct (cell_split d0 d1 k ltac:(lia) ltac:(lia) Hk) as [S1 S2]. unfold grid_cell. rewrite !V by lia. reflexivity. }
    assert (DX : 0 < (x1 - x0) / IZR (d0 - 1)) by (apply Rdiv_lt_0_compat; lra). assert (DY : 0 < (y1 - y0) / IZR (d1 - 1)) by (apply Rdiv_lt_0_compat; lra).
    set (lo := Rmin ((x1 - x0) / IZR (d0 - 1)) ((y1 - y0) / IZR (d1 - 1)) / 2). set (hi := Rmax ((x1 - x0) / IZR (d0 - 1)) ((y1 - y0) / IZR (d1 - 1))).
    assert (LO : 0 < lo /\ lo < (x1 - x0) / IZR (d0 - 1) /\ lo < (y1 - y0) / IZR (d1 - 1)) by (unfold lo, Rmin; destruct (Rle_dec _ _); lra).
    assert (HI : (x1 - x0) / IZR (d0 - 1) <= hi /\ (y1 - y0) / IZR (d1 - 1) <= hi) by (unfold hi, Rmax; destruct (Rle_dec _ _); lra).
    destruct (rect_tiles_any lo hi d0 d1 X' Y' x0 x1 y0 y1) as [T1 T2]; try lia; try lra.
    + intros i _. unfold X'. rewrite plus_IZR. lra.
    + intros i _. unfold Y'. rewrite plus_IZR. lra.
    + unfold X'. lra.
    + unfold X'. right. field. lra.
    + unfold Y'. lra.
    + unfold Y'. right. field. lra.
    + split.
      * intros p I. destruct (T1 p I) as (k & Hk & I'). exists k. split; auto. rewrite CE; auto.
      * intros k k' Hk Hk' NE. rewrite !CE by auto. apply T2; auto.
Qed.
Print Assumptions C54_rectangular.

(** C54, use: the arrays handed to the point search give a grid where every point of the rectangle
    is found in one step, at its place in index space. *)
Theorem C54_points_found : forall g nit tol d0 d1 per x0 y0 x1 y1 (c c' : arrays R) s0 s guess x y,
  gels_spec g 2 2 -> (2 <= d0)%Z -> (2 <= d1)%Z -> (d0 * d1 < 2 ^ 31)%Z -> length per = 2%nat ->
  Z.of_nat (length (fst c)) = (d0 * d1)%Z -> Z.of_nat (length (snd c)) = (d0 * d1)%Z ->
  x0 < x1 -> y0 < y1 -> x0 <= x <= x1 -> y0 <= y <= y1 -> in_grid [d0; d1] guess ->
  createRectangularGrid d0 d1 (x0, y0) (x1, y1) c = Ret c' ->
  fp_setGrid (fp_new nit tol) [d0; d1] per [fst c'; snd c'] = Ret s0 -> fp_reset s0 guess [x; y] = Ret s ->
  exists code s', fp_next g s = Ret (code, s') /\ fp_getError s' = Ret 0 /\
    fp_dIndices s' = [IZR (d0 - 1) * (x - x0) / (x1 - x0); IZR (d1 - 1) * (y - y0) / (y1 - y0)] /\
    ((1 < nit)%Z -> 0 < tol -> code = 1%Z).
Proof.
  intros g nit tol d0 d1 per x0 y0 x1 y1 c c' s0 s guess x y HG H0 H1 HM LP L0 L1 HX HY Bx By Hg EC ES ER.
  assert (B0 : (d0 < 2 ^ 31)%Z) by nia. assert (B1 : (d1 < 2 ^ 31)%Z) by nia.
  destruct (rect_nodes d0 d1 x0 y0 x1 y1 c) as (c'' & E & U & V); [lia|lia|lia|lia|]. rewrite EC in E. injection E as <-.
  assert (P0 : 1 <= IZR (d0 - 1)) by (apply IZR_le; lia). assert (P1 : 1 <= IZR (d1 - 1)) by (apply IZR_le; lia).
  set (a := (x1 - x0) / IZR (d0 - 1)) in *. set (b := (y1 - y0) / IZR (d1 - 1)) in *.
  assert (Pa : 0 < a) by (apply Rdiv_lt_0_compat; lra). assert (Pb : 0 < b) by (apply Rdiv_lt_0_compat; lra).
  destruct (C13_affine_one_step g nit tol [d0; d1] per [fst c'; snd c'] s0 s guess [x; y] [x0; y0] [[a; 0]; [0; b]] [IZR (d0 - 1) * (x - x0) / (x1 - x0); IZR (d1 - 1) * (y - y0) / (y1 - y0)])
    as (code & s' & R1 & R2 & R3 & R4); auto.
  - split; [discriminate|]. split; [split; [repeat constructor; lia|cbn [grid_size]; lia]|]. split; [reflexivity|].
    destruct U as (U1 & U2 & _). constructor; [|constructor; [|constructor]]; cbn [grid_size]; lia.
  - split; [reflexivity|]. split; [repeat constructor|]. intros i v Hi Hv.
    inversion Hv as [|? p ? v' Hp Hv']; subst. inversion Hv' as [|? q ? v2 Hq Hv2]; subst. inversion Hv2; subst.
    assert (N := V p q 0 Hp Hq). unfold node in N. injection N as N0 N1. cbn [S_Grid.flat grid_size].
    replace (p * (d1 * 1) + (q * 1 + 0))%Z with (p * d1 + q)%Z by lia.
    destruct i as [|[|i]]; [| |cbn in Hi; lia]; cbn [nth map dot]; [rewrite N0|rewrite N1]; ring.
  - exists (fun i j => match i, j with O, O => / a | S O, S O => / b | _, _ => 0 end).
    split; intros i k Hi Hk; cbn in Hi, Hk; destruct i as [|[|i]]; try lia; destruct k as [|[|k]]; try lia; unfold entry; cbn; field; lra.
  - assert (Q : forall n u v w, 1 <= n -> u < v -> u <= w <= v -> 0 <= n * (w - u) / (v - u) <= n).
    { intros n u v w Hn Hu Hw. split; [apply Rmult_le_pos; [nra|left; apply Rinv_0_lt_compat; lra]|].
      apply (Rmult_le_reg_r (v - u)); [lra|]. unfold Rdiv. rewrite Rmult_assoc, Rinv_l by lra. nra. }
    constructor; [|constructor; [|constructor]]; apply Q; auto.
  - intros i Hi. destruct i as [|[|i]]; [| |cbn in Hi; lia]; cbn [nth dot]; unfold a, b; field; lra.
  - exists code, s'. auto.
Qed.
Print Assumptions C54_points_found.

(** C54 in IEEE arithmetic: the last node need not be at the bound.  50 x 2 nodes on [0, 1] x [0, 1]:
    the last node is at 1 - 2^-53, so the side x = 1 is outside the grid. *)
Theorem C54_last_node_refuted : exists c', createRectangularGrid 50 2 (Fq 0 1, Fq 0 1) (Fq 1 1, Fq 1 1) (repeat (Fq 0 1) 100, repeat (Fq 0 1) 100) = Ret c' /\
  fst (node c' 2 49 1 (Fq 0 1)) = nsub (Fq 1 1) (Fq 1 (2 ^ 53)) /\ nlt (fst (node c' 2 49 1 (Fq 0 1))) (Fq 1 1) = true.
Proof. eexists. split; [vm_compute; reflexivity|]. vm_compute. auto. Qed.
Print Assumptions C54_last_node_refuted.

(** ** Polar grids *)
(** C61 is false: the centre is added to the radius and to the angle.  Whatever the centre, node
    (0, 0) is at centre[0] (cos centre[1], sin centre[1]); for the centre (0, 1) the grid is centred
    at the origin. *)
Lemma polar_nodes : forall d0 d1 a b r (c : arrays R), (2 <= d0 < 2 ^ 31)%Z -> (2 <= d1 < 2 ^ 31)%Z ->
  (d0 * d1 <= Z.of_nat (length (fst c)))%Z -> (d0 * d1 <= Z.of_nat (length (snd c)))%Z ->
  exists c', createPolarGrid d0 d1 (a, b) r c = Ret c' /\ untouched (d0 * d1) c c' /\
    forall i j d, (0 <= i < d0)%Z -> (0 <= j < d1)%Z ->
      node c' d1 i j d = ((a + r / IZR (d0 - 1) * IZR i) * cos (b + 2 * PI / IZR (d1 - 1) * IZR j), (a + r / IZR (d0 - 1) * IZR i) * sin (b + 2 * PI / IZR (d1 - 1) * IZR j)).
Proof.
  intros d0 d1 a b r c H0 H1 L0 L1. unfold createPolarGrid. rewrite !chk_ok by (unfold int_min, int_max; lia). cbn [bind fst snd].
  match goal with |- context [fill d0 d1 ?f c] => destruct (fill_ok d0 d1 f c) as (c' & E & A1 & A2 & A3 & A4); [lia|lia|split; auto|] end.
  exists c'. split; [exact E|]. split.
  - split; auto. split; auto. intros k d Hk. specialize (A4 k d Hk). unfold at_ in A4. injection A4. auto.
  - intros i j d Hi Hj. apply (A3 i j d Hi Hj).
Qed.

Definition dist2 (p q : R * R) : R := (fst p - fst q) * (fst p - fst q) + (snd p - snd q) * (snd p - snd q).

Theorem C61_centre_refuted : forall d0 d1 r (c : arrays R), (2 <= d0 < 2 ^ 31)%Z -> (2 <= d1 < 2 ^ 31)%Z ->
  (d0 * d1 <= Z.of_nat (length (fst c)))%Z -> (d0 * d1 <= Z.of_nat (length (snd c)))%Z ->
  exists c', createPolarGrid d0 d1 (0, 1) r c = Ret c' /\
    forall j d, (0 <= j < d1)%Z -> node c' d1 0 j d = (0, 0) /\ dist2 (node c' d1 (d0 - 1) j d) (0, 0) = r * r.
Proof.
  intros d0 d1 r c H0 H1 L0 L1. destruct (polar_nodes d0 d1 0 1 r c H0 H1 L0 L1) as (c' & E & _ & V). exists c'. split; auto.
  assert (P0 : 1 <= IZR (d0 - 1)) by (apply IZR_le; lia).
  intros j d Hj. rewrite !V by lia. split; [f_equal; ring|]. unfold dist2. cbn [fst snd].
  set (t := 1 + _). assert (S := sin2_cos2 t). unfold Rsqr in S. replace (0 + r / IZR (d0 - 1) * IZR (d0 - 1)) with r by (field; lra).
  transitivity (r * r * (sin t * sin t + cos t * cos t)); [ring|rewrite S; ring].
Qed.
Print Assumptions C61_centre_refuted.

(** With the centre at the origin: rings at equal distances, the outer one at the radius; equal
    angles; the last node of a ring is the first. *)
Theorem C61_polar_partial : forall d0 d1 r (c : arrays R), (2 <= d0 < 2 ^ 31)%Z -> (2 <= d1 < 2 ^ 31)%Z ->
  (d0 * d1 <= Z.of_nat (length (fst c)))%Z -> (d0 * d1 <= Z.of_nat (length (snd c)))%Z ->
  exists c', createPolarGrid d0 d1 (0, 0) r c = Ret c' /\ untouched (d0 * d1) c c' /\
    (forall i j d, (0 <= i < d0)%Z -> (0 <= j < d1)%Z ->
       IZR (d0 - 1) * IZR (d0 - 1) * dist2 (node c' d1 i j d) (0, 0) = IZR i * IZR i * (r * r)) /\
    (forall i d, (0 <= i < d0)%Z -> node c' d1 i 0 d = (r * IZR i / IZR (d0 - 1), 0) /\ node c' d1 i (d1 - 1) d = node c' d1 i 0 d) /\
    (* the next node of a ring is turned by 2 pi / (d1 - 1) *)
    (forall i j d, (0 <= i < d0)%Z -> (0 <= j < d1 - 1)%Z -> let t := 2 * PI / IZR (d1 - 1) in let p := node c' d1 i j d in
       node c' d1 i (j + 1) d = (cos t * fst p - sin t * snd p, sin t * fst p + cos t * snd p)).
Proof.
  intros d0 d1 r c H0 H1 L0 L1. destruct (polar_nodes d0 d1 0 0 r c H0 H1 L0 L1) as (c' & E & U & V). exists c'. split; auto. split; auto.
  assert (P0 : 1 <= IZR (d0 - 1)) by (apply IZR_le; lia). assert (P1 : 1 <= IZR (d1 - 1)) by (apply IZR_le; lia).
  split; [|split].
  - intros i j d Hi Hj. rewrite V by lia. unfold dist2. cbn [fst snd]. set (t := 0 + 2 * PI / _ * _). assert (S := sin2_cos2 t). unfold Rsqr in S.
    transitivity (IZR i * IZR i * (r * r) * (sin t * sin t + cos t * cos t)); [field; lra|rewrite S; ring].
  - intros i d Hi. rewrite !V by lia. replace (0 + 2 * PI / IZR (d1 - 1) * 0) with 0 by ring. replace (0 + 2 * PI / IZR (d1 - 1) * IZR (d1 - 1)) with (2 * PI) by (field; lra).
    rewrite cos_0, sin_0, cos_2PI, sin_2PI. split; [f_equal; field; lra|reflexivity].
  - intros i j d Hi Hj. cbv zeta. rewrite !V by lia. cbn [fst snd]. rewrite plus_IZR. set (t := 2 * PI / IZR (d1 - 1)).
    replace (0 + t * (IZR j + 1)) with (t + t * IZR j) by ring. replace (0 + t * IZR j) with (t * IZR j) by ring. rewrite cos_plus, sin_plus. f_equal; ring.
Qed.
Print Assumptions C61_polar_partial.

(** A 3 x 4 grid on [1, 2] x [0, 6]: node (1, 2) is at (3/2, 4). *)
Example C54_nonvacuous : exists c', createRectangularGrid 3 4 (1, 0) (2, 6) (repeat 0 12, repeat 0 13) = Ret c' /\ node c' 4 1 2 0 = (3 / 2, 4).
Proof.
  destruct (rect_nodes 3 4 1 0 2 6 (repeat 0 12, repeat 0 13)) as (c' & E & _ & V); [lia|lia|cbn; lia|cbn; lia|].
  exists c'. split; auto. rewrite V by lia. change (IZR (3 - 1)) with 2. change (IZR (4 - 1)) with 3. f_equal; lra.
Qed.

(** A disk with 2 rings of 4 sectors. *)
Example C61_nonvacuous : exists c', createPolarGrid 3 5 (0, 0) 2 (repeat 0 15, repeat 0 15) = Ret c' /\ dist2 (node c' 5 1 3 0) (0, 0) = 1.
Proof.
  destruct (C61_polar_partial 3 5 2 (repeat 0 15, repeat 0 15)) as (c' & E & _ & V & _); [lia|lia|cbn; lia|cbn; lia|].
  exists c'. split; auto. specialize (V 1%Z 3%Z 0 ltac:(lia) ltac:(lia)). change (IZR (3 - 1)) with 2 in V. lra.
Qed.
