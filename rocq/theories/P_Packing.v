(** Property C90: partly covered cells; interpolation creates no amount. *)
From Coq Require Import ZArith List Bool Reals Lra Lia Floats.SpecFloat.
From Verif Require Import Base Num NumR NumF S_LinAlg S_Array S_Geometry S_Quad S_Area S_Overlap S_Sort S_ConserveGrid S_Rectilinear S_Packing
  M_LinearSolve M_Triangulate M_Quad M_QuadIntersect M_ConserveInterp S_ConserveTable L_LinearSolve L_Cramer
  L_Conserve L_ConserveTable L_ConserveApply L_ConserveAgain L_ConserveIter L_ConserveArea L_ConserveRect L_Packing P_Conserve P_ConserveMax.
Import ListNotations.
Open Scope R_scope.

(** C90.  Grids of the class of C38, cells of each grid do not overlap one another; neither grid has to
    cover the other.  The weights of a destination cell are nonnegative and add up to at most one; from
    a destination array of zeros every value is between the bounds of the source field, widened to
    contain zero; the integral of a nonnegative field does not grow. *)
Theorem C90_no_gain_partial : forall srt (g : gels R) d0 d1 nx ny xs ys e0 e1 mx my us vs m ms Ad As src dst,
  gels_spec g 2 2 -> sorts srt -> keeps_ties srt ->
  (2 <= d0)%Z -> (2 <= d1)%Z -> (d0 * d1 <= int_max)%Z -> (2 <= e0)%Z -> (2 <= e1)%Z -> (e0 * e1 <= int_max)%Z ->
  stores d0 d1 nx xs -> stores d0 d1 ny ys -> stores e0 e1 mx us -> stores e0 e1 my vs ->
  (forall c k, (0 <= c < (d0 - 1) * (d1 - 1))%Z -> (0 <= k < (e0 - 1) * (e1 - 1))%Z ->
    regular_pair (/ 10 ^ 12) (/ 10 ^ 12) (grid_cell d1 nx ny c) (grid_cell e1 mx my k)) ->
  (forall c, (0 <= c < (d0 - 1) * (d1 - 1))%Z -> separated (/ 10 ^ 12) (grid_cell d1 nx ny c) /\ has_area (in_hull (grid_cell d1 nx ny c)) (Ad c)) ->
  (forall k, (0 <= k < (e0 - 1) * (e1 - 1))%Z -> has_area (in_hull (grid_cell e1 mx my k)) (As k)) ->
  apart_cells ((d0 - 1) * (d1 - 1)) (grid_cell d1 nx ny) -> apart_cells ((e0 - 1) * (e1 - 1)) (grid_cell e1 mx my) ->
  Z.of_nat (length src) = ((e0 - 1) * (e1 - 1))%Z -> Z.of_nat (length dst) = ((d0 - 1) * (d1 - 1))%Z -> (forall x, In x dst -> x = 0) ->
  exists s out, conserve_run srt g d0 d1 xs ys e0 e1 us vs (m :: ms) = Ret s /\ ci_apply s src dst = Ret out /\
    (forall c, (0 <= c < (d0 - 1) * (d1 - 1))%Z ->
      (forall k w, In (k, w) (row_of (ci_weights s) c) -> 0 <= w) /\ total (map snd (row_of (ci_weights s) c)) <= 1 /\
      forall lo hi, (forall v, In v src -> lo <= v <= hi) -> Rmin 0 lo <= nth (Z.to_nat c) out 0 <= Rmax 0 hi) /\
    ((forall v, In v src -> 0 <= v) ->
      total (map (fun c => Ad c * nth (Z.to_nat c) out 0) (range ((d0 - 1) * (d1 - 1)))) <=
      total (map (fun k => As k * nth (Z.to_nat k) src 0) (range ((e0 - 1) * (e1 - 1))))).
Proof.
  intros srt g d0 d1 nx ny xs ys e0 e1 mx my us vs m ms Ad As src dst G SRT TIES H0 H1 H2 H3 H4 H5 SX SY SU SV REG SEP SRC APD APS LS LD Z0.
  destruct (run_grids srt g d0 d1 nx ny xs ys e0 e1 mx my us vs H0 H1 H2 H3 H4 H5 SX SY SU SV) as (dg & sg & O1 & O2 & RN).
  destruct (conserve_weights g G srt (fst m) (snd m) d0 d1 e0 e1 nx ny mx my dg sg O1 O2 REG (mkCi (Some dg) (Some sg) [] None) eq_refl eq_refl eq_refl)
    as (s & E & _ & _ & _ & A1 & A2 & A3 & A4).
  destruct (apply_rows s src dst A1) as (out & E2 & L & V).
  { intros k r I. split; [apply (A2 k r I)|]. destruct (A3 k r I) as [B1 B2]. split; [lia|]. intros e J. specialize (B2 e J). lia. }
  assert (RUN : conserve_run srt g d0 d1 xs ys e0 e1 us vs (m :: ms) = Ret s) by (rewrite RN; apply run_again; auto).
  destruct (C37_valid_rows srt g d0 d1 xs ys e0 e1 us vs (m :: ms) H0 H1 H2 H3 H4 H5 (proj1 SX) (proj1 SY) (proj1 SU) (proj1 SV)) as (s'' & RN'' & _ & B).
  rewrite RUN in RN''. injection RN'' as <-.
  exists s, out. split; auto. split; auto.
  assert (VAL : forall c, (0 <= c < (d0 - 1) * (d1 - 1))%Z -> nth (Z.to_nat c) out 0 = weighted (n0 : R) (row_of (ci_weights s) c) (fun k => nth (Z.to_nat k) src 0)).
  { intros c Hc. rewrite V by lia. destruct (row_of (ci_weights s) c); [|reflexivity]. cbn [weighted]. apply Z0. apply nth_In. lia. }
  split.
  - intros c Hc.
    assert (W : forall k w, In (k, w) (row_of (ci_weights s) c) -> 0 <= w /\ In (nth (Z.to_nat k) src 0) src).
    { intros k w I. assert (NE : row_of (ci_weights s) c <> []) by (intros X; rewrite X in I; destruct I).
      destruct (B _ _ (row_found _ _ NE)) as (_ & _ & U & K). assert (Kk := K k w I).
      destruct (weight_in _ _ _ _ U I) as [Ew _].
      rewrite (fractions g srt (fst m) (snd m) d0 d1 e0 e1 nx ny mx my s A4 c k Hc Kk) in Ew. rewrite <- Ew.
      split; [|apply nth_In; lia].
      apply (fraction_bounds g G srt SRT TIES (fst m) (snd m) d0 d1 e0 e1 nx ny mx my sg O2 REG (fun c Hc => proj1 (SEP c Hc)) c k Hc Kk). }
    assert (TOT := fractions_most g G srt SRT TIES (fst m) (snd m) d0 d1 e0 e1 nx ny mx my sg O2 REG (fun c Hc => proj1 (SEP c Hc)) s A4 c Hc APS).
    split; [intros k w I; apply (W k w I)|]. split; [exact TOT|].
    intros lo hi SB. rewrite VAL by auto. change (n0 : R) with 0.
    assert (M1 := Rmin_l 0 lo). assert (M2 := Rmin_r 0 lo). assert (M3 := Rmax_l 0 hi). assert (M4 := Rmax_r 0 hi).
    assert (X := weighted_bounds (row_of (ci_weights s) c) (fun k => nth (Z.to_nat k) src 0) (Rmin 0 lo) (Rmax 0 hi) 0).
    assert (TP : 0 <= total (map snd (row_of (ci_weights s) c))).
    { assert (WP : forall k w, In (k, w) (row_of (ci_weights s) c) -> 0 <= w) by (intros k w I; apply (W k w I)).
      revert WP. generalize (row_of (ci_weights s) c). induction l as [|[k w] l IH]; intros WP; cbn; [lra|].
      assert (Q := WP k w (or_introl eq_refl)). assert (Q' := IH (fun k' w' I => WP k' w' (or_intror I))). lra. }
    destruct X as [X1 X2]. { intros k w I. destruct (W k w I) as [Q1 Q2]. assert (Q3 := SB _ Q2). split; auto. lra. }
    split; nra.
  - intros FP.
    assert (X := no_gain g G srt SRT TIES (fst m) (snd m) d0 d1 e0 e1 nx ny mx my sg O2 REG (fun c Hc => proj1 (SEP c Hc)) s A4 (fun k => nth (Z.to_nat k) src 0) Ad As).
    rewrite !total_rsum in X |- *. eapply Rle_trans; [|apply X; auto].
    + right. apply rsum_ext. intros c Hc. apply in_range in Hc. f_equal. apply VAL. auto.
    + intros k Hk. apply FP. apply nth_In. lia.
    + intros c Hc. apply (SEP c Hc).
Qed.
Print Assumptions C90_no_gain_partial.

Lemma rect_apart : forall n0 n1 X Y, (2 <= n0)%Z -> (2 <= n1)%Z -> lines dlt (10 ^ 5) n0 X -> lines dlt (10 ^ 5) n1 Y ->
  apart_cells ((n0 - 1) * (n1 - 1)) (grid_cell n1 (fun i _ => X i) (fun _ j => Y j)).
Proof.
  intros n0 n1 X Y H0 H1 LX LY. assert (DP : 0 < dlt) by (unfold dlt; lra).
  assert (A := lines_le _ _ _ _ DP LX 1%Z (n0 - 1)%Z ltac:(lia) ltac:(lia)). assert (B := lines_le _ _ _ _ DP LY 1%Z (n1 - 1)%Z ltac:(lia) ltac:(lia)).
  assert (C := LX 0%Z ltac:(lia)). assert (D := LY 0%Z ltac:(lia)). change (0 + 1)%Z with 1%Z in C, D.
  assert (T : tiles ((n0 - 1) * (n1 - 1)) (grid_cell n1 (fun i _ => X i) (fun _ j => Y j)) (box (X 0%Z) (X (n0 - 1)%Z) (Y 0%Z) (Y (n1 - 1)%Z))) by (apply rect_tiles; auto; lra).
  exact (proj2 T).
Qed.

(** C90 on rectilinear grids. *)
Theorem C90_rectilinear : forall srt (g : gels R) d0 d1 X Y xs ys e0 e1 U V us vs m ms src dst,
  gels_spec g 2 2 -> sorts srt -> keeps_ties srt ->
  (2 <= d0)%Z -> (2 <= d1)%Z -> (d0 * d1 <= int_max)%Z -> (2 <= e0)%Z -> (2 <= e1)%Z -> (e0 * e1 <= int_max)%Z ->
  stores d0 d1 (fun i _ => X i) xs -> stores d0 d1 (fun _ j => Y j) ys -> stores e0 e1 (fun i _ => U i) us -> stores e0 e1 (fun _ j => V j) vs ->
  rectilinear_pair d0 d1 X Y e0 e1 U V ->
  Z.of_nat (length src) = ((e0 - 1) * (e1 - 1))%Z -> Z.of_nat (length dst) = ((d0 - 1) * (d1 - 1))%Z -> (forall x, In x dst -> x = 0) ->
  let size n1 X Y (c : Z) := (X (c / (n1 - 1) + 1)%Z - X (c / (n1 - 1))%Z) * (Y (c mod (n1 - 1) + 1)%Z - Y (c mod (n1 - 1))%Z) in
  exists s out, conserve_run srt g d0 d1 xs ys e0 e1 us vs (m :: ms) = Ret s /\ ci_apply s src dst = Ret out /\
    (forall c, (0 <= c < (d0 - 1) * (d1 - 1))%Z ->
      total (map snd (row_of (ci_weights s) c)) <= 1 /\
      forall lo hi, (forall v, In v src -> lo <= v <= hi) -> Rmin 0 lo <= nth (Z.to_nat c) out 0 <= Rmax 0 hi) /\
    ((forall v, In v src -> 0 <= v) ->
      total (map (fun c => size d1 X Y c * nth (Z.to_nat c) out 0) (range ((d0 - 1) * (d1 - 1)))) <=
      total (map (fun k => size e1 U V k * nth (Z.to_nat k) src 0) (range ((e0 - 1) * (e1 - 1))))).
Proof.
  intros srt g d0 d1 X Y xs ys e0 e1 U V us vs m ms src dst G SRT TIES H0 H1 H2 H3 H4 H5 SX SY SU SV (LX & LY & LU & LV & AX & AY & CX & CY) LS LD Z0 size.
  assert (DP : 0 < dlt) by (unfold dlt; lra).
  assert (AR : forall n0' n1' X Y c, (2 <= n0')%Z -> (2 <= n1')%Z -> lines dlt (10 ^ 5) n0' X -> lines dlt (10 ^ 5) n1' Y -> (0 <= c < (n0' - 1) * (n1' - 1))%Z ->
    has_area (in_hull (grid_cell n1' (fun i _ => X i) (fun _ j => Y j) c)) (size n1' X Y c)).
  { clear - DP. intros n0' n1' X Y c H0 H1 LX LY Hc. rewrite rect_cell. destruct (cell_split n0' n1' c H0 H1 Hc) as [S1 S2]. assert (B1 := LX _ S1). assert (B2 := LY _ S2).
    apply (L_Area.area_ext (in_box (X (c / (n1' - 1))%Z) (X (c / (n1' - 1) + 1)%Z) (Y (c mod (n1' - 1))%Z) (Y (c mod (n1' - 1) + 1)%Z))); [intros p; symmetry; apply box_hull; lra|apply box_area; lra]. }
  destruct (C90_no_gain_partial srt g d0 d1 (fun i _ => X i) (fun _ j => Y j) xs ys e0 e1 (fun i _ => U i) (fun _ j => V j) us vs m ms (size d1 X Y) (size e1 U V) src dst)
    as (s & out & RN & AP & W & T); auto.
  - apply rect_pairs; auto.
  - intros c Hc. split; [|apply (AR d0); auto]. rewrite rect_cell. destruct (cell_split d0 d1 c H0 H1 Hc) as [S1 S2]. apply box_separated; [apply LX; auto|apply LY; auto].
  - intros k Hk. apply (AR e0); auto.
  - apply rect_apart; auto.
  - apply rect_apart; auto.
  - exists s, out. split; auto. split; auto. split; auto. intros c Hc. destruct (W c Hc) as (_ & W1 & W2). auto.
Qed.
Print Assumptions C90_rectilinear.

(** One source cell [0, 2] x [0, 2] over the four destination cells between -1, 1 and 3, and the other
    way round: four source cells, one destination cell. *)
Example C90_case : exists s out, conserve_run insertion gels2 3 3 (grid_array 3 (fun i _ => shifted i)) (grid_array 3 (fun _ j => shifted j))
    2 2 (grid_array 2 (fun i _ => wide i)) (grid_array 2 (fun _ j => wide j)) [noise] = Ret s /\ ci_apply s [-5] [0; 0; 0; 0] = Ret out /\
  total (map snd (row_of (ci_weights s) 3)) <= 1 /\ -5 <= nth 3 out 0 <= 0.
Proof.
  destruct (C90_rectilinear insertion gels2 3 3 shifted shifted _ _ 2 2 wide wide _ _ noise [] [-5] [0; 0; 0; 0] gels2_spec22 (insertion_sorts nat) insertion_ties
    ltac:(lia) ltac:(lia) ltac:(unfold int_max; lia) ltac:(lia) ltac:(lia) ltac:(unfold int_max; lia)
    (proj2 (grid_stores _)) (proj2 (grid_stores _)) (proj1 (grid_stores _)) (proj1 (grid_stores _)) (proj2 (wide_shifted _ _ _ _)) eq_refl eq_refl) as (s & out & RN & AP & W & _).
  { intros x I. cbn in I. intuition. }
  exists s, out. split; auto. split; auto. destruct (W 3%Z ltac:(lia)) as [W1 W2]. split; auto.
  assert (X := W2 (-5) (-5)). rewrite Rmin_right, Rmax_left in X by lra. apply X. intros v [<-|[]]. lra.
Qed.

(** C90 is false for cells that touch: the source cell [2, 3] x [1, 2] with value 1 and the two
    destination cells [1, 2] x [0, 3] and [2, 3] x [0, 3].  The first destination cell does not overlap the
    source cell, but both get 1/3: the integral grows from 1 to 2. *)
Theorem C90_no_gain_refuted : exists s v w, conserve_run isort cramer 3 2 (map FZ [1; 1; 2; 2; 3; 3]%Z) (map FZ [0; 3; 0; 3; 0; 3]%Z)
    2 2 (map FZ [2; 2; 3; 3]%Z) (map FZ [1; 2; 1; 2]%Z) [zeros] = Ret s /\
  ci_apply s [FZ 1] [FZ 0; FZ 0] = Ret [v; w] /\ nlt (lit 199 100) (FZ 3 * v + FZ 3 * w)%num = true.
Proof. do 3 eexists. split; [vm_compute; reflexivity|]. split; [vm_compute; reflexivity|]. vm_compute. reflexivity. Qed.
Print Assumptions C90_no_gain_refuted.
