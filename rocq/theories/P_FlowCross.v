(** C91: the flux through a line that crosses grid lines at an angle, in double arithmetic. *)
From Coq Require Import ZArith List Reals Lra Floats.SpecFloat.
From Flocq Require Import Core IEEE754.BinarySingleNaN.
From Verif Require Import Base Num NumF S_Sort M_FlowInterp L_Cramer L_Float L_QuadF P_Flow.
Import ListNotations.
Local Open Scope R_scope.

(** The stream function of the witness, written down without the model: on a grid of one row of two cells, between the
    longitudes -90, 150 and 180, it is the interpolated number of the column of nodes (0, 1, 2); it does not depend on y. *)
Definition column (x : R) : R := if Rle_dec x 150 then (x + 90) / 240 else 1 + (x - 150) / 30.

(** The edge values of that function are 1 along the first coordinate and 0 along the second. The line goes from (-89.3, 3) to
    (177.8, 2), through the common edge of the two cells, so its flux is column 177.8 - column (-89.3) = 1.92375.
    The crossing point is computed to within an ulp of 150, which is 2.8e-14; the search for its indices accepts points at most
    100 epsilon = 2.2e-14 outside the box of the cell (SgFindPointInCell.h:214-224), gives up otherwise with code -3, and
    computeProjections (SgQuadLineFlows.h) takes the start value of the search, the centre of the cell, without looking at the code.
    The flux is wrong by a half. [cramer]: Cramer's rule in doubles; [exact2]: every solution correctly rounded. *)
Theorem C91_crossing_refuted : forall g, g = cramer \/ g = exact2 -> exists v,
  flow_run insertion g cos2 3 2 (map FZ [-90; -90; 150; 150; 180; 180]%Z) (map FZ [0; 10; 0; 10; 0; 10]%Z)
    2 [lit (-893) 10; lit 1778 10] [FZ 3; FZ 2] 1 (map FZ [1; 1; 1; 1]%Z) (map FZ [0; 0; 0]%Z) [FZ 0] = Ret [v] /\
  fval v + 49 / 100 <= column (1778 / 10) - column (- (893 / 10)).
Proof.
  intros g Hg. exists (S754_finite false 6411999969468737 (-52)). split.
  - destruct Hg as [-> | ->]; vm_compute; reflexivity.
  - unfold column. destruct (Rle_dec (1778 / 10) 150); [lra|]. destruct (Rle_dec (- (893 / 10)) 150); [|lra].
    unfold fval. cbn [SF2R cond_Zopp]. unfold F2R. cbn [Fnum Fexp]. change (bpow radix2 (-52)) with (/ 4503599627370496). lra.
Qed.
Print Assumptions C91_crossing_refuted.
