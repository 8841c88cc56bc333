(** Specification vocabulary for stream functions on a cell. *)
From Coq Require Import ZArith List Reals.
From Verif Require Import S_Geometry S_Quad.
Import ListNotations.
Open Scope R_scope.

(** Bilinear function with values [p00], [p10], [p01], [p11] at (0,0), (1,0), (0,1), (1,1). *)
Definition bilinear (p00 p10 p01 p11 x y : R) : R :=
  (1 - x) * (1 - y) * p00 + x * (1 - y) * p10 + (1 - x) * y * p01 + x * y * p11.

(** Point of the parallelogram with corner [o] and sides to [a] and to [b]. *)
Definition in_frame (o a b : point) (x y : R) : point :=
  (fst o + x * (fst a - fst o) + y * (fst b - fst o), snd o + x * (snd a - snd o) + y * (snd b - snd o)).

(** Bilinear map of the unit square to the quad with corners a, b, c, d counter-clockwise. *)
Definition bilinear_map (a b c d : point) (x y : R) : point :=
  (bilinear (fst a) (fst b) (fst d) (fst c) x y, bilinear (snd a) (snd b) (snd d) (snd c) x y).

(** For the segment A B and the quad V (its nodes in order) nothing happens within the tolerance
    outside: an end point of the segment in the quad enlarged by the tolerance is in the quad, and a
    crossing with an edge inside both enlarged segments is inside both segments. *)
Definition no_near_miss (tol : R) (a b c d A B : point) : Prop :=
  (forall p, p = A \/ p = B -> combination tol [a; b; c; d] p -> in_hull [a; b; c; d] p) /\
  (forall e, In e [(a, b); (b, c); (c, d); (d, a)] -> forall s t,
     on_seg (fst e) (snd e) s = on_seg A B t -> turn (fst e) (snd e) A B <> 0 ->
     - tol <= s <= 1 + tol -> - tol <= t <= 1 + tol -> 0 <= s <= 1 /\ 0 <= t <= 1).

(** The point is in the parallelogram with corner [o] and sides to [a] and [b]. *)
Definition in_par (o a b p : point) : Prop :=
  exists x y, 0 <= x <= 1 /\ 0 <= y <= 1 /\ p = in_frame o a b x y.

(** ** Segments on a grid with nodes (nx i j, ny i j), 0 <= i < d0, 0 <= j < d1 *)

(** Corners of the cell (i, j) in order. *)
Definition corners (nx ny : Z -> Z -> R) (i j : Z) : list point :=
  [(nx i j, ny i j); (nx (i + 1)%Z j, ny (i + 1)%Z j); (nx (i + 1)%Z (j + 1)%Z, ny (i + 1)%Z (j + 1)%Z);
   (nx i (j + 1)%Z, ny i (j + 1)%Z)].

Definition is_cell2 (d0 d1 i j : Z) : Prop := (0 <= i < d0 - 1)%Z /\ (0 <= j < d1 - 1)%Z.

(** Every point of the segment is in a cell. *)
Definition cells_cover (d0 d1 : Z) (nx ny : Z -> Z -> R) (A B : point) : Prop :=
  forall t, 0 <= t <= 1 -> exists i j, is_cell2 d0 d1 i j /\ in_hull (corners nx ny i j) (on_seg A B t).

(** Two different cells have at most one point of the segment in common. *)
Definition cells_share_once (d0 d1 : Z) (nx ny : Z -> Z -> R) (A B : point) : Prop :=
  forall i j i' j' t t', is_cell2 d0 d1 i j -> is_cell2 d0 d1 i' j' -> (i, j) <> (i', j') ->
  0 <= t <= 1 -> 0 <= t' <= 1 ->
  in_hull (corners nx ny i j) (on_seg A B t) -> in_hull (corners nx ny i' j') (on_seg A B t) ->
  in_hull (corners nx ny i j) (on_seg A B t') -> in_hull (corners nx ny i' j') (on_seg A B t') -> t = t'.

(** No cell is missed by less than the tolerance. *)
Definition cells_no_near_miss (tol : R) (d0 d1 : Z) (nx ny : Z -> Z -> R) (A B : point) : Prop :=
  forall i j, is_cell2 d0 d1 i j ->
  no_near_miss tol (nx i j, ny i j) (nx (i + 1)%Z j, ny (i + 1)%Z j) (nx (i + 1)%Z (j + 1)%Z, ny (i + 1)%Z (j + 1)%Z)
    (nx i (j + 1)%Z, ny i (j + 1)%Z) A B.

(** Point k of the polyline: the given point displaced by ten machine epsilons times c k in x and
    twenty in y. *)
Definition displaced (c : Z -> R) (xs ys : list R) (k : Z) : point :=
  (nth (Z.to_nat k) xs 0 + 10 * / 2 ^ 52 * c k, nth (Z.to_nat k) ys 0 + 20 * / 2 ^ 52 * c k).

(** F is, in every cell, the bilinear interpolation of the nodal values psi. *)
Definition interpolates (d0 d1 : Z) (nx ny psi : Z -> Z -> R) (F : point -> R) : Prop :=
  forall i j x y, is_cell2 d0 d1 i j -> 0 <= x <= 1 -> 0 <= y <= 1 ->
  F (bilinear_map (nx i j, ny i j) (nx (i + 1)%Z j, ny (i + 1)%Z j) (nx (i + 1)%Z (j + 1)%Z, ny (i + 1)%Z (j + 1)%Z)
       (nx i (j + 1)%Z, ny i (j + 1)%Z) x y) =
  bilinear (psi i j) (psi (i + 1)%Z j) (psi i (j + 1)%Z) (psi (i + 1)%Z (j + 1)%Z) x y.

(** F changes at most by L times the distance within a cell. *)
Definition lipschitz (d0 d1 : Z) (nx ny : Z -> Z -> R) (L : R) (F : point -> R) : Prop :=
  forall i j p p', is_cell2 d0 d1 i j -> in_hull (corners nx ny i j) p -> in_hull (corners nx ny i j) p' ->
  Rabs (F p - F p') <= L * sqrt (sqdist p p').

(** The same for flows with circulation, along the segment A B: in every cell met by the segment F is
    the bilinear interpolation of psi up to a constant that may depend on the cell. *)
Definition interpolates_along (d0 d1 : Z) (nx ny psi : Z -> Z -> R) (A B : point) (F : point -> R) : Prop :=
  forall i j, is_cell2 d0 d1 i j -> (exists t, 0 <= t <= 1 /\ in_hull (corners nx ny i j) (on_seg A B t)) ->
  exists K, forall x y, 0 <= x <= 1 -> 0 <= y <= 1 ->
  F (bilinear_map (nx i j, ny i j) (nx (i + 1)%Z j, ny (i + 1)%Z j) (nx (i + 1)%Z (j + 1)%Z, ny (i + 1)%Z (j + 1)%Z)
       (nx i (j + 1)%Z, ny i (j + 1)%Z) x y) =
  bilinear (psi i j) (psi (i + 1)%Z j) (psi i (j + 1)%Z) (psi (i + 1)%Z (j + 1)%Z) x y + K.

(** F changes at most by L times the distance within a cell met by the segment A B. *)
Definition lipschitz_along (d0 d1 : Z) (nx ny : Z -> Z -> R) (L : R) (A B : point) (F : point -> R) : Prop :=
  forall i j, is_cell2 d0 d1 i j -> (exists t, 0 <= t <= 1 /\ in_hull (corners nx ny i j) (on_seg A B t)) ->
  forall p p', in_hull (corners nx ny i j) p -> in_hull (corners nx ny i j) p' ->
  Rabs (F p - F p') <= L * sqrt (sqdist p p').

(** ** Rectilinear grids, with nodes (X i, Y j) *)
Definition increasing (d : Z) (X : Z -> R) : Prop := forall i, (0 <= i < d - 1)%Z -> X i < X (i + 1)%Z.

(** v is not outside an interval of the grid by less than 2 tol times its width. *)
Definition clear_of (tol : R) (d : Z) (X : Z -> R) (v : R) : Prop :=
  forall i, (0 <= i < d - 1)%Z -> let w := 2 * tol * (X (i + 1)%Z - X i) in
  X i - w <= v <= X (i + 1)%Z + w -> X i <= v <= X (i + 1)%Z.

(** The segment A B is in the grid, does not run along an inner grid line, and its ends and its
    crossings with grid lines are clear of the grid lines. *)
Definition rectilinear_segment (tol : R) (d0 d1 : Z) (X Y : Z -> R) (A B : point) : Prop :=
  (forall p, p = A \/ p = B -> X 0%Z <= fst p <= X (d0 - 1)%Z /\ Y 0%Z <= snd p <= Y (d1 - 1)%Z /\
     clear_of tol d0 X (fst p) /\ clear_of tol d1 Y (snd p)) /\
  (forall i, (0 < i < d0 - 1)%Z -> ~ (fst A = X i /\ fst B = X i)) /\
  (forall j, (0 < j < d1 - 1)%Z -> ~ (snd A = Y j /\ snd B = Y j)) /\
  (forall i t, (0 <= i < d0)%Z -> fst A <> fst B -> - tol <= t <= 1 + tol -> fst (on_seg A B t) = X i ->
     0 <= t <= 1 /\ clear_of tol d1 Y (snd (on_seg A B t))) /\
  (forall j t, (0 <= j < d1)%Z -> snd A <> snd B -> - tol <= t <= 1 + tol -> snd (on_seg A B t) = Y j ->
     0 <= t <= 1 /\ clear_of tol d0 X (fst (on_seg A B t))).
