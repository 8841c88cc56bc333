(** Specification vocabulary: line integral of the field interpolated from edge values. *)
From Coq Require Import ZArith List Reals.
From Coquelicot Require Import Coquelicot.
From Verif Require Import Base S_Geometry S_Quad S_Flow.
Import ListNotations.
Open Scope R_scope.

(** The edges of the cell (i, j) carry the values h0 i j (from node (i, j) to node (i + 1, j)),
    h0 i (j + 1), h1 i j (from node (i, j) to node (i, j + 1)) and h1 (i + 1) j.  The field interpolated
    from them, in the coordinates x, y of the cell: along x the values of the two edges in the first
    direction interpolated in y, along y those of the edges in the second direction interpolated in x.
    Its component along the curve (x t, y t). *)
Definition edge_field (h0 h1 : Z -> Z -> R) (i j : Z) (x y : R -> R) (t : R) : R :=
  (h0 i j * (1 - y t) + h0 i (j + 1)%Z * y t) * Derive x t + (h1 i j * (1 - x t) + h1 (i + 1)%Z j * x t) * Derive y t.

(** The part of the segment A B in the cell (i, j) gives I: at most one point of the segment is in
    the cell and I is 0, or the part has the parameters t0 to t1 and I is the integral of the field along
    the part, (x, y) being the coordinates in the cell. *)
Definition cell_flux (nx ny h0 h1 : Z -> Z -> R) (i j : Z) (A B : point) (I : R) : Prop :=
  (forall t t', 0 <= t <= 1 -> 0 <= t' <= 1 -> in_hull (corners nx ny i j) (on_seg A B t) -> in_hull (corners nx ny i j) (on_seg A B t') -> t = t') /\
    I = 0 \/
  exists t0 t1 (x y : R -> R), 0 <= t0 < t1 /\ t1 <= 1 /\
    (forall t, 0 <= t <= 1 -> (in_hull (corners nx ny i j) (on_seg A B t) <-> t0 <= t <= t1)) /\
    (forall t, t0 <= t <= t1 -> 0 <= x t <= 1 /\ 0 <= y t <= 1 /\ ex_derive x t /\ ex_derive y t /\
       on_seg A B t = bilinear_map (nx i j, ny i j) (nx (i + 1)%Z j, ny (i + 1)%Z j) (nx (i + 1)%Z (j + 1)%Z, ny (i + 1)%Z (j + 1)%Z)
         (nx i (j + 1)%Z, ny i (j + 1)%Z) (x t) (y t)) /\
    is_RInt (edge_field h0 h1 i j x y) t0 t1 I.

(** Sum over the cells of a grid of d0 times d1 nodes. *)
Definition cell_sum (d0 d1 : Z) (I : Z -> Z -> R) : R :=
  fold_right Rplus 0 (map (fun c => I (c / (d1 - 1))%Z (c mod (d1 - 1))%Z) (range ((d0 - 1) * (d1 - 1)))).

(** More than one point of the segment is in a cell. *)
Definition crosses_a_cell (d0 d1 : Z) (nx ny : Z -> Z -> R) (A B : point) : Prop :=
  exists i j t t', is_cell2 d0 d1 i j /\ t <> t' /\ 0 <= t <= 1 /\ 0 <= t' <= 1 /\
    in_hull (corners nx ny i j) (on_seg A B t) /\ in_hull (corners nx ny i j) (on_seg A B t').
