(** Specification vocabulary: grids of cells, tilings and weights. *)
From Coq Require Import ZArith List Reals.
From Verif Require Import S_Geometry S_Quad S_Area.
Import ListNotations.
Open Scope R_scope.

(** Nodes of the cell number c of a grid with n1 nodes in the second direction; node (i, j) is at
    (x i j, y i j). *)
Definition grid_cell (n1 : Z) (x y : Z -> Z -> R) (c : Z) : list point :=
  let i := (c / (n1 - 1))%Z in let j := (c mod (n1 - 1))%Z in
  [(x i j, y i j); (x (i + 1)%Z j, y (i + 1)%Z j); (x (i + 1)%Z (j + 1)%Z, y (i + 1)%Z (j + 1)%Z); (x i (j + 1)%Z, y i (j + 1)%Z)].

(** The cells 0, ..., n - 1 cover V and do not overlap one another. *)
Definition tiles (n : Z) (cell : Z -> list point) (V : list point) : Prop :=
  (forall p, in_hull V p -> exists k, (0 <= k < n)%Z /\ in_hull (cell k) p) /\
  (forall k k', (0 <= k < n)%Z -> (0 <= k' < n)%Z -> k <> k' -> flat (overlap (cell k) (cell k'))).

(** The weight of cell k in a row (0 if it is not listed). *)
Fixpoint weight_of (row : list (Z * R)) (k : Z) : R :=
  match row with
  | [] => 0
  | (k', w) :: row' => if (k =? k')%Z then w else weight_of row' k
  end.

Fixpoint total (l : list R) : R := match l with [] => 0 | x :: l' => x + total l' end.
