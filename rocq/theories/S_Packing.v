(** Specification vocabulary: cells that do not overlap one another. *)
From Coq Require Import ZArith List Reals.
From Verif Require Import S_Geometry S_Quad S_Area.
Open Scope R_scope.

(** The common part of two different cells of 0, ..., n - 1 is on a line. *)
Definition apart_cells (n : Z) (cell : Z -> list point) : Prop :=
  forall k k', (0 <= k < n)%Z -> (0 <= k' < n)%Z -> k <> k' -> flat (overlap (cell k) (cell k')).
