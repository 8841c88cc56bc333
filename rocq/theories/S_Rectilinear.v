(** Specification vocabulary: rectilinear grids, given by the coordinates of their lines. *)
From Coq Require Import ZArith Reals.
Open Scope R_scope.

(** n increasing coordinates with steps between dmin and dmax. *)
Definition lines (dmin dmax : R) (n : Z) (X : Z -> R) : Prop :=
  forall i, (0 <= i < n - 1)%Z -> dmin < X (i + 1)%Z - X i <= dmax.

(** Lines of two grids are equal or further apart than d. *)
Definition lines_apart (d : R) (n : Z) (X : Z -> R) (m : Z) (U : Z -> R) : Prop :=
  forall i k, (0 <= i < n)%Z -> (0 <= k < m)%Z -> X i = U k \/ d < Rabs (X i - U k).

(** If the grids have a common line in one direction then in the other direction (lines Y, V) no
    interval of the second grid is strictly inside an interval of the first one. *)
Definition common_ok (n : Z) (X : Z -> R) (m : Z) (U : Z -> R) (n' : Z) (Y : Z -> R) (m' : Z) (V : Z -> R) : Prop :=
  (exists i k, (0 <= i < n)%Z /\ (0 <= k < m)%Z /\ X i = U k) ->
  forall j l, (0 <= j < n' - 1)%Z -> (0 <= l < m' - 1)%Z -> ~ (Y j < V l /\ V (l + 1)%Z < Y (j + 1)%Z).

(** Length of the common part of [a, b] and [c, d]. *)
Definition common (a b c d : R) : R := Rmax 0 (Rmin b d - Rmax a c).
