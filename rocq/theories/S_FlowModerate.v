(** Specification vocabulary: rectilinear grids of moderate size and segments clear of their lines. *)
From Coq Require Import ZArith List Reals.
From Verif Require Import S_Geometry S_Quad S_Flow.
Open Scope R_scope.

(** The first d numbers are within 4 of zero and at least 1/8 apart. *)
Definition moderate_axis (d : Z) (X : Z -> R) : Prop :=
  (forall i, (0 <= i < d)%Z -> Rabs (X i) <= 4) /\ (forall i, (0 <= i < d - 1)%Z -> / 8 <= X (i + 1)%Z - X i).

(** The segment from A to B is in the grid, changes both coordinates by at least 1/1024, its ends are at least 1/1024 from
    the grid lines, and where it crosses a grid line it is at least 1/1024 from the lines of the other family. *)
Definition clear_segment (d0 d1 : Z) (X Y : Z -> R) (A B : point) : Prop :=
  (forall p, p = A \/ p = B -> (X 0%Z <= fst p <= X (d0 - 1)%Z /\ Y 0%Z <= snd p <= Y (d1 - 1)%Z) /\
     (forall i, (0 <= i < d0)%Z -> / 1024 <= Rabs (fst p - X i)) /\ (forall j, (0 <= j < d1)%Z -> / 1024 <= Rabs (snd p - Y j))) /\
  / 1024 <= Rabs (fst A - fst B) /\ / 1024 <= Rabs (snd A - snd B) /\
  (forall i j t, (0 <= i < d0)%Z -> (0 <= j < d1)%Z -> 0 < t < 1 -> fst (on_seg A B t) = X i -> / 1024 <= Rabs (snd (on_seg A B t) - Y j)) /\
  (forall i j t, (0 <= i < d0)%Z -> (0 <= j < d1)%Z -> 0 < t < 1 -> snd (on_seg A B t) = Y j -> / 1024 <= Rabs (fst (on_seg A B t) - X i)).
