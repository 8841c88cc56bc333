(** Specification vocabulary: two-dimensional arrays stored row by row. *)
From Coq Require Import ZArith List.
Open Scope Z_scope.

(** [a] holds the values f i j, 0 <= i < n0, 0 <= j < n1, the last index fastest. *)
Definition stores {A} (n0 n1 : Z) (f : Z -> Z -> A) (a : list A) : Prop :=
  Z.of_nat (length a) = n0 * n1 /\
  forall i j, 0 <= i < n0 -> 0 <= j < n1 -> nth_error a (Z.to_nat (i * n1 + j)) = Some (f i j).
