(** Specification vocabulary for structured grids, independent of the model. *)
From Coq Require Import ZArith List Reals.
Import ListNotations.
Open Scope Z_scope.

(** Number of nodes. *)
Fixpoint grid_size (dims : list Z) : Z :=
  match dims with [] => 1 | d :: ds => d * grid_size ds end.

(** Row-major (last index fastest) position of node [v]. *)
Fixpoint flat (dims v : list Z) : Z :=
  match dims, v with
  | _ :: ds, x :: vs => x * grid_size ds + flat ds vs
  | _, _ => 0
  end.

(** [v] is a node of the grid. *)
Definition is_node (dims v : list Z) : Prop := Forall2 (fun d x => 0 <= x < d) dims v.

(** Sizes handled: at least two nodes along each axis, the number of nodes is an [int]. *)
Definition grid_ok (dims : list Z) : Prop :=
  Forall (fun d => 2 <= d) dims /\ grid_size dims <= 2 ^ 31 - 1.

(** Real index position inside the grid. *)
Definition in_grid (dims : list Z) (xs : list R) : Prop :=
  Forall2 (fun d x => (0 <= x <= IZR (d - 1))%R) dims xs.

(** [v] is a corner of the unit cell with low corner [c]. *)
Definition is_corner (c v : list Z) : Prop := Forall2 (fun a x => x = a \/ x = a + 1) c v.

(** [c] is the low corner of a cell of the grid that holds the position [xs]. *)
Definition is_cell (dims c : list Z) (xs : list R) : Prop :=
  Forall2 (fun d a => 0 <= a <= d - 2) dims c /\
  Forall2 (fun a x => (IZR a <= x <= IZR a + 1)%R) c xs.

(** Tensor product hat function of node [v] at [xs]. *)
Fixpoint hat (xs : list R) (v : list Z) : R :=
  match xs, v with
  | x :: xs', a :: v' => ((1 - Rabs (x - IZR a)) * hat xs' v')%R
  | _, _ => 1%R
  end.

(** Sum of a list. *)
Fixpoint lsum (l : list R) : R :=
  match l with [] => 0%R | x :: l' => (x + lsum l')%R end.

(** a_1 x_1 + a_2 x_2 + ... *)
Fixpoint dot (a x : list R) : R :=
  match a, x with
  | p :: a', q :: x' => (p * q + dot a' x')%R
  | _, _ => 0%R
  end.
