(** Specification vocabulary: the area of a plane set as the integral of the lengths of its
    vertical slices. *)
From Coq Require Import List Reals.
From Coquelicot Require Import Coquelicot.
From Verif Require Import S_Geometry S_Quad.
Import ListNotations.
Open Scope R_scope.

(** The points of K above x form an interval of length len, or there are none and len is 0. *)
Definition slice_length (K : point -> Prop) (x len : R) : Prop :=
  (len = 0 /\ forall y, ~ K (x, y)) \/
  exists lo hi, lo <= hi /\ len = hi - lo /\ forall y, K (x, y) <-> lo <= y <= hi.

(** K has area r: it is above an interval [a, b], f x is the length of the slice at x for all x but
    finitely many, and r is the integral of f. *)
Definition has_area (K : point -> Prop) (r : R) : Prop :=
  exists (E : list R) (f : R -> R) (a b : R), a <= b /\ (forall p, K p -> a <= fst p <= b) /\
    (forall x, In x E \/ slice_length K x (f x)) /\ is_RInt f a b r.

(** The set is on a line. *)
Definition flat (K : point -> Prop) : Prop := forall p q r, K p -> K q -> K r -> cr p q r = 0.

(** Common part of two convex sets given by nodes. *)
Definition overlap (V W : list point) (p : point) : Prop := in_hull V p /\ in_hull W p.

(** p is a corner of K: not inside a segment of K. *)
Definition corner (K : point -> Prop) (p : point) : Prop :=
  K p /\ forall q r t, K q -> K r -> 0 < t < 1 -> p = on_seg q r t -> q = r.

(** All triangles are counter-clockwise. *)
Definition strict_ccw (P : list point) : Prop :=
  forall i j k, (i < j < k)%nat -> (k < length P)%nat -> 0 < cr (nthp P i) (nthp P j) (nthp P k).
