(** Specification vocabulary: plane geometry over the reals, independent of the models. *)
From Coq Require Import List Reals.
Import ListNotations.
Open Scope R_scope.

Definition point := (R * R)%type.

(** Twice the signed area of the triangle a b c (positive: counter-clockwise). *)
Definition cr (a b c : point) : R :=
  (fst b - fst a) * (snd c - snd a) - (snd b - snd a) * (fst c - fst a).

Definition sqdist (a b : point) : R := (fst b - fst a) ^ 2 + (snd b - snd a) ^ 2.

(** Shoelace formula. *)
Definition det2 (p q : point) : R := fst p * snd q - fst q * snd p.
Fixpoint chain_sum (l : list point) : R :=
  match l with
  | p :: ((q :: _) as l') => det2 p q + chain_sum l'
  | _ => 0
  end.
Definition shoelace (l : list point) : R :=
  match l with [] => 0 | p :: _ => chain_sum (l ++ [p]) end.
Definition polygon_area (l : list point) : R := shoelace l / 2.

Definition origin : point := (0, 0).
Definition nthp (l : list point) (i : nat) : point := nth i l origin.

(** [P] lists points in weakly convex position counter-clockwise (three consecutive ones
    may be on a line). *)
Definition convex_ccw (P : list point) : Prop :=
  forall i j k, (i < j < k)%nat -> (k < length P)%nat -> 0 <= cr (nthp P i) (nthp P j) (nthp P k).

(** Not all points are on one line. *)
Definition not_flat (P : list point) : Prop :=
  exists i j k, (i < length P)%nat /\ (j < length P)%nat /\ (k < length P)%nat /\
    cr (nthp P i) (nthp P j) (nthp P k) <> 0.

(** Convex hull of a set of points: a convex polygon with vertices among the points that has
    every point on the left of (or on) each of its edges. *)
Definition is_hull (P pts : list point) : Prop :=
  convex_ccw P /\ NoDup P /\ incl P pts /\
  forall p, In p pts -> forall i, (i < length P)%nat ->
    0 <= cr (nthp P i) (nthp P (S i mod length P)) p.

(** Points differ by more than eps (squared distance), triangles are flat or larger than eps
    (twice the area). *)
Definition separated (eps : R) (P : list point) : Prop :=
  (forall a b, In a P -> In b P -> a = b \/ eps < sqdist a b) /\
  (forall a b c, In a P -> In b P -> In c P -> cr a b c = 0 \/ eps < Rabs (cr a b c)).
