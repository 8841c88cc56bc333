(** Specification vocabulary for quads: convex combinations, over the reals. *)
From Coq Require Import List Reals.
From Verif Require Import S_Geometry.
Import ListNotations.
Open Scope R_scope.

(** Sum of w_i x_i. *)
Fixpoint wsum (w x : list R) : R :=
  match w, x with
  | a :: w', b :: x' => a * b + wsum w' x'
  | _, _ => 0
  end.

(** [p] is an affine combination of the points [V] with weights not below -tol. *)
Definition combination (tol : R) (V : list point) (p : point) : Prop :=
  exists w, length w = length V /\ Forall (fun x => - tol <= x) w /\
    wsum w (map (fun _ => 1) V) = 1 /\ fst p = wsum w (map fst V) /\ snd p = wsum w (map snd V).

(** Convex hull. *)
Definition in_hull (V : list point) (p : point) : Prop := combination 0 V p.

(** The point at parameter t of the segment from a to b. *)
Definition on_seg (a b : point) (t : R) : point :=
  (fst a + t * (fst b - fst a), snd a + t * (snd b - snd a)).

(** Four nodes of a strictly convex quad, counter-clockwise or clockwise. *)
Definition convex4 (a b c d : point) : Prop :=
  (0 < cr a b c /\ 0 < cr b c d /\ 0 < cr c d a /\ 0 < cr d a b) \/
  (cr a b c < 0 /\ cr b c d < 0 /\ cr c d a < 0 /\ cr d a b < 0).

(** Determinant of the directions of the segments a b and c d (0: parallel). *)
Definition turn (a b c d : point) : R :=
  (fst b - fst a) * (snd d - snd c) - (snd b - snd a) * (fst d - fst c).

(** When the segments a b and c d meet at inner points of both then the parameters of the
    meeting point are further than tol from 0 and 1. *)
Definition clear_crossing (tol : R) (a b c d : point) : Prop :=
  forall s t, on_seg a b s = on_seg c d t -> turn a b c d <> 0 -> 0 < s < 1 -> 0 < t < 1 ->
    tol < s <= 1 - tol /\ tol < t <= 1 - tol.
