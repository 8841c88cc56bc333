(** Specification vocabulary: pairs of cells for which the tolerances of the tests play no role. *)
From Coq Require Import List Reals.
From Verif Require Import S_Geometry S_Quad S_Area.
Import ListNotations.
Open Scope R_scope.

(** Sides of a polygon with four nodes. *)
Definition sides4 (V : list point) : list (point * point) :=
  match V with
  | [a; b; c; d] => [(a, b); (b, c); (c, d); (d, a)]
  | _ => []
  end.
Definition convex_nodes (V : list point) : Prop :=
  match V with [a; b; c; d] => convex4 a b c d | _ => False end.

(** When two sides meet at inner points of both, the parameters of the meeting point are further
    than tol from 0 and 1. *)
Definition clear_of_ends (tol : R) (e f : point * point) : Prop :=
  forall s t, on_seg (fst e) (snd e) s = on_seg (fst f) (snd f) t -> turn (fst e) (snd e) (fst f) (snd f) <> 0 ->
    0 < s < 1 -> 0 < t < 1 -> tol < s < 1 - tol /\ tol < t < 1 - tol.

(** V: nodes of the destination cell, W: nodes of the source cell.
    - both are strictly convex;
    - a node outside the other cell is further from it than the tolerance of the test;
    - sides cross clearly;
    - the corners of the common part are not too close;
    - when the cells only touch along a segment, its ends are not both nodes of the source cell only
      (this is where the interpolation fails, see C38_touching_refuted). *)
Record regular_pair (tol eps : R) (V W : list point) : Prop := {
  rp_dst : convex_nodes V;
  rp_src : convex_nodes W;
  rp_in_src : forall p, In p V -> combination tol W p -> in_hull W p;
  rp_in_dst : forall p, In p W -> combination tol V p -> in_hull V p;
  rp_cross : forall e f, In e (sides4 V) -> In f (sides4 W) -> clear_of_ends tol e f;
  rp_apart : forall p q, corner (overlap V W) p -> corner (overlap V W) q -> p = q \/ eps < sqdist p q;
  rp_area : forall p q r, corner (overlap V W) p -> corner (overlap V W) q -> corner (overlap V W) r -> cr p q r = 0 \/ eps < Rabs (cr p q r);
  rp_touch : flat (overlap V W) -> forall p q, corner (overlap V W) p -> corner (overlap V W) q -> p <> q ->
    In p W -> In q W -> In p V \/ In q V }.

(** No two sides cross exactly at distance tol (in the parameter) from an end. *)
Definition off_tolerance (tol : R) (e f : point * point) : Prop :=
  forall s t, on_seg (fst e) (snd e) s = on_seg (fst f) (snd f) t -> turn (fst e) (snd e) (fst f) (snd f) <> 0 ->
    0 < s < 1 -> 0 < t < 1 -> s <> tol /\ s <> 1 - tol /\ t <> tol /\ t <> 1 - tol.
