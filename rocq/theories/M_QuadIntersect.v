(** Model of cpp/SgQuadIntersect.h (struct SgQuadIntersect_type) and SgQuadIntersect.cpp. *)
From Coq Require Import ZArith List Bool.
From Verif Require Import Base Num M_LinearSolve M_Triangulate M_Quad.
Import ListNotations.

Section QuadIntersect.
Context {T : Type} {N : Num T}.
Local Open Scope num_scope.

(** cpp/SgQuadIntersect.h:17-37: the quads (None: the pointers are NULL) and the points
    collected.  The arrays mat and rhs are filled before each use.  Simplified: the arrays behind the pointers
    keep their values until used. *)
Record qi := mkQi { qi_quads : option (quad T * quad T); qi_points : list (pt T) }.

(** cpp/SgQuadIntersect.h:40-49. *)
Definition qi_tol : T := lit 1 1000000000000.
Definition qi_new : qi := mkQi None [].

(** cpp/SgQuadIntersect.h:51-53 (not reachable through the functions of SgQuadIntersect.cpp). *)
Definition qi_reset (s : qi) : qi := mkQi (qi_quads s) [].

(** cpp/SgQuadIntersect.h:214-217. *)
Definition qi_setQuadPoints (s : qi) (a b : quad T) : qi := mkQi (Some (a, b)) (qi_points s).

(** cpp/SgQuadIntersect.h:59-79. *)
Definition boxes_overlap (a b : quad T) : bool :=
  (smin (qmax fst a) (qmax fst b) >=? smax (qmin fst a) (qmin fst b)) &&
  (smin (qmax snd a) (qmax snd b) >=? smax (qmin snd a) (qmin snd b)).

(** cpp/SgQuadIntersect.h:139-151. *)
Definition in_cell (g : gels T) (p : pt T) (q : quad T) : bool := quad_inside qi_tol g p q.

(** cpp/SgQuadIntersect.h:158-167. *)
Definition nodes_inside (g : gels T) (nodes q : quad T) : list (pt T) :=
  filter (fun p => in_cell g p q) [q0 nodes; q1 nodes; q2 nodes; q3 nodes].

(** cpp/SgQuadIntersect.h:178-212: the point added, if any. *)
Definition edge_edge (g : gels T) (a b c d : pt T) : list (pt T) :=
  let '(ier, (xi, eta)) := solve2 g (fst b - fst a) (fst c - fst d) (snd b - snd a) (snd c - snd d)
                             (fst c - fst a) (snd c - snd a) in
  if (0 <? ier)%Z then []
  else if (xi >? qi_tol) && (xi <=? n1 - qi_tol) && (eta >? qi_tol) && (eta <=? n1 - qi_tol)
  then [along a b xi] else [].

(** cpp/SgQuadIntersect.h:229-251: the points added for two quads. *)
Definition quad_points (g : gels T) (a b : quad T) : list (pt T) :=
  nodes_inside g a b ++ nodes_inside g b a ++
  flat_map (fun e1 => flat_map (fun e2 => edge_edge g (fst e1) (snd e1) (fst e2) (snd e2)) (qedges b)) (qedges a).

(** cpp/SgQuadIntersect.h:225-259: what is returned is the whole collection. *)
Definition qi_collect (g : gels T) (s : qi) : exec (list (pt T) * qi) :=
  match qi_quads s with
  | None => Undef OutOfBounds
  | Some (a, b) =>
      let pts := qi_points s ++ quad_points g a b in
      Ret (pts, mkQi (qi_quads s) pts)
  end.

End QuadIntersect.
Arguments qi : clear implicits.
