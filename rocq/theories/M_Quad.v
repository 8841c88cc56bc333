(** What SgQuadIntersect.h, SgQuadLineIntersect.h and SgConserveInterp2D.h share:
    quads and 2 x 2 systems. *)
From Coq Require Import ZArith List Bool.
From Verif Require Import Base Num M_LinearSolve M_Triangulate.
Import ListNotations.

Section Quad.
Context {T : Type} {N : Num T}.
Local Open Scope num_scope.

(** const double quad[4*2]: the four nodes in the order of the array. *)
Record quad := mkQuad { q0 : pt T; q1 : pt T; q2 : pt T; q3 : pt T }.

(** &quad[i*NDIMS_2D_PHYS], i below 4. *)
Definition qn (q : quad) (i : nat) : pt T :=
  match i with 0%nat => q0 q | 1%nat => q1 q | 2%nat => q2 q | _ => q3 q end.

(** setMatrix(mat), setRightHandSide(rhs), solve(), getSolution() for a solver with two rows
    and columns (cpp/SgQuadIntersect.h:95-108, 184-199 and the same code in cpp/SgQuadLineIntersect.h).
    Simplified: the solver object is taken fresh at each call instead of being kept; the
    result does not depend on what was solved before (C05_solve_history_independent). *)
Definition solve2 (g : gels T) (a00 a01 a10 a11 b0 b1 : T) : Z * (T * T) :=
  match ls_run g (ls_new 2 2) [a00; a01; a10; a11] [b0; b1] with
  | Ret (info, s) => (info, (nth 0 (ls_getSolution s) n0, nth 1 (ls_getSolution s) n0))
  | Undef _ => (0%Z, (n0, n0))
  end.

(** A point on a segment: p + t * (q - p). *)
Definition along (p q : pt T) (t : T) : pt T :=
  (fst p + t * (fst q - fst p), snd p + t * (snd q - snd p)).

(** checkIfPointIsInsideTriangle, cpp/SgQuadIntersect.h:89-114 and cpp/SgQuadLineIntersect.h:91-116
    (the same code with different tolerances). *)
Definition tri_inside (tol : T) (g : gels T) (p a b c : pt T) : bool :=
  let '(ier, (xi, eta)) := solve2 g (fst b - fst a) (fst c - fst a) (snd b - snd a) (snd c - snd a)
                             (fst p - fst a) (snd p - snd a) in
  if (0 <? ier)%Z then false
  else (xi >? - tol) && (xi <=? n1 + tol) && (eta >? - tol) && (xi + eta <=? n1 + tol).

(** isPointInCell, cpp/SgQuadIntersect.h:139-151, and isPointInQuad, cpp/SgQuadLineIntersect.h:131-143. *)
Definition quad_inside (tol : T) (g : gels T) (p : pt T) (q : quad) : bool :=
  tri_inside tol g p (q0 q) (q1 q) (q3 q) || tri_inside tol g p (q2 q) (q3 q) (q1 q).

(** The edges of a quad: nodes i and (i + 1) % 4. *)
Definition qedges (q : quad) : list (pt T * pt T) :=
  [(q0 q, q1 q); (q1 q, q2 q); (q2 q, q3 q); (q3 q, q0 q)].

(** Minimum and maximum of one coordinate over the nodes, cpp/SgQuadIntersect.h:63-73 and
    cpp/SgQuadLineIntersect.h:194-202.  The loops start from infinities; std::min(c, +inf)
    and std::max(c, -inf) are c for c not NaN. *)
Definition qmin (x : pt T -> T) (q : quad) : T :=
  smin (x (q3 q)) (smin (x (q2 q)) (smin (x (q1 q)) (x (q0 q)))).
Definition qmax (x : pt T -> T) (q : quad) : T :=
  smax (x (q3 q)) (smax (x (q2 q)) (smax (x (q1 q)) (x (q0 q)))).

End Quad.
Arguments quad : clear implicits.
