(** Model of cpp/SgQuadLineIntersect.h (struct SgQuadLineIntersect_type) and
    cpp/SgQuadLineFlows.h (struct SgQuadLineFlows_type). *)
From Coq Require Import ZArith List Bool.
From Verif Require Import Base Num M_LinearSolve M_FindPoint M_Triangulate M_Quad.
Import ListNotations.

Section QuadLine.
Context {T : Type} {N : Num T}.
Local Open Scope num_scope.

(** ** Intersection of a quad and a segment *)

(** cpp/SgQuadLineIntersect.h:18-47: pointers (None: NULL), parameters and points.  The boxes are
    functions of the arrays at the time they are set; simplified: the arrays behind the
    pointers keep their values until used. *)
Record ql := mkQl {
  ql_quad : option (quad T);
  ql_line : option (pt T * pt T);
  ql_lambdas : list T;
  ql_points : list (pt T) }.

(** cpp/SgQuadLineIntersect.h:52-62. *)
Definition ql_tol : T := nofZ 100 * neps.
Definition ql_new : ql := mkQl None None [] [].

(** cpp/SgQuadLineIntersect.h:64-66 (not reachable through the C interface). *)
Definition ql_reset (s : ql) : ql := mkQl (ql_quad s) (ql_line s) [] (ql_points s).

(** cpp/SgQuadLineIntersect.h:188-203 and 209-228. *)
Definition ql_setQuadPoints (s : ql) (q : quad T) : ql := mkQl (Some q) (ql_line s) (ql_lambdas s) (ql_points s).
Definition ql_setLinePoints (s : ql) (l : pt T * pt T) : ql := mkQl (ql_quad s) (Some l) (ql_lambdas s) (ql_points s).

(** cpp/SgQuadLineIntersect.h:72-81 with the boxes of lines 194-202 and 215-227. *)
Definition quad_line_overlap (q : quad T) (l : pt T * pt T) : bool :=
  let lmin (x : pt T -> T) := smin (x (snd l)) (x (fst l)) in
  let lmax (x : pt T -> T) := smax (x (snd l)) (x (fst l)) in
  (smin (qmax fst q) (lmax fst) >=? smax (qmin fst q) (lmin fst)) &&
  (smin (qmax snd q) (lmax snd) >=? smax (qmin snd q) (lmin snd)).

(** The boxes are not initialised before both setters were called. *)
Definition ql_checkIfOverlap (s : ql) : exec bool :=
  match ql_quad s, ql_line s with
  | Some q, Some l => Ret (quad_line_overlap q l)
  | _, _ => Undef OutOfBounds
  end.

(** cpp/SgQuadLineIntersect.h:153-182: the parameter added, if any. *)
Definition edge_line (g : gels T) (a b c d : pt T) : list T :=
  let '(ier, (xi, eta)) := solve2 g (fst b - fst a) (fst c - fst d) (snd b - snd a) (snd c - snd d)
                             (fst c - fst a) (snd c - snd a) in
  if (0 <? ier)%Z then []
  else if (xi >=? - ql_tol) && (xi <? n1 + ql_tol) && (eta >=? - ql_tol) && (eta <? n1 + ql_tol)
  then [eta] else [].

(** cpp/SgQuadLineIntersect.h:239-262: the parameters added for a quad and a segment. *)
Definition line_lambdas (g : gels T) (q : quad T) (l : pt T * pt T) : list T :=
  (if quad_inside ql_tol g (fst l) q then [n0] else []) ++
  flat_map (fun e => edge_line g (fst e) (snd e) (fst l) (snd l)) (qedges q) ++
  (if quad_inside ql_tol g (snd l) q then [n1] else []).

(** cpp/SgQuadLineIntersect.h:235-289.  [srt] is std::sort; the number of points returned is the
    length of the list. *)
Definition ql_collect (srt : (T -> T -> bool) -> list T -> list T) (g : gels T) (s : ql) : exec (list (pt T) * ql) :=
  match ql_quad s, ql_line s with
  | Some q, Some l =>
      let lams := srt nlt (ql_lambdas s ++ line_lambdas g q l) in
      let pts := map (fun t => along (fst l) (snd l) t) lams in
      Ret (pts, mkQl (ql_quad s) (ql_line s) lams pts)
  | _, _ => Undef OutOfBounds
  end.

(** ** Projections of the edge basis functions on a segment *)

(** cpp/SgQuadLineFlows.h:24-38.  [qf_proj] None: not initialised. *)
Record qf := mkQf {
  qf_line : option (pt T * pt T);
  qf_proj : option (T * T * T * T);
  qf_finder : fp (T:=T);
  qf_xia : list T;
  qf_xib : list T }.

(** cpp/SgQuadLineFlows.h:43-55. *)
Definition qf_new : qf := mkQf None None (fp_new 10 (lit 1 10000000000)) [n0; n0] [n0; n0].

(** cpp/SgQuadLineFlows.h:76-81: nodes 0, 3, 1, 2 become the nodes (0,0), (0,1), (1,0), (1,1)
    of a 2 x 2 grid. *)
Definition quad_grid (q : quad T) : list (list T) :=
  [[fst (q0 q); fst (q3 q); fst (q1 q); fst (q2 q)]; [snd (q0 q); snd (q3 q); snd (q1 q); snd (q2 q)]].

(** cpp/SgQuadLineFlows.h:70-86. *)
Definition qf_setQuadPoints (s : qf) (q : quad T) : exec qf :=
  let! f := fp_setGrid (qf_finder s) [2; 2]%Z [0; 0]%Z (quad_grid q) in
  Ret (mkQf (qf_line s) (qf_proj s) f (qf_xia s) (qf_xib s)).

(** cpp/SgQuadLineFlows.h:92-94. *)
Definition qf_setLinePoints (s : qf) (l : pt T * pt T) : qf :=
  mkQf (Some l) (qf_proj s) (qf_finder s) (qf_xia s) (qf_xib s).

(** cpp/SgQuadLineFlows.h:150-156 and 164-170: one search. *)
Definition qf_find (g : gels T) (f : fp (T:=T)) (p : pt T) : exec (Z * list T * fp (T:=T)) :=
  let! f1 := fp_reset f [nhalf; nhalf] [fst p; snd p] in
  let! r := fp_search g f1 in
  Ret (fst r, fp_dIndices (snd r), snd r).

(** cpp/SgQuadLineFlows.h:137-177. *)
Definition qf_indices (g : gels T) (s : qf) : exec (Z * qf) :=
  match qf_line s with
  | None => Ret ((-1)%Z, s)
  | Some l =>
      let! ra := qf_find g (qf_finder s) (fst l) in
      let '(enda, xia, f1) := ra in
      let! rb := qf_find g f1 (snd l) in
      let '(endb, xib, f2) := rb in
      let res := if (enda =? 1)%Z then 0%Z else 1%Z in
      let res := if (endb =? 1)%Z then res else 2%Z in
      Ret (res, mkQf (qf_line s) (qf_proj s) f2 xia xib)
  end.

(** cpp/SgQuadLineFlows.h:113-126. *)
Definition projections (x0a x1a x0b x1b : T) : T * T * T * T :=
  let x0abMid := nhalf * (x0a + x0b) in
  let x1abMid := nhalf * (x1a + x1b) in
  let x0abDiff := x0b - x0a in
  let x1abDiff := x1b - x1a in
  (x0abDiff * (n1 - x1abMid), x0abDiff * x1abMid, x1abDiff * (n1 - x0abMid), x1abDiff * x0abMid).

(** cpp/SgQuadLineFlows.h:109-129. *)
Definition qf_computeProjections (g : gels T) (s : qf) : exec (Z * qf) :=
  let! r := qf_indices g s in
  let '(res, s1) := r in
  let! x0a := vget (qf_xia s1) 0%Z in
  let! x1a := vget (qf_xia s1) 1%Z in
  let! x0b := vget (qf_xib s1) 0%Z in
  let! x1b := vget (qf_xib s1) 1%Z in
  Ret (res, mkQf (qf_line s1) (Some (projections x0a x1a x0b x1b)) (qf_finder s1) (qf_xia s1) (qf_xib s1)).

(** cpp/SgQuadLineFlows.h:102-104. *)
Definition qf_getProjection (s : qf) (edge : Z) : exec T :=
  match qf_proj s with
  | None => Undef OutOfBounds
  | Some (a, b, c, d) => vget [a; b; c; d] edge
  end.

End QuadLine.
Arguments ql : clear implicits.
Arguments qf : clear implicits.
