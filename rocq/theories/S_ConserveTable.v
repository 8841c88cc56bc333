(** Specification vocabulary: the overlap of two cells in terms of the tests of SgQuadIntersect, all
    of them evaluated anew, and the area given by SgTriangulate. *)
From Coq Require Import ZArith List Bool.
From Verif Require Import Base Num M_LinearSolve M_Triangulate M_Quad M_QuadIntersect.
Import ListNotations.

(** The row of the destination cell k in a table (empty: no row). *)
Fixpoint row_of {A} (m : list (Z * list A)) (k : Z) : list A :=
  match m with
  | [] => []
  | (k', v) :: m' => if (k =? k')%Z then v else row_of m' k
  end.

(** The cell numbers are ascending and above lo. *)
Fixpoint ascending {A} (lo : Z) (m : list (Z * A)) : Prop :=
  match m with
  | [] => True
  | e :: m' => (lo < fst e)%Z /\ ascending (fst e) m'
  end.

Section Table.
Context {T : Type} {N : Num T}.

(** Points collected for the quads a and b: for every edge of a its first node if it is in b, and for
    every edge of b its first node if it is in a and the crossing of the two edges. *)
Definition tested_points (g : gels T) (a b : quad T) : list (pt T) :=
  flat_map (fun e =>
      (if in_cell g (fst e) b then [fst e] else []) ++
      flat_map (fun f => (if in_cell g (fst f) a then [fst f] else []) ++ edge_edge g (fst e) (snd e) (fst f) (snd f)) (qedges b))
    (qedges a).

(** Area of the hull of points. *)
Definition area_of srt (junk : nat -> pt T) (pts : list (pt T)) : T := tr_hullArea (tr_new srt junk (length pts) pts).

Definition quad_nodes (q : quad T) : list (pt T) := [q0 q; q1 q; q2 q; q3 q].

(** The entry of the source cell src with quad b in the row of the destination quad a. *)
Definition entry_of srt (memd : nat -> pt T) (mem : Z -> nat -> pt T) (g : gels T) (a : quad T) (cell : Z -> quad T) (src : Z) : list (Z * T) :=
  let pts := tested_points g a (cell src) in
  if boxes_overlap a (cell src) && (3 <=? length pts)%nat
  then [(src, ndiv (area_of srt (mem src) pts) (area_of srt memd (quad_nodes a)))] else [].

(** The row for the source cells 0, ..., ns - 1. *)
Definition tested_row srt memd mem g a cell (ns : Z) : list (Z * T) :=
  flat_map (entry_of srt memd mem g a cell) (range ns).

(** The crossing of two edges, as tested, does not depend on the direction in which they are followed. *)
Definition direction_free (g : gels T) (a b c d : pt T) : Prop :=
  edge_edge g b a c d = edge_edge g a b c d /\ edge_edge g a b d c = edge_edge g a b c d /\
  edge_edge g b a d c = edge_edge g a b c d.

(** Sum of weight times value. *)
Fixpoint weighted (acc : T) (es : list (Z * T)) (f : Z -> T) : T :=
  match es with
  | [] => acc
  | (c, w) :: es' => weighted (nadd acc (nmul w (f c))) es' f
  end.

End Table.
