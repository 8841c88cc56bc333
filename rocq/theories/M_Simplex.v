(** Model of cpp/SgLine.cpp, cpp/SgTriangle.cpp, cpp/SgTetrahedron.cpp and their headers. *)
From Coq Require Import ZArith List.
From Verif Require Import Base.
Import ListNotations.
Open Scope Z_scope.

Section Simplex.
Context {T : Type}.

(** cpp/SgTetrahedron.h:10-14, cpp/SgTriangle.h:10-13 (no faces), cpp/SgLine.h:10-12 (points only). *)
Record simplex := mkSimplex {
  sx_points : list (list T);
  sx_edges : list (list Z);
  sx_faces : list (list Z) }.

(** std::vector<double>(p, p + NDIMS_PHYS), NDIMS_PHYS = 3 (cpp/SgNdims.h:8). *)
Definition sx_copy (p : list T) : exec (list T) := mapM (vget p) (range 3).

(** cpp/SgLine.cpp:10-20. *)
Definition line_new (p0 p1 : list T) : exec simplex :=
  let! q0 := sx_copy p0 in let! q1 := sx_copy p1 in
  Ret (mkSimplex [q0; q1] [] []).

(** cpp/SgTriangle.cpp:10-30. *)
Definition triangle_new (p0 p1 p2 : list T) : exec simplex :=
  let! q0 := sx_copy p0 in let! q1 := sx_copy p1 in let! q2 := sx_copy p2 in
  Ret (mkSimplex [q0; q1; q2] [[0; 1]; [1; 2]; [2; 0]] []).

(** cpp/SgTetrahedron.cpp:10-47. *)
Definition tetrahedron_new (p0 p1 p2 p3 : list T) : exec simplex :=
  let! q0 := sx_copy p0 in let! q1 := sx_copy p1 in let! q2 := sx_copy p2 in let! q3 := sx_copy p3 in
  Ret (mkSimplex [q0; q1; q2; q3]
    [[0; 1]; [1; 2]; [2; 0]; [0; 3]; [1; 3]; [2; 3]]
    [[0; 1; 2]; [0; 3; 1]; [3; 1; 2]; [0; 2; 3]]).

(** cpp/SgTetrahedron.cpp:57-76, cpp/SgTriangle.cpp:40-52, cpp/SgLine.cpp:30-35: (int) size(). *)
Definition sx_getNumberOfPoints (s : simplex) : Z := to_int32 (Z.of_nat (length (sx_points s))).
Definition sx_getNumberOfEdges (s : simplex) : Z := to_int32 (Z.of_nat (length (sx_edges s))).
Definition sx_getNumberOfFaces (s : simplex) : Z := to_int32 (Z.of_nat (length (sx_faces s))).

(** cpp/SgTetrahedron.cpp:78-96, cpp/SgTriangle.cpp:54-65, cpp/SgLine.cpp:37-42: the address of the
    elements; the result is what can be read from there.  A negative index is converted to a very
    large size_t: out of bounds in any case. *)
Definition sx_getPoint (s : simplex) (i : Z) : exec (list T) := vget (sx_points s) i.
Definition sx_getEdge (s : simplex) (i : Z) : exec (list Z) := vget (sx_edges s) i.
Definition sx_getFace (s : simplex) (i : Z) : exec (list Z) := vget (sx_faces s) i.

End Simplex.
Arguments simplex : clear implicits.
