(** Specification vocabulary: what a cell contributes to the flux through a segment, in terms of
    the objects SgQuadLineIntersect and SgQuadLineFlows. *)
From Coq Require Import ZArith List Bool.
From Verif Require Import Base Num M_LinearSolve M_FindPoint M_Triangulate M_Quad M_QuadLine.
Import ListNotations.

Section Table.
Context {T : Type} {N : Num T}.
Variable srt : (T -> T -> bool) -> list T -> list T.
Variable g : gels T.

(** Projections of the pieces of a polyline, asked for one after the other on the same object and
    added to w; the result is w'. *)
Inductive summed : qf T -> list (pt T) -> list T -> list T -> Prop :=
| summed_one : forall o p w, summed o [p] w w
| summed_cons : forall o o' code a b ps w0 w1 w2 w3 v0 v1 v2 v3 w',
    qf_computeProjections g (qf_setLinePoints o (a, b)) = Ret (code, o') ->
    qf_getProjection o' 0 = Ret v0 -> qf_getProjection o' 1 = Ret v1 ->
    qf_getProjection o' 2 = Ret v2 -> qf_getProjection o' 3 = Ret v3 ->
    summed o' (b :: ps) [nadd w0 v0; nadd w1 v1; nadd w2 v2; nadd w3 v3] w' ->
    summed o (a :: b :: ps) [w0; w1; w2; w3] w'.

(** The points a new SgQuadLineIntersect object reports for the quad and the segment. *)
Definition reported (q : quad T) (l : pt T * pt T) (pts : list (pt T)) : Prop :=
  exists s, ql_collect srt g (ql_setQuadPoints (ql_setLinePoints ql_new l) q) = Ret (pts, s).

(** Whether it reports that the boxes overlap. *)
Definition may_overlap (q : quad T) (l : pt T * pt T) (b : bool) : Prop :=
  ql_checkIfOverlap (ql_setQuadPoints (ql_setLinePoints ql_new l) q) = Ret b.

(** The cell contributes the edge weights w (computed with some SgQuadLineFlows object set to the
    cell), or nothing. *)
Definition cell_adds (q : quad T) (l : pt T * pt T) (w : list T) : Prop :=
  may_overlap q l true /\ exists pts o o', reported q l pts /\ (2 <= length pts)%nat /\
  qf_setQuadPoints o q = Ret o' /\ summed o' pts [n0; n0; n0; n0] w.
Definition cell_skips (q : quad T) (l : pt T * pt T) : Prop :=
  may_overlap q l false \/ exists pts, reported q l pts /\ (length pts < 2)%nat.

(** The contributions of the cells cs, in this order. *)
Inductive contributions (cell : Z -> quad T) (l : pt T * pt T) : list Z -> list (Z * list T) -> Prop :=
| contributions_nil : contributions cell l [] []
| contributions_skip : forall c cs es, cell_skips (cell c) l -> contributions cell l cs es -> contributions cell l (c :: cs) es
| contributions_add : forall c cs es w, cell_adds (cell c) l w -> contributions cell l cs es ->
    contributions cell l (c :: cs) ((c, w) :: es).

(** Flux of contributions on a grid with d1 - 1 cells in the second direction: the four weights of
    cell c = (d1 - 1) i + j belong to the edges low and high in the first direction (h0), at (i, j) and
    (i, j + 1), and in the second direction (h1), at (i, j) and (i + 1, j). *)
Fixpoint edge_sum (d1 : Z) (h0 h1 : Z -> Z -> T) (acc : T) (es : list (Z * list T)) : T :=
  match es with
  | [] => acc
  | (c, w) :: es' =>
      let i := (c / (d1 - 1))%Z in let j := (c mod (d1 - 1))%Z in
      edge_sum d1 h0 h1
        (nadd (nadd (nadd (nadd acc (nmul (nth 0 w n0) (h0 i j))) (nmul (nth 1 w n0) (h0 i (j + 1)%Z)))
          (nmul (nth 2 w n0) (h1 i j))) (nmul (nth 3 w n0) (h1 (i + 1)%Z j))) es'
  end.

End Table.
