(** Model of cpp/SgFindOverlappingCells2D.h (struct SgFindOverlappingCells2D_type) and
    cpp/SgFindOverlappingCells2D.cpp. *)
From Coq Require Import ZArith List Bool.
From Verif Require Import Base Num M_LinearSolve M_BoxIterator M_FindPoint.
Import ListNotations.
Open Scope Z_scope.

Section FindOverlap.
Context {T : Type} {N : Num T}.
Local Open Scope num_scope.

(** cpp/SgFindOverlappingCells2D.h:14-43.  The member srcCoords is never used.  The corners
    loIndxCorner and hiIndxCorner are written by findFloatIndexBoxOfPolygon before they are
    read and no function gives them out: they are results of that function here.
    numPolyPoints is None until setPolygonPoints: it is not initialised. *)
Record fo := mkFo {
  fo_nodeDims : list Z;
  fo_prodDims : list Z;
  fo_cells : list Z;
  fo_finder : fp (T:=T);
  fo_points : list T;
  fo_numPoints : option Z }.

(** cpp/SgFindOverlappingCells2D.h:48-57: the search object with nitermax = 100, tolpos = 1.e-6. *)
Definition fo_new : fo := mkFo [] [] [] (fp_new 100 (lit 1 (10 ^ 6))) [] None.

(** cpp/SgFindOverlappingCells2D.h:72-84.  The two dimensions are arguments. *)
Definition fo_setSrcGrid (s : fo) (d0 d1 : Z) (per : list Z) (coords : list (list T)) : exec fo :=
  let! p := chk (1 * d1)%Z in
  let! f := fp_setGrid (fo_finder s) [d0; d1] per coords in
  Ret (mkFo [d0; d1] [p; 1%Z] (fo_cells s) f (fo_points s) (fo_numPoints s)).

(** cpp/SgFindOverlappingCells2D.h:91-99.  A negative number of points (a conversion to a very
    large size_t and an exception in resize) is [Undef]. *)
Definition fo_setPolygonPoints (s : fo) (n : Z) (coords : list T) : exec fo :=
  if (n <? 0)%Z then Undef OutOfBounds else
  let! pts := mapM (vget coords) (range (2 * n)) in
  Ret (mkFo (fo_nodeDims s) (fo_prodDims s) (fo_cells s) (fo_finder s) pts (Some n)).

(** cpp/SgFindOverlappingCells2D.h:107: the initial guess. *)
Definition fo_guess (d0 d1 : Z) : list T :=
  [nofZ d0 / lit 2123353 (10 ^ 6); nofZ d1 / lit 19647354 (10 ^ 7)].

(** cpp/SgFindOverlappingCells2D.h:150-161: one axis. *)
Definition fo_widen (m x : T) (b : T * T) : T * T :=
  let lo := if x <? fst b then x else fst b in
  let hi := if x >? snd b then x else snd b in
  (if lo >=? n0 then lo else n0, if hi <=? m then hi else m).

(** cpp/SgFindOverlappingCells2D.h:123-162: one point of the polygon. *)
Definition fo_point (g : gels T) (d0 d1 : Z) (m0 m1 : T) (pts : list T) (st : fp (T:=T) * ((T * T) * (T * T))) (i : Z)
  : exec (fp (T:=T) * ((T * T) * (T * T))) :=
  let! f := fp_reset (fst st) (fo_guess d0 d1) (skipn (Z.to_nat (i * 2)) pts) in
  let! r := fp_search g f in
  let! x := vget (fp_dIndices (snd r)) 0 in
  let! y := vget (fp_dIndices (snd r)) 1 in
  Ret (snd r, (fo_widen m0 x (fst (snd st)), fo_widen m1 y (snd (snd st)))).

(** cpp/SgFindOverlappingCells2D.h:104-166. *)
Definition fo_indexBox (g : gels T) (s : fo) : exec (fp (T:=T) * ((T * T) * (T * T))) :=
  let! d0 := vget (fo_nodeDims s) 0 in
  let! d1 := vget (fo_nodeDims s) 1 in
  let! e0 := chk (d0 - 1)%Z in
  let! e1 := chk (d1 - 1)%Z in
  match fo_numPoints s with
  | None => Undef OutOfBounds
  | Some n => foldM (fo_point g d0 d1 (nofZ e0) (nofZ e1) (fo_points s)) (range n)
                (fo_finder s, ((nofZ e0, n0), (nofZ e1, n0)))
  end.

(** ceil. *)
Definition nceil (x : T) : T := - nfloor (- x).

(** cpp/SgFindOverlappingCells2D.h:179-186: one axis.  eps is 0.01. *)
Definition fo_intBox (d : Z) (b : T * T) : exec (Z * Z) :=
  let! lo := to_int (nfloor (fst b)) in
  let! hi := to_int (nceil (snd b + lit 1 100)) in
  let! e := chk (d - 1)%Z in
  Ret ((if (0 <=? lo)%Z then lo else 0)%Z, (if (hi <? e)%Z then hi else e)).

(** cpp/SgFindOverlappingCells2D.h:194-202: number of one cell.  The products are of ints, the
    sum is a size_t that is stored in an int. *)
Definition fo_cellNumber (prods inds : list Z) : exec Z :=
  let! k := foldM (fun acc j =>
      let! p := vget prods j in let! x := vget inds j in
      let! t := chk (p * x)%Z in Ret (wrap64 (acc + t)))%Z [0; 1]%Z 0%Z in
  Ret (to_int32 k).

(** cpp/SgFindOverlappingCells2D.h:171-204. *)
Definition fo_findSrcCellIndices (g : gels T) (s : fo) : exec fo :=
  let! r := fo_indexBox g s in
  let! d0 := vget (fo_nodeDims s) 0 in
  let! d1 := vget (fo_nodeDims s) 1 in
  let! b0 := fo_intBox d0 (fst (snd r)) in
  let! b1 := fo_intBox d1 (snd (snd r)) in
  let! it := box_new [fst b0; fst b1] [snd b0; snd b1] in
  let! cells := mapM (fun i => let! v := box_getElement it i in fo_cellNumber (fo_prodDims s) v)
                  (range (box_getNumberOfElements it)) in
  Ret (mkFo (fo_nodeDims s) (fo_prodDims s) cells (fst r) (fo_points s) (fo_numPoints s)).

(** cpp/SgFindOverlappingCells2D.cpp:38-43. *)
Definition fo_getNumberOfSrcCellIndices (s : fo) : Z := to_int32 (Z.of_nat (length (fo_cells s))).

(** cpp/SgFindOverlappingCells2D.cpp:45-50: the address of the first element; undefined for an
    empty vector.  The result is what can be read from there. *)
Definition fo_getSrcCellIndices (s : fo) : exec (list Z) :=
  match fo_cells s with [] => Undef OutOfBounds | c => Ret c end.

End FindOverlap.
Arguments fo : clear implicits.
