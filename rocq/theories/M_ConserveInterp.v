(** Model of cpp/SgConserveInterp2D.h (struct SgConserveInterp2D_type). *)
From Coq Require Import ZArith List Bool.
From Verif Require Import Base Num M_LinearSolve M_Triangulate M_Quad M_QuadIntersect.
Import ListNotations.

(** std::map::insert for size_t keys: association lists in ascending order of the keys; an
    entry present is kept. *)
Fixpoint map_insert {A} (m : list (Z * A)) (k : Z) (v : A) : list (Z * A) :=
  match m with
  | [] => [(k, v)]
  | (k', v') :: m' =>
      if (k =? k')%Z then m
      else if (k <? k')%Z then (k, v) :: m
      else (k', v') :: map_insert m' k v
  end.

(** The maps and sets local to computeWeights, keyed by vectors of two indices or pairs of such
    vectors.  They are only searched and inserted into (after a failed search), so the order
    of the entries is not represented. *)
Definition key2 := (Z * Z)%type.
Definition key4 := (key2 * key2)%type.
Definition eqb2 (a b : key2) : bool := (fst a =? fst b)%Z && (snd a =? snd b)%Z.
Definition eqb4 (a b : key4) : bool := eqb2 (fst a) (fst b) && eqb2 (snd a) (snd b).
Fixpoint lookup {K A} (eqb : K -> K -> bool) (m : list (K * A)) (k : K) : option A :=
  match m with
  | [] => None
  | (k', a) :: m' => if eqb k k' then Some a else lookup eqb m' k
  end.

(** std::sort of a vector of two indices, cpp/SgConserveInterp2D.h:217, 251. *)
Definition sort2 (a b : Z) : key2 := if (b <? a)%Z then (b, a) else (a, b).

Section ConserveInterp.
Context {T : Type} {N : Num T}.
Local Open Scope num_scope.

(** One of the two grids, cpp/SgConserveInterp2D.h:20-38: number of cells, dimensions of the
    cell array, products of the dimensions (cells and nodes) and the node coordinates.
    The numbers of points and of nodes in each direction are not used after the set functions. *)
Record grid := mkGrid {
  g_numCells : Z;
  g_cellDims : Z * Z;
  g_cellProd : Z * Z;
  g_nodeProd : Z * Z;
  g_coords : list (pt T) }.

(** cpp/SgConserveInterp2D.h:20-45.  The grids are None before they are set (numbers not
    initialised).  The iterators are a position in the map and one in the vector of that entry;
    None: not pointing to an entry.  The periodicity is stored but never used. *)
Record ci := mkCi {
  ci_dst : option grid;
  ci_src : option grid;
  ci_weights : list (Z * list (Z * T));
  ci_it : option (nat * nat) }.

(** An object with the members of a new one, before the body of the constructor. *)
Definition ci_blank : ci := mkCi None None [] None.

(** cpp/SgConserveInterp2D.h:336-339. *)
Definition ci_reset (s : ci) : exec ci :=
  match ci_weights s with
  | [] => Undef EndDeref
  | _ :: _ => Ret (mkCi (ci_dst s) (ci_src s) (ci_weights s) (Some (0, 0)%nat))
  end.

(** cpp/SgConserveInterp2D.h:50-52. *)
Definition ci_new : exec ci := ci_reset ci_blank.

(** cpp/SgConserveInterp2D.h:65-91 and 98-128 (the same computations). *)
Definition ci_grid (d0 d1 : Z) (coords : list (list T)) : exec grid :=
  let! c0 := chk (d0 - 1)%Z in
  let! c1 := chk (d1 - 1)%Z in
  let npts := wrap64 (d0 * d1) in
  let get (k : Z) (i : Z) : exec T := let! c := vget coords k in vget c i in
  let! xs := mapM (get 0%Z) (range npts) in
  let! ys := mapM (get 1%Z) (range npts) in
  Ret (mkGrid (wrap64 (c0 * c1)) (c0, c1) (c1, 1%Z) (d1, 1%Z) (combine xs ys)).

(** cpp/SgConserveInterp2D.h:65-91. *)
Definition ci_setDstGrid (s : ci) (d0 d1 : Z) (coords : list (list T)) : exec ci :=
  let! g := ci_grid d0 d1 coords in
  Ret (mkCi (Some g) (ci_src s) (ci_weights s) (ci_it s)).

(** cpp/SgConserveInterp2D.h:98-128.  The periodicity is not used by the code. *)
Definition ci_setSrcGrid (s : ci) (d0 d1 : Z) (coords : list (list T)) : exec ci :=
  let! g := ci_grid d0 d1 coords in
  Ret (mkCi (ci_dst s) (Some g) (ci_weights s) (ci_it s)).

(** cpp/SgConserveInterp2D.h:135-148.  [dst] is the content of the output array. *)
Definition ci_apply (s : ci) (src dst : list T) : exec (list T) :=
  foldM (fun out (e : Z * list (Z * T)) =>
      let! out1 := vset out (fst e) n0 in
      let! v := foldM (fun acc (sw : Z * T) => let! x := vget src (fst sw) in Ret (acc + snd sw * x)) (snd e) n0 in
      vset out1 (fst e) v) (ci_weights s) dst.

(** size_t division and remainder. *)
Definition udiv (a b : Z) : exec Z := if (wrap64 b =? 0)%Z then Undef DivByZero else Ret (a / wrap64 b)%Z.
Definition umod (a b : Z) : exec Z := if (wrap64 b =? 0)%Z then Undef DivByZero else Ret (a mod wrap64 b)%Z.

(** cpp/SgConserveInterp2D.h:385-406 and 415-436, with the offsets of lines 173-176: the node
    indices and the coordinates of a cell. *)
Record cell := mkCell { c_inds : list Z; c_quad : quad T }.

(** cpp/SgConserveInterp2D.h:385-406 and 415-436 (the same computations). *)
Definition ci_cell (g : grid) (indx : Z) : exec cell :=
  let! a := udiv indx (fst (g_cellProd g)) in
  let! i := umod a (fst (g_cellDims g)) in
  let! b := udiv indx (snd (g_cellProd g)) in
  let! j := umod b (snd (g_cellDims g)) in
  let node (o0 o1 : Z) : Z :=
    wrap64 (fst (g_nodeProd g) * (i + o0) + snd (g_nodeProd g) * (j + o1)) in
  let! p0 := vget (g_coords g) (node 0 0)%Z in
  let! p1 := vget (g_coords g) (node 1 0)%Z in
  let! p2 := vget (g_coords g) (node 1 1)%Z in
  let! p3 := vget (g_coords g) (node 0 1)%Z in
  Ret (mkCell [node 0 0; node 1 0; node 1 1; node 0 1]%Z (mkQuad p0 p1 p2 p3)).

(** The edges of a cell: node indices and coordinates. *)
Definition cedge := (key2 * (pt T * pt T))%type.
Definition c_edges (c : cell) : list cedge :=
  match c_inds c with
  | [a; b; d; e] => combine [(a, b); (b, d); (d, e); (e, a)] (qedges (c_quad c))
  | _ => []
  end.

(** The caches, cpp/SgConserveInterp2D.h:156-166.  The points stored in the caches of nodes
    are not read. *)
Record cache := mkCache {
  ck_x : list (key4 * pt T);
  ck_nox : list (key4 * unit);
  ck_dst : list (key2 * pt T);
  ck_src : list (key2 * pt T) }.
Definition ck_empty : cache := mkCache [] [] [] [].

(** Caches and the points of the intersector. *)
Definition cst := (cache * list (pt T))%type.

(** cpp/SgConserveInterp2D.h:222-238. *)
Definition ci_dstNode (g : gels T) (src : Z) (sq : quad T) (st : cst) (e : cedge) : cst :=
  let '(k, pts) := st in
  let key := (fst (fst e), src) in
  let p := fst (snd e) in
  match lookup eqb2 (ck_dst k) key with
  | Some _ => (k, pts ++ [p])
  | None =>
      if in_cell g p sq then (mkCache (ck_x k) (ck_nox k) ((key, p) :: ck_dst k) (ck_src k), pts ++ [p])
      else st
  end.

(** cpp/SgConserveInterp2D.h:256-272. *)
Definition ci_srcNode (g : gels T) (dst : Z) (dq : quad T) (st : cst) (f : cedge) : cst :=
  let '(k, pts) := st in
  let key := (dst, fst (fst f)) in
  let p := fst (snd f) in
  match lookup eqb2 (ck_src k) key with
  | Some _ => (k, pts ++ [p])
  | None =>
      if in_cell g p dq then (mkCache (ck_x k) (ck_nox k) (ck_dst k) ((key, p) :: ck_src k), pts ++ [p])
      else st
  end.

(** cpp/SgConserveInterp2D.h:274-302. *)
Definition ci_edgePair (g : gels T) (e : cedge) (st : cst) (f : cedge) : cst :=
  let '(k, pts) := st in
  let key := (sort2 (fst (fst e)) (snd (fst e)), sort2 (fst (fst f)) (snd (fst f))) in
  match lookup eqb4 (ck_nox k) key with
  | Some _ => st
  | None =>
      match lookup eqb4 (ck_x k) key with
      | Some p => (k, pts ++ [p])
      | None =>
          match edge_edge g (fst (snd e)) (snd (snd e)) (fst (snd f)) (snd (snd f)) with
          | [] => (mkCache (ck_x k) ((key, tt) :: ck_nox k) (ck_dst k) (ck_src k), pts)
          | p :: _ => (mkCache ((key, p) :: ck_x k) (ck_nox k) (ck_dst k) (ck_src k), pts ++ [p])
          end
      end
  end.

(** cpp/SgConserveInterp2D.h:199, 207-305: the points collected for two cells. *)
Definition ci_points (g : gels T) (dst src : Z) (dc sc : cell) (k : cache) : cst :=
  fold_left (fun st e =>
      fold_left (fun st f => ci_edgePair g e (ci_srcNode g dst (c_quad dc) st f) f) (c_edges sc)
        (ci_dstNode g src (c_quad sc) st e))
    (c_edges dc) (k, []).

(** SgTriangulate_type(n, points).getConvexHullArea(), cpp/SgConserveInterp2D.h:188-189, 320-321. *)
Definition hull_of (srt : (nat -> nat -> bool) -> list nat -> list nat) (junk : nat -> pt T) (pts : list (pt T)) : T :=
  tr_hullArea (tr_new srt junk (length pts) pts).

(** cpp/SgConserveInterp2D.h:195-324: one source cell.  [mem] is the memory behind the
    vector of the triangulator (see M_Triangulate). *)
Definition ci_srcStep srt (mem : Z -> Z -> nat -> pt T) (g : gels T) (sg : grid) (dst : Z) (dc : cell) (darea : T)
  (st : cache * list (Z * T)) (src : Z) : exec (cache * list (Z * T)) :=
  let '(k, row) := st in
  let! sc := ci_cell sg src in
  if negb (boxes_overlap (c_quad dc) (c_quad sc)) then Ret (k, row)
  else
    let '(k', pts) := ci_points g dst src dc sc k in
    if (3 <=? length pts)%nat then Ret (k', row ++ [(src, hull_of srt (mem dst src) pts / darea)])
    else Ret (k', row).

(** cpp/SgConserveInterp2D.h:183-330: one destination cell. *)
Definition ci_dstStep srt (memd : Z -> nat -> pt T) (mem : Z -> Z -> nat -> pt T) (g : gels T) (dg sg : grid)
  (st : cache * list (Z * list (Z * T))) (dst : Z) : exec (cache * list (Z * list (Z * T))) :=
  let '(k, w) := st in
  let! dc := ci_cell dg dst in
  let q := c_quad dc in
  let darea := hull_of srt (memd dst) [q0 q; q1 q; q2 q; q3 q] in
  let! r := foldM (ci_srcStep srt mem g sg dst dc darea) (range (g_numCells sg)) (k, []) in
  let '(k', row) := r in
  Ret (k', match row with [] => w | _ => map_insert w dst row end).

(** cpp/SgConserveInterp2D.h:154-331. *)
Definition ci_computeWeights srt (memd : Z -> nat -> pt T) (mem : Z -> Z -> nat -> pt T) (g : gels T) (s : ci) : exec ci :=
  match ci_dst s, ci_src s with
  | Some dg, Some sg =>
      let! r := foldM (ci_dstStep srt memd mem g dg sg) (range (g_numCells dg)) (ck_empty, ci_weights s) in
      Ret (mkCi (ci_dst s) (ci_src s) (snd r) (ci_it s))
  | _, _ => Undef OutOfBounds
  end.

(** cpp/SgConserveInterp2D.h:345-362.  Incrementing or dereferencing an iterator that does not
    point to an entry is undefined. *)
Definition ci_next (s : ci) : exec (Z * ci) :=
  match ci_it s with
  | None => Undef EndDeref
  | Some (i, j) =>
      match nth_error (ci_weights s) i with
      | None => Undef EndDeref
      | Some e =>
          if (length (snd e) <=? j)%nat then Undef EndDeref
          else if (S j =? length (snd e))%nat then
            match nth_error (ci_weights s) (S i) with
            | None => Undef EndDeref (* line 352: weightIt is weights.end() *)
            | Some _ => Ret (0%Z, mkCi (ci_dst s) (ci_src s) (ci_weights s) (Some (S i, 0%nat)))
            end
          else Ret (0%Z, mkCi (ci_dst s) (ci_src s) (ci_weights s) (Some (i, S j)))
      end
  end.

(** cpp/SgConserveInterp2D.h:370-374: source index, destination index, weight. *)
Definition ci_get (s : ci) : exec (Z * Z * T) :=
  match ci_it s with
  | None => Undef EndDeref
  | Some (i, j) =>
      match nth_error (ci_weights s) i with
      | None => Undef EndDeref
      | Some e =>
          match nth_error (snd e) j with
          | None => Undef EndDeref
          | Some sw => Ret (to_int32 (fst sw), to_int32 (fst e), snd sw)
          end
      end
  end.

End ConserveInterp.
Arguments grid : clear implicits.
Arguments ci : clear implicits.
Arguments cell : clear implicits.
Arguments cedge : clear implicits.
Arguments cache : clear implicits.
Arguments cst : clear implicits.
