(** Model of cpp/SgFlowInterp2D.h (struct SgFlowInterp2D_type). *)
From Coq Require Import ZArith List Bool.
From Verif Require Import Base Num M_BoxIterator M_LinearSolve M_FindPoint M_Triangulate M_Quad M_QuadLine.
Import ListNotations.

(** std::map with size_t keys: an association list in ascending order of the keys.
    [map_push] appends an entry to the vector stored under a key, creating it if absent. *)
Fixpoint map_push {A} (m : list (Z * list A)) (k : Z) (x : A) : list (Z * list A) :=
  match m with
  | [] => [(k, [x])]
  | (k', v) :: m' =>
      if (k =? k')%Z then (k', v ++ [x]) :: m'
      else if (k <? k')%Z then (k, [x]) :: m
      else (k', v) :: map_push m' k x
  end.

Section FlowInterp.
Context {T : Type} {N : Num T}.
Local Open Scope num_scope.

(** cpp/SgFlowInterp2D.h:20-39.  Pointers not set and numbers not initialised are None. *)
Record fl := mkFl {
  fl_src : list (pt T);
  fl_srcNumCells : option Z;
  fl_dst : list (pt T);
  fl_dstNumCells : option Z;
  fl_weights : list (Z * list (Z * list T));
  fl_nodeIt : option box_it;
  fl_cellIt : option box_it;
  fl_edgeIts : option (box_it * box_it) }.

(** cpp/SgFlowInterp2D.h:44-51. *)
Definition fl_new : fl := mkFl [] None [] None [] None None None.

(** cpp/SgFlowInterp2D.h:70-92.  [cosv i n] is cos(1.99 * M_PI * i / (n - 1)), a parameter. *)
Definition fl_setDstGrid (cosv : Z -> Z -> T) (s : fl) (dim : Z) (coords : list (list T)) : exec fl :=
  let eps := nofZ 10 * neps in
  let! dm1 := chk (dim - 1)%Z in
  let npts := wrap64 dim in
  let ncell := wrap64 dm1 in
  let pert (k : Z) (i : Z) : exec T :=
    let! c := vget coords k in
    let! x := vget c i in
    Ret (x + eps * nofZ (k + 1) * cosv i npts) in
  let! xs := mapM (pert 0%Z) (range npts) in
  let! ys := mapM (pert 1%Z) (range npts) in
  Ret (mkFl (fl_src s) (fl_srcNumCells s) (combine xs ys) (Some ncell) (fl_weights s)
         (fl_nodeIt s) (fl_cellIt s) (fl_edgeIts s)).

(** cpp/SgFlowInterp2D.h:99-124. *)
Definition fl_setSrcGrid (s : fl) (d0 d1 : Z) (coords : list (list T)) : exec fl :=
  let! np := chk (d0 * d1)%Z in
  let! c0 := chk (d0 - 1)%Z in
  let! c1 := chk (d1 - 1)%Z in
  let! nc := chk (c0 * c1)%Z in
  let! nodeIt := box_new [0; 0]%Z [d0; d1] in
  let! cellIt := box_new [0; 0]%Z [c0; c1] in
  let! e0 := box_new [0; 0]%Z [c0; d1] in
  let! e1 := box_new [0; 0]%Z [d0; c1] in
  let npts := wrap64 np in
  let get (k : Z) (i : Z) : exec T := let! c := vget coords k in vget c i in
  let! xs := mapM (get 0%Z) (range npts) in
  let! ys := mapM (get 1%Z) (range npts) in
  Ret (mkFl (combine xs ys) (Some (wrap64 nc)) (fl_dst s) (fl_dstNumCells s) (fl_weights s)
         (Some nodeIt) (Some cellIt) (Some (e0, e1))).

(** cpp/SgFlowInterp2D.h:300-310. *)
Definition fl_dstLine (s : fl) (indx : Z) : exec (pt T * pt T) :=
  let! a := vget (fl_dst s) indx in
  let! b := vget (fl_dst s) (indx + 1)%Z in
  Ret (a, b).

(** cpp/SgFlowInterp2D.h:319-341: one node of a source cell. *)
Definition fl_srcNode (s : fl) (cell : list Z) (o0 o1 : Z) : exec (pt T) :=
  match fl_nodeIt s with
  | None => Undef OutOfBounds
  | Some it =>
      let! i := vget cell 0%Z in
      let! j := vget cell 1%Z in
      let! i' := chk (i + o0)%Z in
      let! j' := chk (j + o1)%Z in
      let! k := box_getIndex it [i'; j'] in
      vget (fl_src s) k
  end.

(** cpp/SgFlowInterp2D.h:319-341 with the offsets of lines 191-194. *)
Definition fl_srcQuad (s : fl) (indx : Z) : exec (quad T) :=
  match fl_cellIt s with
  | None => Undef OutOfBounds
  | Some it =>
      let! cell := box_getElement it indx in
      let! a := fl_srcNode s cell 0 0 in
      let! b := fl_srcNode s cell 1 0 in
      let! c := fl_srcNode s cell 1 1 in
      let! d := fl_srcNode s cell 0 1 in
      Ret (mkQuad a b c d)
  end.

(** cpp/SgFlowInterp2D.h:246-256: contribution of the consecutive pairs of points; the return
    codes of computeProjections are not looked at. *)
Fixpoint fl_segments (g : gels T) (qf0 : qf T) (pts : list (pt T)) (w : list T) : exec (list T * qf T) :=
  match pts with
  | a :: ((b :: _) as rest) =>
      let! r := qf_computeProjections g (qf_setLinePoints qf0 (a, b)) in
      let qf1 := snd r in
      let! w0 := qf_getProjection qf1 0%Z in
      let! w1 := qf_getProjection qf1 1%Z in
      let! w2 := qf_getProjection qf1 2%Z in
      let! w3 := qf_getProjection qf1 3%Z in
      fl_segments g qf1 rest (map (fun vw => fst vw + snd vw) (combine w [w0; w1; w2; w3]))
  | _ => Ret (w, qf0)
  end.

(** State of the two objects local to computeWeights and the weights. *)
Record flw := mkFlw { flw_ql : ql T; flw_qf : qf T; flw_m : list (Z * list (Z * list T)) }.

(** cpp/SgFlowInterp2D.h:209-263: one source cell. *)
Definition fl_cell (srt : (T -> T -> bool) -> list T -> list T) (g : gels T) (s : fl) (dst : Z) (x : flw) (src : Z) : exec flw :=
  let i0 := ql_reset (flw_ql x) in
  let! q := fl_srcQuad s src in
  let i1 := ql_setQuadPoints i0 q in
  let! ov := ql_checkIfOverlap i1 in
  if negb ov then Ret (mkFlw i1 (flw_qf x) (flw_m x))
  else
    let! r := ql_collect srt g i1 in
    let '(pts, i2) := r in
    if (2 <=? length pts)%nat then
      let! qf1 := qf_setQuadPoints (flw_qf x) q in
      let! wq := fl_segments g qf1 pts [n0; n0; n0; n0] in
      Ret (mkFlw i2 (snd wq) (map_push (flw_m x) dst (src, fst wq)))
    else Ret (mkFlw i2 (flw_qf x) (flw_m x)).

(** cpp/SgFlowInterp2D.h:200-264: one destination segment. *)
Definition fl_segment (srt : (T -> T -> bool) -> list T -> list T) (g : gels T) (s : fl) (ncell : Z) (x : flw) (dst : Z) : exec flw :=
  let! l := fl_dstLine s dst in
  foldM (fl_cell srt g s dst) (range ncell) (mkFlw (ql_setLinePoints (flw_ql x) l) (flw_qf x) (flw_m x)).

(** cpp/SgFlowInterp2D.h:186-267. *)
Definition fl_computeWeights (srt : (T -> T -> bool) -> list T -> list T) (g : gels T) (s : fl) : exec fl :=
  match fl_dstNumCells s, fl_srcNumCells s with
  | Some nd, Some ns =>
      let! x := foldM (fl_segment srt g s ns) (range nd) (mkFlw ql_new qf_new (fl_weights s)) in
      Ret (mkFl (fl_src s) (fl_srcNumCells s) (fl_dst s) (fl_dstNumCells s) (flw_m x)
             (fl_nodeIt s) (fl_cellIt s) (fl_edgeIts s))
  | Some nd, None => if (nd =? 0)%Z then Ret s else Undef OutOfBounds
  | None, _ => Undef OutOfBounds
  end.

(** cpp/SgFlowInterp2D.h:160-178: the four sides of one source cell.  The offsets (lines 135-140) are
    (0,0) (0,1) (0,0) (1,0); sides 0, 1 use the first array, sides 2, 3 the second. *)
Definition fl_sides (s : fl) (data0 data1 : list T) (src : Z) (w : list T) (acc : T) : exec T :=
  match fl_cellIt s, fl_edgeIts s with
  | Some it, Some (e0, e1) =>
      let! inds := box_getElement it src in
      let! i := vget inds 0%Z in
      let! j := vget inds 1%Z in
      foldM (fun acc (so : Z * (Z * Z)) =>
          let '(side, (o0, o1)) := so in
          let! i' := chk (i + o0)%Z in
          let! j' := chk (j + o1)%Z in
          let! index := box_getIndex (if (side / 2 =? 0)%Z then e0 else e1) [i'; j'] in
          let! wv := vget w side in
          let! dv := vget (if (side / 2 =? 0)%Z then data0 else data1) index in
          Ret (acc + wv * dv))
        [(0, (0, 0)); (1, (0, 1)); (2, (0, 0)); (3, (1, 0))]%Z acc
  | _, _ => Undef OutOfBounds
  end.

(** cpp/SgFlowInterp2D.h:131-181.  [dst] is the content of the output array. *)
Definition fl_apply (s : fl) (data0 data1 : list T) (dst : list T) : exec (list T) :=
  foldM (fun out (e : Z * list (Z * list T)) =>
      let! out1 := vset out (fst e) n0 in
      let! v := foldM (fun acc (cw : Z * list T) => fl_sides s data0 data1 (fst cw) (snd cw) acc) (snd e) n0 in
      vset out1 (fst e) v) (fl_weights s) dst.

End FlowInterp.
Arguments fl : clear implicits.
Arguments flw : clear implicits.
