(** Model of cpp/SgNodeInterp2D.h (struct SgNodeInterp2D_type).  Messages printed to
    stderr/stdout are not modelled, the values they read are. *)
From Coq Require Import ZArith List Bool.
From Verif Require Import Base Num M_LinearSolve M_FindPoint M_SideIterator.
Import ListNotations.
Open Scope Z_scope.

(** std::map<size_t, V>::insert: entries sorted by key, an existing key is kept. *)
Fixpoint map_insert {V} (k : Z) (v : V) (m : list (Z * V)) : list (Z * V) :=
  match m with
  | [] => [(k, v)]
  | (k', v') :: m' =>
      if k <? k' then (k, v) :: m
      else if k =? k' then m
      else (k', v') :: map_insert k v m'
  end.

Section NodeInterp.
Context {T : Type} {N : Num T}.
Local Open Scope num_scope.

(** cpp/SgNodeInterp2D.h:19-40.  Kept: the source node dimensions, the number of
    destination nodes with their coordinates (flat array, node then component), the
    weights and the point finder.  Not kept: cell and node products and the copy of the
    source coordinates, which only the unused private methods (lines 243-295) read.
    None: uninitialised. *)
Record ni := mkNi {
  ni_finder : fp (T:=T);
  ni_src : option (Z * Z);
  ni_dst : option (Z * list T);
  ni_weights : list (Z * list (Z * T)) }.

(** cpp/SgNodeInterp2D.h:45-47. *)
Definition ni_new (nitermax : Z) (tolpos : T) : ni := mkNi (fp_new nitermax tolpos) None None [].

(** cpp/SgNodeInterp2D.h:79-86: interleaved copy (per node instead of per component). *)
Definition ni_copy (n : Z) (c0 c1 : list T) : exec (list T) :=
  let! l := mapM (fun i => let! x := vget c0 i in let! y := vget c1 i in Ret [x; y]) (range n) in
  Ret (concat l).

(** cpp/SgNodeInterp2D.h:61-87. *)
Definition ni_setDstGrid (s : ni) (d0 d1 : Z) (c0 c1 : list T) : exec ni :=
  let! _ := chk (d0 - 1)%Z in
  let! _ := chk (d1 - 1)%Z in
  let n := wrap64 (wrap64 (1 * wrap64 d0) * wrap64 d1)%Z in
  let! cs := ni_copy n c0 c1 in
  Ret (mkNi (ni_finder s) (ni_src s) (Some (n, cs)) (ni_weights s)).

(** cpp/SgNodeInterp2D.h:94-124. *)
Definition ni_setSrcGrid (s : ni) (d0 d1 p0 p1 : Z) (c0 c1 : list T) : exec ni :=
  let! f := fp_setGrid (ni_finder s) [d0; d1] [p0; p1] [c0; c1] in
  let! _ := chk (d0 - 1)%Z in
  let! _ := chk (d1 - 1)%Z in
  let! _ := ni_copy (wrap64 (wrap64 (1 * wrap64 d0) * wrap64 d1)%Z) c0 c1 in
  Ret (mkNi f (Some (d0, d1)) (ni_dst s) (ni_weights s)).

(** cpp/SgNodeInterp2D.h:131-145. *)
Definition ni_apply (s : ni) (srcData dstData : list T) : exec (list T) :=
  foldM (fun dst (e : Z * list (Z * T)) =>
      let k := fst e in
      let! dst := vset dst k n0 in
      foldM (fun dst iw =>
          let! x := vget srcData (fst iw) in
          let! old := vget dst k in
          vset dst k (old + snd iw * x)) (snd e) dst)
    (ni_weights s) dstData.

(** cpp/SgNodeInterp2D.h:225-241.  [fp_search] is the loop of lines 232-234. *)
Definition ni_findTarget (g : gels T) (f : fp (T:=T)) (guess target : list T) : exec (Z * fp (T:=T)) :=
  let! f := fp_reset f guess target in
  let! r := fp_search g f in
  Ret (if (0 <? fst r)%Z then (0%Z, snd r) else r).

(** cpp/SgNodeInterp2D.h:195-197. *)
Definition ni_sideGuess (side : list Z) (c0 c1 : Z) : exec (list T) :=
  let! s0 := vget side 0 in
  let! a := chk (s0 + 1)%Z in
  let! a := chk (a * c0)%Z in
  let! s1 := vget side 1 in
  let! b := chk (s1 + 1)%Z in
  let! b := chk (b * c1)%Z in
  Ret [nofZ a / n2; nofZ b / n2].

(** cpp/SgNodeInterp2D.h:193-200.  [fuel] bounds the number of turns (nine sides). *)
Fixpoint ni_retry (g : gels T) (fuel : nat) (it : side_it) (c0 c1 : Z) (target : list T)
  (f : fp (T:=T)) (guess : list T) : exec (Z * fp (T:=T) * list T) :=
  match fuel with
  | O => Ret (1%Z, f, guess)
  | S fuel' =>
      let! side := side_get it in
      let! guess := ni_sideGuess side c0 c1 in
      let! r := ni_findTarget g f guess target in
      let n := side_next it in
      if (fst n =? 1)%Z || (fst r =? 0)%Z then Ret (fst r, snd r, guess)
      else ni_retry g fuel' (snd n) c0 c1 target (snd r) guess
  end.

(** cpp/SgNodeInterp2D.h:159-211: one destination node.  State: the finder, the starting
    position, the weights. *)
Definition ni_node (g : gels T) (dcoords : list T) (c0 c1 : Z)
  (st : fp (T:=T) * list T * list (Z * list (Z * T))) (k : Z)
  : exec (fp (T:=T) * list T * list (Z * list (Z * T))) :=
  let '(f, guess, ws) := st in
  let! x := vget dcoords (k * 2)%Z in
  let! y := vget dcoords (k * 2 + 1)%Z in
  let! r := ni_findTarget g f guess [x; y] in
  if (fst r =? 0)%Z then
    let! iw := fp_getSrcIndicesAndWeights (snd r) (fp_dIndices (snd r)) in
    Ret (snd r, guess, map_insert k iw ws)
  else if (fst r =? -3)%Z then Ret (snd r, guess, ws)
  else
    let! sit := side_new 2 in
    let! q := ni_retry g 10 (side_reset sit) c0 c1 [x; y] (snd r) guess in
    let '(ier, f', guess') := q in
    if (ier =? 0)%Z then Ret (f', guess', ws)
    else let! _ := fp_getError f' in Ret (f', guess', ws).

(** cpp/SgNodeInterp2D.h:150-213. *)
Definition ni_computeWeights (g : gels T) (s : ni) : exec ni :=
  match ni_src s, ni_dst s with
  | Some (d0, d1), Some (n, dcoords) =>
      let! c0 := chk (d0 - 1)%Z in
      let! c1 := chk (d1 - 1)%Z in
      let guess := [nofZ c0 / lit 214423 100000; nofZ c1 / lit 193265 100000] in
      let! r := foldM (ni_node g dcoords c0 c1) (range n) (ni_finder s, guess, []) in
      let '(f, _, ws) := r in
      Ret (mkNi f (ni_src s) (ni_dst s) ws)
  | _, _ => Undef OutOfBounds
  end.

End NodeInterp.
