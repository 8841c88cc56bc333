(** Model of cpp/SgFindPointInCell.h (struct SgFindPointInCell_type).
    Arrays passed by pointer are lists; reading past their end is [Undef].
    [size_t] arithmetic wraps, [int] arithmetic is checked. *)
From Coq Require Import ZArith List Bool.
From Verif Require Import Base Num M_LinearSolve.
Import ListNotations.
Open Scope Z_scope.

(** std::vector::resize(n, v). *)
Definition resize {A} (l : list A) (n : nat) (v : A) : list A :=
  firstn n l ++ repeat v (n - length l).

Section FindPoint.
Context {T : Type} {N : Num T}.
Local Open Scope num_scope.

(** cpp/SgFindPointInCell.h:17-66.  The members jacMatrix and rhs are not kept in
    the state: every call that uses them (computeJacobianAndRHS, called by next)
    overwrites all their entries first. *)
Record fp := mkFp {
  fp_slvr : option (ls (T:=T));
  fp_coords : list (list T);
  fp_xmins : list T;
  fp_xmaxs : list T;
  fp_prodDims : list Z;
  fp_nodeProdDims : list Z;
  fp_period : list T;
  fp_dims : list Z;
  fp_target : list T;
  fp_nitermax : Z;
  fp_tolpos : T;
  fp_iter : Z;
  fp_dIndices : list T;
  fp_errors : list T;
  fp_oldError : T }.

(** cpp/SgFindPointInCell.h:73-80. *)
Definition fp_new (nitermax : Z) (tolpos : T) : fp :=
  mkFp None [] [] [] [] [] [] [] [] nitermax tolpos 0 [] [] nmax.

(** cpp/SgFindPointInCell.h:113-117. *)
Fixpoint fp_periods (old : list T) (dims : list Z) (per : list Z) : list T :=
  match old, dims, per with
  | o :: old', d :: dims', p :: per' =>
      (if Z.eqb p 0 then o else nofZ d) :: fp_periods old' dims' per'
  | _, _, _ => old
  end.

(** cpp/SgFindPointInCell.h:120-125, prodDims; the loop runs from the last axis. *)
Fixpoint fp_mkProd (dims : list Z) : list Z :=
  match dims with
  | [] => []
  | _ :: rest =>
      let ps := fp_mkProd rest in
      match rest, ps with
      | d1 :: _, p1 :: _ => wrap64 (p1 * wrap64 d1)%Z :: ps
      | _, _ => 1%Z :: ps
      end
  end.

(** cpp/SgFindPointInCell.h:121-125, nodeProdDims. *)
Fixpoint fp_mkNodeProd (n : nat) : list Z :=
  match n with
  | O => []
  | S n' => let ps := fp_mkNodeProd n' in
            match ps with
            | p1 :: _ => wrap64 (p1 * 2)%Z :: ps
            | [] => 1%Z :: ps
            end
  end.

(** cpp/SgFindPointInCell.h:137-141: copy of one coordinate, running min and max. *)
Definition fp_scan (ntot : Z) (c : list T) (mm : T * T) : exec (list T * (T * T)) :=
  let! vals := mapM (vget c) (range ntot) in
  Ret (vals, fold_left (fun (m : T * T) v =>
         (if fst m <? v then fst m else v, if snd m >? v then snd m else v)) vals mm).

(** cpp/SgFindPointInCell.h:135-143: the loop over the coordinates. *)
Fixpoint fp_scans (ntot : Z) (cs : list (list T)) (mins maxs : list T)
  : exec (list (list T) * list T * list T) :=
  match mins, maxs with
  | mi :: mins', ma :: maxs' =>
      match cs with
      | [] => Undef OutOfBounds
      | c :: cs' =>
          let! r := fp_scan ntot c (mi, ma) in
          let! rs := fp_scans ntot cs' mins' maxs' in
          let '(vals, mins1, maxs1) := rs in
          Ret (fst r :: vals, fst (snd r) :: mins1, snd (snd r) :: maxs1)
      end
  | _, _ => Ret ([], [], [])
  end.

(** cpp/SgFindPointInCell.h:96-146.  [ndims] is the length of [dims].  Simplified: a negative number of
    nodes makes resize throw; here the coordinates are then empty. *)
Definition fp_setGrid (s : fp) (dims per : list Z) (coords : list (list T)) : exec fp :=
  match dims with
  | [] => Ret s
  | _ =>
    let n := length dims in
    let! ntot := foldM (fun p d => chk (p * d)%Z) dims 1%Z in
    let! r := fp_scans ntot coords (resize (fp_xmins s) n nmax) (resize (fp_xmaxs s) n (- nmax)) in
    let '(vals, mins, maxs) := r in
    Ret (mkFp (Some (ls_new n n)) vals mins maxs (fp_mkProd dims) (fp_mkNodeProd n)
           (fp_periods (resize (fp_period s) n n0) dims per) (map wrap64 dims)
           (resize (fp_target s) n n0) (fp_nitermax s) (fp_tolpos s) (fp_iter s)
           (resize (fp_dIndices s) n n0) (fp_errors s) (fp_oldError s))
  end.

(** cpp/SgFindPointInCell.h:313-317: low corner of the cell along one axis. *)
Definition fp_loCorner (d : Z) (x : T) : exec Z :=
  let! lo := to_int (nfloor x) in
  let lo := (if (0 <=? lo)%Z then lo else 0)%Z in
  let! dm2 := chk (to_int32 d - 2) in
  Ret (if (lo <=? dm2)%Z then lo else to_int32 (wrap64 (d - 2))%Z).

(** cpp/SgFindPointInCell.h:311-329: flat index and weight of cell node [j]. *)
Fixpoint fp_nodeWeight (dims prods nprods : list Z) (xs : list T) (j : Z) (flat : Z) (w : T)
  : exec (Z * T) :=
  match dims, prods, nprods with
  | d :: dims', p :: prods', np :: nprods' =>
      match xs with
      | [] => Undef OutOfBounds
      | x :: xs' =>
          let! lo := fp_loCorner d x in
          if (np =? 0)%Z then Undef DivByZero else
          let indx := to_int32 (wrap64 (lo + j / np mod 2))%Z in
          let flat' := wrap64 (flat + p * indx)%Z in
          let dindx := nofZ indx in
          let w' := w * (if x >=? dindx then dindx + n1 - x else x - dindx + n1) in
          fp_nodeWeight dims' prods' nprods' xs' j flat' w'
      end
  | _, _, _ => Ret (flat, w)
  end.

(** cpp/SgFindPointInCell.h:298-335. *)
Definition fp_getSrcIndicesAndWeights (s : fp) (xs : list T) : exec (list (Z * T)) :=
  mapM (fun j => fp_nodeWeight (fp_dims s) (fp_prodDims s) (fp_nodeProdDims s) xs j 0%Z n1)
    (range (2 ^ Z.of_nat (length (fp_dims s)))).

(** cpp/SgFindPointInCell.h:344-358. *)
Definition fp_interp (s : fp) (xs : list T) (field : list T) : exec T :=
  let! iw := fp_getSrcIndicesAndWeights s xs in
  foldM (fun res kw => let! f := vget field (fst kw) in Ret (res + snd kw * f)) iw n0.

(** cpp/SgFindPointInCell.h:168-175. *)
Definition fp_getPosition (s : fp) : exec (list T) :=
  mapM (fp_interp s (fp_dIndices s)) (fp_coords s).

(** cpp/SgFindPointInCell.h:181-190. *)
Definition fp_getError (s : fp) : exec T :=
  let! pos := fp_getPosition s in
  let! res := foldM (fun res i =>
      let! p := vget pos i in
      let! t := vget (fp_target s) i in
      let dp := p - t in Ret (res + dp * dp)) (zseq (length (fp_dims s))) n0 in
  Ret (nsqrt res).

(** cpp/SgFindPointInCell.h:192-200. *)
Definition fp_reset (s : fp) (inds target : list T) : exec fp :=
  let n := length (fp_dims s) in
  let! d := mapM (vget inds) (zseq n) in
  let! t := mapM (vget target) (zseq n) in
  Ret (mkFp (fp_slvr s) (fp_coords s) (fp_xmins s) (fp_xmaxs s) (fp_prodDims s)
         (fp_nodeProdDims s) (fp_period s) (fp_dims s) t (fp_nitermax s) (fp_tolpos s)
         0%Z d [] (fp_oldError s)).

(** cpp/SgFindPointInCell.h:214. *)
Definition fp_eps : T := nofZ 100 * neps.

(** cpp/SgFindPointInCell.h:218-222. *)
Fixpoint fp_inside (t mins maxs : list T) : bool :=
  match t, mins, maxs with
  | x :: t', a :: mins', b :: maxs' =>
      (x >=? (a - fp_eps)) && (x <=? (b + fp_eps)) && fp_inside t' mins' maxs'
  | _, _, _ => true
  end.

(** cpp/SgFindPointInCell.h:380-389: one entry of the Jacobian. *)
Definition fp_jacEntry (s : fp) (c : list T) (j : nat) : exec T :=
  let! x := vget (fp_dIndices s) (Z.of_nat j) in
  let! d := vget (fp_dims s) (Z.of_nat j) in
  let dm1 := nofZ (wrap64 (d - 1))%Z in
  let hi := x + nhalf in
  let hi := if hi <=? dm1 then hi else dm1 in
  let lo := x - nhalf in
  let lo := if lo >=? n0 then lo else n0 in
  let! xHi := fp_interp s (upd (fp_dIndices s) j hi) c in
  let! xLo := fp_interp s (upd (fp_dIndices s) j lo) c in
  Ret ((xHi - xLo) / (hi - lo)).

(** cpp/SgFindPointInCell.h:363-398. *)
Definition fp_jacobianAndRHS (s : fp) : exec (list T * list T) :=
  let n := length (fp_dims s) in
  let! rows := mapM (fun i =>
      let! c := vget (fp_coords s) (Z.of_nat i) in
      let! pos := fp_interp s (fp_dIndices s) c in
      let! t := vget (fp_target s) (Z.of_nat i) in
      let! row := mapM (fp_jacEntry s c) (seq 0 n) in
      Ret (row, t - pos)) (seq 0 n) in
  Ret (concat (map fst rows), map snd rows).

(** cpp/SgFindPointInCell.h:411-420: one index. *)
Definition fp_truncate1 (per : T) (d : Z) (x : T) : T :=
  let x := if per =? n0 then x else nfmod (nfmod x per + per) per in
  let x := if x <? n0 then n0 else x in
  let dm1 := nofZ (wrap64 (d - 1))%Z in
  if x >? dm1 then dm1 else x.

(** cpp/SgFindPointInCell.h:409-421: the loop over the indices. *)
Fixpoint fp_truncate (pers : list T) (dims : list Z) (xs : list T) : list T :=
  match pers, dims, xs with
  | p :: pers', d :: dims', x :: xs' => fp_truncate1 p d x :: fp_truncate pers' dims' xs'
  | _, _, _ => xs
  end.

(** cpp/SgFindPointInCell.h:211-273. *)
Definition fp_next (g : gels T) (s : fp) : exec (Z * fp) :=
  if negb (fp_inside (fp_target s) (fp_xmins s) (fp_xmaxs s)) then Ret ((-3)%Z, s) else
  let n := length (fp_dims s) in
  let! jr := fp_jacobianAndRHS s in
  match fp_slvr s with
  | None => Undef OutOfBounds
  | Some sv =>
    let! r := ls_run g sv (fst jr) (snd jr) in
    let! xs := mapM (fun i =>
        let! x := vget (fp_dIndices s) i in
        let! dx := vget (ls_getSolution (snd r)) i in
        Ret (x + dx)) (zseq n) in
    let inds := fp_truncate (fp_period s) (fp_dims s) xs in
    let! it := chk (fp_iter s + 1)%Z in
    let mk errs old := mkFp (Some (snd r)) (fp_coords s) (fp_xmins s) (fp_xmaxs s)
         (fp_prodDims s) (fp_nodeProdDims s) (fp_period s) (fp_dims s) (fp_target s)
         (fp_nitermax s) (fp_tolpos s) it inds errs old in
    let! err := fp_getError (mk (fp_errors s) (fp_oldError s)) in
    let errs := fp_errors s ++ [err] in
    let s1 := mk errs (fp_oldError s) in
    let stuck := (err >? fp_oldError s + fp_eps) &&
       (3 <=? length errs)%nat &&
       (err >? nth (length errs - 3) errs n0 + fp_eps) in
    if stuck then Ret ((-2)%Z, s1)
    else if (fp_nitermax s <=? it)%Z then Ret ((-1)%Z, s1)
    else if err <? fp_tolpos s then Ret (1%Z, s1)
    else Ret (0%Z, mk errs err)
  end.

(** The client loop [while (end == 0) end = next();], for instance
    cpp/SgQuadLineFlows.h:152-155.  None: more than [fuel] calls. *)
Fixpoint fp_loop (g : gels T) (fuel : nat) (s : fp) : exec (option (Z * fp)) :=
  match fuel with
  | O => Ret None
  | S fuel' =>
      let! r := fp_next g s in
      if (fst r =? 0)%Z then fp_loop g fuel' (snd r) else Ret (Some r)
  end.

(** The loop with the number of calls it can need (see C10). *)
Definition fp_search (g : gels T) (s : fp) : exec (Z * fp) :=
  let! r := fp_loop g (S (Z.to_nat (fp_nitermax s))) s in
  match r with Some x => Ret x | None => Ret (0%Z, s) end.

End FindPoint.
