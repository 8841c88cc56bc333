(** Model of cpp/SgOctreePoints.h (struct SgOctreePoints_type). *)
From Coq Require Import ZArith List Bool.
From Verif Require Import Base Num.
Import ListNotations.
Open Scope Z_scope.

Section Octree.
Context {T : Type} {N : Num T}.

(** cpp/SgOctreePoints.h:24-44, member data.  std::map is an association list
    (only insert-if-absent and find are used on it, and in-order iteration is
    never used). *)
Record octree := mkOct {
  oc_tree : list (list Z * (list T * list T));
  oc_node2Key : list (list Z);        (* entry i is the key of point i *)
  oc_prodDims : list Z;
  oc_xmins : list T;
  oc_xmaxs : list T;
  oc_ndims : nat;
  oc_nlevs : nat }.

(** Equality of keys (std::vector<size_t>), what the order of std::map decides. *)
Definition key_eqb (a b : list Z) : bool := if list_eq_dec Z.eq_dec a b then true else false.

(** std::map::find. *)
Fixpoint oc_find (t : list (list Z * (list T * list T))) (key : list Z) : option (list T * list T) :=
  match t with
  | [] => None
  | (k, v) :: t' => if key_eqb k key then Some v else oc_find t' key
  end.

(** std::map::insert keeps an existing entry. *)
Definition oc_insert (t : list (list Z * (list T * list T))) (key : list Z) (v : list T * list T) :=
  match oc_find t key with
  | Some _ => t
  | None => t ++ [(key, v)]
  end.

(** cpp/SgOctreePoints.h:58-65, low/high corner points of the flat array. *)
Definition oc_minmax_step (ndims : nat) (s : Z * (list T * list T)) (p : T)
  : exec (Z * (list T * list T)) :=
  let '(i, (mins, maxs)) := s in
  let dim := i mod Z.of_nat ndims in
  let! mn := vget mins dim in
  let! mx := vget maxs dim in
  let! mins' := vset mins dim (if nlt p mn then p else mn) in
  let! maxs' := vset maxs dim (if nlt mx p then p else mx) in
  Ret (i + 1, (mins', maxs')).

(** cpp/SgOctreePoints.h:68-71: prodDims[ndims-1] = 1, doubling towards the front.
    Simplification: 2^ndims is assumed to fit in size_t (no wrap). *)
Fixpoint oc_prods (ndims : nat) : list Z :=
  match ndims with
  | O => []
  | S n' => match oc_prods n' with
            | [] => [1]
            | p :: ps => p * 2 :: p :: ps
            end
  end.

(** cpp/SgOctreePoints.h:205-211, getIndices. *)
Definition oc_getIndices (prods : list Z) (indx : Z) : list Z :=
  map (fun p => (indx / p) mod 2) prods.

(** cpp/SgOctreePoints.h:185-188, inner loop of computeLoHi for one level. *)
Fixpoint oc_step (lo : list T) (inds : list Z) (dx : T) : list T * list T :=
  match lo, inds with
  | l :: lo', i :: inds' =>
      let l' := nadd l (nmul (nofZ i) dx) in
      let '(los, his) := oc_step lo' inds' dx in
      (l' :: los, nadd l' dx :: his)
  | _, _ => ([], [])
  end.

(** cpp/SgOctreePoints.h:182-190, loop over the levels of the key. *)
Fixpoint oc_levels (prods : list Z) (key : list Z) (lo hi : list T) (dx : T) : list T * list T :=
  match key with
  | [] => (lo, hi)
  | q :: key' =>
      let '(lo', hi') := oc_step lo (oc_getIndices prods q) dx in
      oc_levels prods key' lo' hi' (ndiv dx (nofZ 2))
  end.

(** cpp/SgOctreePoints.h:192-197, scale and translate one bound. *)
Fixpoint oc_scale (v mins maxs : list T) : list T :=
  match v, mins, maxs with
  | x :: v', mn :: mins', mx :: maxs' =>
      nadd (nmul x (nsub mx mn)) mn :: oc_scale v' mins' maxs'
  | _, _, _ => []
  end.

(** cpp/SgOctreePoints.h:178-198, computeLoHi. *)
Definition oc_computeLoHi (ndims : nat) (prods : list Z) (mins maxs : list T) (key : list Z)
  : list T * list T :=
  let '(lo, hi) := oc_levels prods key (repeat (nofZ 0) ndims) (repeat (nofZ 1) ndims) nhalf in
  (oc_scale lo mins maxs, oc_scale hi mins maxs).

(** cpp/SgOctreePoints.h:152-170, refineOctree.  [box] is computeLoHi of the
    object; [fuel] bounds the recursion depth, which is at most [nlevs]. *)
Fixpoint oc_refine (box : list Z -> list T * list T) (ndims nlevs fuel : nat) (key : list Z)
  (t : list (list Z * (list T * list T))) : list (list Z * (list T * list T)) :=
  fold_left (fun t iQ =>
      let key2 := key ++ [iQ] in
      let t1 := oc_insert t key2 (box key2) in
      if (length key2 <? nlevs)%nat then
        match fuel with
        | O => t1
        | S fuel' => oc_refine box ndims nlevs fuel' key2 t1
        end
      else t1)
    (range (2 ^ Z.of_nat ndims)) t.

(** cpp/SgOctreePoints.h:129-133, normalisation of one coordinate. *)
Fixpoint oc_normalize (pt mins maxs : list T) : list T :=
  match pt, mins, maxs with
  | p :: pt', mn :: mins', mx :: maxs' =>
      smin (nofZ 1) (smax (nofZ 0) (ndiv (nsub p mn) (nsub mx mn))) :: oc_normalize pt' mins' maxs'
  | _, _, _ => []
  end.

(** cpp/SgOctreePoints.h:138-143, one level of the key: the new bases and the
    accumulated flat index. *)
Fixpoint oc_digit (xs xbase : list T) (prods : list Z) (fact : T) (acc : Z) : exec (list T * Z) :=
  match xs, xbase, prods with
  | x :: xs', b :: xbase', p :: prods' =>
      let f := smin (nofZ 1) (smax (nofZ 0) (nfloor (nmul (nsub x b) fact))) in
      match ntoZ f with
      | None => Undef BadCast
      | Some indx =>
          let! (bs, a) := oc_digit xs' xbase' prods' fact (acc + p * indx) in
          Ret (nadd b (ndiv (nofZ indx) fact) :: bs, a)
      end
  | _, _, _ => Ret ([], acc)
  end.

(** cpp/SgOctreePoints.h:136-144, loop over levels [el], el+1, ... ([n] of them). *)
Fixpoint oc_keyloop (prods : list Z) (xs xbase : list T) (el n : nat) : exec (list Z) :=
  match n with
  | O => Ret []
  | S n' =>
      let! (xbase', k) := oc_digit xs xbase prods (nofZ (2 ^ (Z.of_nat el + 1))) 0 in
      let! ks := oc_keyloop prods xs xbase' (S el) n' in
      Ret (k :: ks)
  end.

(** cpp/SgOctreePoints.h:125-146, getKey. *)
Definition oc_getKey (o : octree) (pt : list T) (lev : nat) : exec (list Z) :=
  oc_keyloop (oc_prodDims o) (oc_normalize pt (oc_xmins o) (oc_xmaxs o))
             (repeat (nofZ 0) (oc_ndims o)) 0 lev.

(** cpp/SgOctreePoints.h:79-82, key of each point of the flat array. *)
Fixpoint oc_attach (o : octree) (npts : nat) (points : list T) : exec (list (list Z)) :=
  match npts with
  | O => Ret []
  | S n' =>
      let! k := oc_getKey o (firstn (oc_ndims o) points) (oc_nlevs o) in
      let! ks := oc_attach o n' (skipn (oc_ndims o) points) in
      Ret (k :: ks)
  end.

(** cpp/SgOctreePoints.h:52-83, constructor.  With ndims = 0 line 61 or 78
    divides by zero. *)
Definition oc_new (numLevels ndims : nat) (points : list T) : exec octree :=
  match ndims with
  | O => Undef DivByZero
  | _ =>
    let! (_, (mins, maxs)) :=
      foldM (oc_minmax_step ndims) points (0, (repeat nmax ndims, repeat (nopp nmax) ndims)) in
    let prods := oc_prods ndims in
    let box := oc_computeLoHi ndims prods mins maxs in
    let tree := oc_refine box ndims numLevels numLevels [] [] in
    let o := mkOct tree [] prods mins maxs ndims numLevels in
    let! n2k := oc_attach o (length points / ndims) points in
    Ret (mkOct tree n2k prods mins maxs ndims numLevels)
  end.

(** cpp/SgOctreePoints.h:96-103 and 110-117, getLo and getHi. *)
Definition oc_getLo (o : octree) (key : list Z) : list T :=
  match oc_find (oc_tree o) key with
  | Some (lo, _) => lo
  | None => oc_xmins o
  end.
Definition oc_getHi (o : octree) (key : list Z) : list T :=
  match oc_find (oc_tree o) key with
  | Some (_, hi) => hi
  | None => oc_xmaxs o
  end.

End Octree.
