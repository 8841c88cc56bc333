(** Model of cpp/SgBoxIterator.h (struct SgBoxIterator_type).
    Arrays passed by pointer together with [ndims] are modelled as lists of that
    length.  [int] arithmetic is checked: overflow and division by zero are
    [Undef]. *)
From Coq Require Import ZArith List Bool.
From Verif Require Import Base.
Import ListNotations.
Open Scope Z_scope.

(** cpp/SgBoxIterator.h:14-24, member data. *)
Record box_it := mkBox {
  bx_lowEnd : list Z;
  bx_dims : list Z;
  bx_dimProd : list Z;
  bx_numElems : Z }.

(** cpp/SgBoxIterator.h:40, [dims[i] = endInds[i] - begInds[i]] for all [i]. *)
Fixpoint box_dims (beg en : list Z) : exec (list Z) :=
  match beg, en with
  | b :: beg', e :: en' =>
      let! d := chk (e - b) in let! ds := box_dims beg' en' in Ret (d :: ds)
  | [], [] => Ret []
  | _, _ => Undef OutOfBounds
  end.

(** cpp/SgBoxIterator.h:37-43, [numElems *= dims[i]]. *)
Definition box_numElems (dims : list Z) : exec Z :=
  foldM (fun n d => chk (n * d)) dims 1.

(** cpp/SgBoxIterator.h:41 and 45-48, [dimProd], last index fastest.
    The C++ loop runs from the last axis to the first; so does this recursion. *)
Fixpoint box_dimProd (dims : list Z) : exec (list Z) :=
  match dims with
  | [] => Ret []
  | _ :: rest =>
      let! ps := box_dimProd rest in
      match rest, ps with
      | d1 :: _, p1 :: _ => let! p := chk (p1 * d1) in Ret (p :: ps)
      | _, _ => Ret (1 :: ps)
      end
  end.

(** cpp/SgBoxIterator.h:32-49, constructor. *)
Definition box_new (beg en : list Z) : exec box_it :=
  let! dims := box_dims beg en in
  let! n := box_numElems dims in
  let! ps := box_dimProd dims in
  Ret (mkBox beg dims ps n).

(** C++ [/] and [%] on [int]: truncation, undefined for a zero divisor or an
    unrepresentable quotient. *)
Definition idiv (a b : Z) : exec Z :=
  if b =? 0 then Undef DivByZero else chk (Z.quot a b).
Definition imod (a b : Z) : exec Z :=
  if b =? 0 then Undef DivByZero
  else let! _ := chk (Z.quot a b) in Ret (Z.rem a b).

(** cpp/SgBoxIterator.h:69-74, loop body for the axes from one on. *)
Fixpoint box_elem (low dims prods : list Z) (index : Z) : exec (list Z) :=
  match low, dims, prods with
  | l :: low', d :: dims', p :: prods' =>
      let! q := idiv index p in
      let! r := imod q d in
      let! x := chk (l + r) in
      let! xs := box_elem low' dims' prods' index in
      Ret (x :: xs)
  | _, _, _ => Ret []
  end.

(** cpp/SgBoxIterator.h:69-74, getElement. *)
Definition box_getElement (b : box_it) (index : Z) : exec (list Z) :=
  box_elem (bx_lowEnd b) (bx_dims b) (bx_dimProd b) index.

(** cpp/SgBoxIterator.h:81-87, loop of getIndex with accumulator. *)
Fixpoint box_index (low prods inds : list Z) (acc : Z) : exec Z :=
  match low, prods with
  | l :: low', p :: prods' =>
      match inds with
      | [] => Undef OutOfBounds
      | x :: inds' =>
          let! d := chk (x - l) in
          let! t := chk (d * p) in
          let! acc' := chk (acc + t) in
          box_index low' prods' inds' acc'
      end
  | _, _ => Ret acc
  end.

(** cpp/SgBoxIterator.h:81-87, getIndex. *)
Definition box_getIndex (b : box_it) (inds : list Z) : exec Z :=
  box_index (bx_lowEnd b) (bx_dimProd b) inds 0.

(** cpp/SgBoxIterator.h:60-62. *)
Definition box_getNumberOfElements (b : box_it) : Z := bx_numElems b.
