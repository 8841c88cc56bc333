(** Model of cpp/SgSideIterator.h (struct SgSideIterator_type).
    [size_t] arithmetic wraps modulo 2^64 as in C++. *)
From Coq Require Import ZArith List Bool.
From Verif Require Import Base.
Import ListNotations.
Open Scope Z_scope.

(** cpp/SgSideIterator.h:14-16, member data. *)
Record side_it := mkSide {
  sd_index : Z;
  sd_numElems : Z;
  sd_prodDims : list Z }.

(** cpp/SgSideIterator.h:23-26: prodDims[n-1] = 1, prodDims[i] = prodDims[i+1]*3. *)
Fixpoint side_prods (n : nat) : list Z :=
  match n with
  | O => []
  | S n' => match side_prods n' with
            | [] => [1]
            | p :: ps => wrap64 (p * 3) :: p :: ps
            end
  end.

(** cpp/SgSideIterator.h:30-33: numElems *= 3, numDims times. *)
Fixpoint side_num (n : nat) : Z :=
  match n with
  | O => 1
  | S n' => wrap64 (side_num n' * 3)
  end.

(** cpp/SgSideIterator.h:21-34, constructor.  With numDims = 0 line 23 writes
    prodDims[-1]. *)
Definition side_new (numDims : nat) : exec side_it :=
  match numDims with
  | O => Undef OutOfBounds
  | _ => Ret (mkSide 0 (side_num numDims) (side_prods numDims))
  end.

(** cpp/SgSideIterator.h:52-54. *)
Definition side_reset (s : side_it) : side_it :=
  mkSide 0 (sd_numElems s) (sd_prodDims s).

(** cpp/SgSideIterator.h:60-66. *)
Definition side_next (s : side_it) : Z * side_it :=
  let i := wrap64 (sd_index s + 1) in
  ((if i <? sd_numElems s then 0 else 1), mkSide i (sd_numElems s) (sd_prodDims s)).

(** cpp/SgSideIterator.h:72-79: [-1 + index / prodDims[i] % 3] is computed in
    [size_t] and converted to [int].  (A zero entry of prodDims, only possible
    after wrap-around for more than 2^64 sides, would divide by zero.) *)
Definition side_get (s : side_it) : exec (list Z) :=
  mapM (fun p => if p =? 0 then Undef DivByZero
                 else Ret (to_int32 (wrap64 (wrap64 (-1) + (sd_index s / p) mod 3))))
       (sd_prodDims s).

(** cpp/SgSideIterator.h:45-47. *)
Definition side_getNumberOfElements (s : side_it) : Z := sd_numElems s.
