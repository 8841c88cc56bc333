(** Specification: the calls of a program, counted object by object, without looking at the heap. *)
From Coq Require Import ZArith List Bool Arith.
From Verif Require Import M_Heap.
Import ListNotations.

(** What the caller did to an object: its class, the number of grids given to it, the number of solvers used by
    its computations, and whether it is still in use. *)
Record entry := mkEntry { e_class : class; e_grids : nat; e_comp : nat; e_alive : bool }.

(** Does the call give the object a grid? *)
Definition gives_grid (k : class) (ndims : Z) : bool :=
  match k with KFinder => (0 <? ndims)%Z | KHolder | KFlows | KFlow => true | _ => false end.

(** Solvers used in one computation with n crossed cells, apart from the last of the cell finder. *)
Definition comp_cost (k : class) (n : nat) : nat :=
  match k with KConserve => 1 | KFlow => 1 + pred n | _ => 0 end.

Definition note (l : list entry) (c : command) : list entry :=
  match c with
  | New k => l ++ [mkEntry k 0 0 true]
  | SetGrid i nd =>
      match nth_error l i with
      | Some (mkEntry k g s true) => set_nth i (mkEntry k (if gives_grid k nd then S g else g) s true) l
      | _ => l
      end
  | Compute i n =>
      match nth_error l i with
      | Some (mkEntry k g s true) => set_nth i (mkEntry k g (s + comp_cost k n) true) l
      | _ => l
      end
  | Del i =>
      match nth_error l i with
      | Some (mkEntry k g s true) => set_nth i (mkEntry k g s false) l
      | _ => l
      end
  end.

Definition ledger (p : list command) : list entry := fold_left note p [].

(** Blocks an object has from the start, blocks made for each grid, and blocks of a grid that are given back when
    the object is deleted. *)
Definition base (k : class) : nat :=
  match k with KPlain | KFinder | KConserve | KFlow => 1 | KHolder | KIntersect => 2 | KFlows => 4 end.
Definition per_grid (k : class) : nat := match k with KFinder | KHolder | KFlows => 1 | KFlow => 4 | _ => 0 end.
Definition back_grid (k : class) : nat := match k with KFinder | KHolder | KFlows => 1 | KFlow => 3 | _ => 0 end.

(** Blocks allocated on behalf of an object that are still allocated. *)
Definition held (e : entry) : nat :=
  (if e_alive e then base (e_class e) + e_grids e * per_grid (e_class e)
   else e_grids e * per_grid (e_class e) - Nat.min 1 (e_grids e) * back_grid (e_class e)) + e_comp e.

Definition total (l : list entry) : nat := list_sum (map held l).
