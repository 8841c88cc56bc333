(** Model of the ownership of heap blocks: the expressions new and delete of all classes, with the
    functions ..._new and ..._del of the C interface.  Blocks managed by std::vector, std::map and
    std::set are not modelled, nor is running out of memory. *)
From Coq Require Import ZArith List Bool.
Import ListNotations.

(** Blocks are numbered in the order of their allocation. *)
Record heap := mkHeap { hp_next : nat; hp_live : list nat }.
Definition h_new (h : heap) : nat * heap := (hp_next h, mkHeap (S (hp_next h)) (hp_next h :: hp_live h)).
(** delete of a block that is not allocated: undefined behaviour, None. *)
Definition h_free (b : nat) (h : heap) : option heap :=
  if existsb (Nat.eqb b) (hp_live h) then Some (mkHeap (hp_next h) (filter (fun x => negb (Nat.eqb b x)) (hp_live h))) else None.
(** delete of a pointer that can be NULL. *)
Definition h_delete (p : option nat) (h : heap) : option heap :=
  match p with None => Some h | Some b => h_free b h end.
Definition then_ (m : option heap) (f : heap -> option heap) : option heap := match m with None => None | Some h => f h end.

(** A SgFindPointInCell_type: its block and its member slvr. *)
Record finder := mkFinder { f_self : nat; f_slvr : option nat }.
(** cpp/SgFindPointInCell.h:73-80, cpp/SgFindPointInCell.cpp:11-15. *)
Definition finder_new (h : heap) : finder * heap :=
  let '(b, h) := h_new h in (mkFinder b None, h).
(** cpp/SgFindPointInCell.h:96-146: line 99 returns at once, line 145 does not look at the old slvr. *)
Definition finder_setGrid (ndims : Z) (f : finder) (h : heap) : finder * heap :=
  if (ndims <=? 0)%Z then (f, h) else let '(b, h) := h_new h in (mkFinder (f_self f) (Some b), h).
(** cpp/SgFindPointInCell.h:85-87. *)
Definition finder_del (f : finder) (h : heap) : option heap :=
  then_ (h_delete (f_slvr f) h) (h_free (f_self f)).

(** Objects made by the ..._new functions. *)
Inductive object :=
| Plain (self : nat)                       (* SgBoxIterator, SgLinearSolve, SgOctreePoints, SgTriangulate, SgTripolarGrid, SgLine, SgTriangle, SgTetrahedron *)
| Finder (f : finder)                      (* SgFindPointInCell *)
| Holder (self : nat) (f : finder)         (* SgNodeInterp2D, SgFindOverlappingCells2D: member pointFinder *)
| Flows (self x y : nat) (f : finder)      (* SgQuadLineFlows: members quadGridCoords and indexFinder *)
| Intersect (self slvr : nat)              (* SgQuadIntersect, SgQuadLineIntersect *)
| Conserve (self : nat)                    (* SgConserveInterp2D *)
| Flow (self : nat) (node cell e0 e1 : option nat).   (* SgFlowInterp2D: the four iterators *)

(** The constructors of [object], without the blocks. *)
Inductive class := KPlain | KFinder | KHolder | KFlows | KIntersect | KConserve | KFlow.

(** The ..._new functions: cpp/SgNodeInterp2D.h:45-47, cpp/SgFindOverlappingCells2D.h:48-57,
    cpp/SgQuadLineFlows.h:43-55, cpp/SgQuadIntersect.h:40-49, cpp/SgQuadLineIntersect.h:52-62,
    cpp/SgFlowInterp2D.h:44-51. *)
Definition make (k : class) (h : heap) : object * heap :=
  let '(b, h) := h_new h in
  match k with
  | KPlain => (Plain b, h)
  | KFinder => (Finder (mkFinder b None), h)
  | KHolder => let '(f, h) := finder_new h in (Holder b f, h)
  | KFlows => let '(x, h) := h_new h in let '(y, h) := h_new h in let '(f, h) := finder_new h in (Flows b x y f, h)
  | KIntersect => let '(s, h) := h_new h in (Intersect b s, h)
  | KConserve => (Conserve b, h)
  | KFlow => (Flow b None None None None, h)
  end.

(** The function that takes the (source) grid: SgFindPointInCell_setGrid with ndims,
    SgNodeInterp2D_setSrcGrid (cpp/SgNodeInterp2D.h:98), SgFindOverlappingCells2D_setSrcGrid (cpp/SgFindOverlappingCells2D.h:83),
    SgQuadLineFlows_setQuadPoints (cpp/SgQuadLineFlows.h:84), SgFlowInterp2D_setSrcGrid (cpp/SgFlowInterp2D.h:111-114).  The others allocate nothing. *)
Definition setGrid (ndims : Z) (o : object) (h : heap) : object * heap :=
  match o with
  | Finder f => let '(f, h) := finder_setGrid ndims f h in (Finder f, h)
  | Holder b f => let '(f, h) := finder_setGrid 2 f h in (Holder b f, h)
  | Flows b x y f => let '(f, h) := finder_setGrid 2 f h in (Flows b x y f, h)
  | Flow b _ _ _ _ =>
      let '(n, h) := h_new h in let '(c, h) := h_new h in let '(e0, h) := h_new h in let '(e1, h) := h_new h in
      (Flow b (Some n) (Some c) (Some e0) (Some e1), h)
  | _ => (o, h)
  end.

(** n calls of setGrid on the indexFinder of a SgQuadLineFlows_type. *)
Fixpoint finder_setGrids (n : nat) (f : finder) (h : heap) : finder * heap :=
  match n with O => (f, h) | S n' => let '(f, h) := finder_setGrid 2 f h in finder_setGrids n' f h end.

(** computeWeights.  SgConserveInterp2D (cpp/SgConserveInterp2D.h:170): a local SgQuadIntersect_type, which
    has no destructor.  SgFlowInterp2D (cpp/SgFlowInterp2D.h:196-197, 247): a local
    SgQuadLineIntersect_type, without destructor, and a local SgQuadLineFlows_type, whose setQuadPoints is called
    n times, once for each pair of a segment and a cell that gets weights; its destructor runs at the end.
    Other objects: nothing is allocated that is not given back. *)
Definition compute (n : nat) (o : object) (h : heap) : option heap :=
  match o with
  | Conserve _ => Some (snd (h_new h))
  | Flow _ _ _ _ _ =>
      let '(s, h) := h_new h in
      let '(x, h) := h_new h in let '(y, h) := h_new h in let '(f, h) := finder_new h in
      let '(f, h) := finder_setGrids n f h in
      then_ (h_free x h) (fun h => then_ (h_free y h) (finder_del f))
  | _ => Some h
  end.

(** The ..._del functions with the destructors: cpp/SgNodeInterp2D.h:52-54, cpp/SgFindOverlappingCells2D.h:62-64,
    cpp/SgQuadLineFlows.h:60-64, cpp/SgQuadIntersect.cpp:15-20, cpp/SgQuadLineIntersect.cpp:15-20,
    cpp/SgFlowInterp2D.h:56-63 (srcCellIt is not mentioned there). *)
Definition del (o : object) (h : heap) : option heap :=
  match o with
  | Plain b | Conserve b => h_free b h
  | Finder f => finder_del f h
  | Holder b f => then_ (finder_del f h) (h_free b)
  | Flows b x y f => then_ (h_free x h) (fun h => then_ (h_free y h) (fun h => then_ (finder_del f h) (h_free b)))
  | Intersect b s => then_ (h_free s h) (h_free b)
  | Flow b n c e0 e1 =>
      then_ (h_delete n h) (fun h => then_ (h_delete e0 h) (fun h => then_ (h_delete e1 h) (h_free b)))
  end.

(** A program of the caller.  Objects are numbered in the order of their creation. *)
Inductive command :=
| New (k : class)
| SetGrid (i : nat) (ndims : Z)
| Compute (i : nat) (n : nat)
| Del (i : nat).

(** What is allocated, and the objects made so far (None: deleted). *)
Definition state := (heap * list (option object))%type.

(** Replacement of an element; nothing when there is none. *)
Fixpoint set_nth {A} (i : nat) (x : A) (l : list A) : list A :=
  match l, i with
  | [], _ => []
  | _ :: l', O => x :: l'
  | y :: l', S i' => y :: set_nth i' x l'
  end.

(** A command on an object that does not exist or was deleted is an error of the caller: it is not
    executed (None is kept for errors of the library). *)
Definition step (st : state) (c : command) : option state :=
  let '(h, os) := st in
  match c with
  | New k => let '(o, h) := make k h in Some (h, os ++ [Some o])
  | SetGrid i ndims =>
      match nth i os None with
      | None => Some st
      | Some o => let '(o, h) := setGrid ndims o h in Some (h, set_nth i (Some o) os)
      end
  | Compute i n =>
      match nth i os None with
      | None => Some st
      | Some o => match compute n o h with None => None | Some h => Some (h, os) end
      end
  | Del i =>
      match nth i os None with
      | None => Some st
      | Some o => match del o h with None => None | Some h => Some (h, set_nth i None os) end
      end
  end.

(** A program: its commands one after the other, until the library makes an error. *)
Fixpoint run (st : state) (p : list command) : option state :=
  match p with [] => Some st | c :: p' => match step st c with None => None | Some st => run st p' end end.

(** Nothing allocated, no objects. *)
Definition start : state := (mkHeap 0 [], []).
