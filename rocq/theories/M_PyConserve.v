(** Model of py/conserveInterp2D.py (class ConserveInterp2D), on top of M_ConserveInterp.
    Arrays given by the caller are contiguous arrays of doubles, passed by their contents; the arrays that the class
    makes are numbered, so that sharing is visible. *)
From Coq Require Import ZArith List Bool.
From Verif Require Import Base Num M_LinearSolve M_Triangulate M_Quad M_ConserveInterp.
Import ListNotations.

Section PyConserve.
Context {T : Type} {N : Num T}.
Local Open Scope num_scope.

(** py/conserveInterp2D.py:14-18. *)
Record py := mkPy { py_handle : ci T; py_hasSrc : bool; py_hasW : bool; py_dst : option nat }.

(** An interpolator and the arrays made so far. *)
Definition world : Type := (py * list (list T))%type.

(** py/conserveInterp2D.py:9-18.  The read past the end of an empty map in the constructor of the C++ class (C41) is
    taken to be harmless. *)
Definition py_new : world := (mkPy ci_blank false false None, []).

(** The methods of the class, py/conserveInterp2D.py:26-79, with their arguments. *)
Inductive pcall :=
| PSetDst (k0 k1 : Z) (xs ys : list T)     (* the shape of xcoords; contents of xcoords and ycoords *)
| PSetSrc (k0 k1 : Z) (xs ys : list T)     (* the periodicity is not used by the C++ class *)
| PCompute (memd : Z -> nat -> pt T) (mem : Z -> Z -> nat -> pt T)
| PApply (src : list T).

(** Returned: an exception, None, or an array. *)
Inductive panswer := PRaise | PNone | PArray (a : nat).

(** Conversion to c_int keeps the low 32 bits. *)
Definition py_step srt (g : gels T) (w : world) (c : pcall) : exec (world * panswer) :=
  let '(s, arrays) := w in
  match c with
  | PSetDst k0 k1 xs ys => (* py/conserveInterp2D.py:26-38; numpy.zeros raises ValueError for negative sizes *)
      let! h := ci_setDstGrid (py_handle s) (to_int32 k0) (to_int32 k1) [xs; ys] in
      if ((k0 - 1 <? 0) || (k1 - 1 <? 0))%Z then
        Ret ((mkPy h (py_hasSrc s) (py_hasW s) (py_dst s), arrays), PRaise)
      else
        Ret ((mkPy h (py_hasSrc s) (py_hasW s) (Some (length arrays)),
              arrays ++ [repeat n0 (Z.to_nat ((k0 - 1) * (k1 - 1)))]), PNone)
  | PSetSrc k0 k1 xs ys => (* py/conserveInterp2D.py:40-54 *)
      let! h := ci_setSrcGrid (py_handle s) (to_int32 k0) (to_int32 k1) [xs; ys] in
      Ret ((mkPy h true (py_hasW s) (py_dst s), arrays), PNone)
  | PCompute memd mem => (* py/conserveInterp2D.py:70-79 *)
      match py_hasSrc s, py_dst s with
      | true, Some _ =>
          let! h := ci_computeWeights srt memd mem g (py_handle s) in
          Ret ((mkPy h (py_hasSrc s) true (py_dst s), arrays), PNone)
      | _, _ => Ret (w, PRaise)
      end
  | PApply src => (* py/conserveInterp2D.py:56-68 *)
      match py_hasW s, py_dst s with
      | true, Some a =>
          let zeroed := map (fun x => x * n0) (nth a arrays []) in
          let! out := ci_apply (py_handle s) src zeroed in
          Ret ((s, upd arrays a out), PArray a)
      | _, _ => Ret (w, PRaise)
      end
  end.

(** A program of the caller: calls one after the other; exceptions are caught. *)
Fixpoint py_run srt (g : gels T) (w : world) (cs : list pcall) : exec world :=
  match cs with
  | [] => Ret w
  | c :: cs' => let! r := py_step srt g w c in py_run srt g (fst r) cs'
  end.

End PyConserve.
Arguments py : clear implicits.
Arguments world : clear implicits.
Arguments pcall : clear implicits.
