(** Specification vocabulary: the weights when each pair of cells is tested by itself, with every crossing computed
    along some direction of the two edges. *)
From Coq Require Import ZArith List Bool.
From Verif Require Import Base Num M_LinearSolve M_Triangulate M_Quad M_QuadIntersect M_ConserveInterp S_ConserveTable.
Import ListNotations.
Open Scope Z_scope.

(** A list made of one piece for each element. *)
Inductive pieces {A B : Type} (R : A -> list B -> Prop) : list A -> list B -> Prop :=
| pieces_nil : pieces R [] []
| pieces_cons : forall a l x y, R a x -> pieces R l y -> pieces R (a :: l) (x ++ y).

Section Any.
Context {T : Type} {N : Num T}.
Variable srt : (nat -> nat -> bool) -> list nat -> list nat.
Variable g : gels T.

(** The crossing of two edges followed in some direction. *)
Definition either_way (a b c d : pt T) (r : list (pt T)) : Prop :=
  r = edge_edge g a b c d \/ r = edge_edge g b a c d \/ r = edge_edge g a b d c \/ r = edge_edge g b a d c.

(** Points collected for the quads a and b. *)
Definition collected (a b : quad T) (pts : list (pt T)) : Prop :=
  pieces (fun e out => exists o, out = (if in_cell g (fst e) b then [fst e] else []) ++ o /\
    pieces (fun f out => exists x, out = (if in_cell g (fst f) a then [fst f] else []) ++ x /\ either_way (fst e) (snd e) (fst f) (snd f) x)
      (qedges b) o) (qedges a) pts.

(** What the row of the destination quad a contains for the source cell c with quad b. *)
Definition entry_rel (memd : nat -> pt T) (mem : Z -> nat -> pt T) (a : quad T) (cell : Z -> quad T) (c : Z) (out : list (Z * T)) : Prop :=
  if boxes_overlap a (cell c) then
    exists pts, collected a (cell c) pts /\
      out = if (3 <=? length pts)%nat then [(c, ndiv (hull_of srt (mem c) pts) (hull_of srt memd (quad_nodes a)))] else []
  else out = [].

End Any.
