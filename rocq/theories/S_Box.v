(** Specification vocabulary for index boxes, independent of the model. *)
From Coq Require Import ZArith List.
Import ListNotations.
Open Scope Z_scope.

(** [v] is an index set of the half-open box [beg, en). *)
Definition in_box (beg en v : list Z) : Prop :=
  length v = length beg /\
  forall i, (i < length beg)%nat -> nth i beg 0 <= nth i v 0 < nth i en 0.

(** Number of index sets in the box: the product of the extents. *)
Fixpoint volume (beg en : list Z) : Z :=
  match beg, en with
  | b :: beg', e :: en' => (e - b) * volume beg' en'
  | _, _ => 1
  end.

(** Lexicographic order, first entry most significant. *)
Inductive lex_lt : list Z -> list Z -> Prop :=
  | lex_here : forall x y v w, x < y -> lex_lt (x :: v) (y :: w)
  | lex_next : forall x v w, lex_lt v w -> lex_lt (x :: v) (x :: w).
