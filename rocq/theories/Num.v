(** Arithmetic on [double], abstracted.  Model functions are written over any
    [Num T]; see NumR.v (exact reals) and NumF.v (IEEE binary64). *)
From Coq Require Import ZArith List Bool.
From Verif Require Import Base.
Import ListNotations.
Open Scope Z_scope.

Class Num (T : Type) : Type := {
  nadd : T -> T -> T;
  nsub : T -> T -> T;
  nmul : T -> T -> T;
  ndiv : T -> T -> T;
  nopp : T -> T;
  nabs : T -> T;             (* fabs *)
  nsqrt : T -> T;            (* sqrt *)
  nfloor : T -> T;           (* floor *)
  nfmod : T -> T -> T;       (* fmod *)
  nlt : T -> T -> bool;      (* < ; [a > b] is [nlt b a] *)
  nle : T -> T -> bool;      (* <= ; [a >= b] is [nle b a] *)
  neq : T -> T -> bool;      (* == *)
  nofZ : Z -> T;             (* conversion of an integer *)
  ntoZ : T -> option Z       (* truncation towards zero, None for NaN, infinity *)
}.

Declare Scope num_scope.
Delimit Scope num_scope with num.
Infix "+" := nadd : num_scope.
Infix "-" := nsub : num_scope.
Infix "*" := nmul : num_scope.
Infix "/" := ndiv : num_scope.
Notation "- x" := (nopp x) : num_scope.
Notation "x <? y" := (nlt x y) : num_scope.
Notation "x <=? y" := (nle x y) : num_scope.
Notation "x =? y" := (neq x y) : num_scope.
Notation "x >? y" := (nlt y x) : num_scope.
Notation "x >=? y" := (nle y x) : num_scope.

Section Derived.
Context {T : Type} {N : Num T}.
Local Open Scope num_scope.

Definition n0 : T := nofZ 0.
Definition n1 : T := nofZ 1.
Definition n2 : T := nofZ 2.

(** A decimal literal n/d with n and d exactly representable: correctly rounded
    division gives the double nearest to n/d, which is what the C++ literal is. *)
Definition lit (n d : Z) : T := nofZ n / nofZ d.

Definition nhalf : T := lit 1 2.

(** std::numeric_limits<double>::epsilon() = 2^-52. *)
Definition neps : T := lit 1 (2 ^ 52).

(** std::numeric_limits<double>::max() = (2^53 - 1) 2^971. *)
Definition nmax : T := nofZ ((2 ^ 53 - 1) * 2 ^ 971).

(** std::min(a, b) = (b < a)? b: a and std::max(a, b) = (a < b)? b: a. *)
Definition smin (a b : T) : T := if b <? a then b else a.
Definition smax (a b : T) : T := if a <? b then b else a.

(** (int) x: undefined unless the truncated value is representable. *)
Definition to_int (x : T) : exec Z :=
  match ntoZ x with
  | Some z => if in_int z then Ret z else Undef BadCast
  | None => Undef BadCast
  end.

End Derived.
