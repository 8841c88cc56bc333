(** Specification vocabulary: finite sums and linear systems over the reals, and
    what LAPACK documents about dgels. Independent of the model. *)
From Coq Require Import ZArith List Reals Lra.
From Verif Require Import M_LinearSolve.
Import ListNotations.
Open Scope R_scope.

(** f 0 + ... + f (n-1). *)
Fixpoint rsum (n : nat) (f : nat -> R) : R :=
  match n with
  | O => 0
  | S k => rsum k f + f k
  end.

(** Component [i] of the product of the [ncol]-column row-major matrix [a] with [x]. *)
Definition mat_vec (ncol : nat) (a : list R) (x : nat -> R) (i : nat) : R :=
  rsum ncol (fun j => nth (i * ncol + j) a 0 * x j).

(** The rows of the row-major [n] by [n] matrix are linearly independent. *)
Definition rows_independent (n : nat) (a : list R) : Prop :=
  forall z, (forall j, (j < n)%nat -> rsum n (fun i => z i * nth (i * n + j) a 0) = 0) ->
  forall i, (i < n)%nat -> z i = 0.

(** Element (i, j) of a Fortran array with leading dimension [lda]. *)
Definition fortran (lda : Z) (mem : list R) (i j : nat) : R :=
  nth (i + j * Z.to_nat lda)%nat mem 0.

(** dgels with trans = 'T' and one right-hand side, in exact arithmetic, for fixed
    numbers [m] of rows and [n] of columns, as documented by LAPACK:
    - arguments are checked in order, the first offending one gives info < 0;
    - for m >= n >= 1 and A of full column rank the result is the solution of
      A^T x = b of least norm (x in the range of A), info = 0;
    - a zero matrix gives x = 0, info = 0;
    - a rank deficient matrix that is not zero gives info > 0. *)
Definition gels_args_ok (m n lda ldb lwork : Z) : Z :=
  if (lda <? Z.max 1 m)%Z then (-6)%Z
  else if (ldb <? Z.max 1 (Z.max m n))%Z then (-8)%Z
  else if (lwork <? Z.max 1 (Z.min m n + Z.max (Z.min m n) 1))%Z then (-10)%Z
  else 0%Z.

Definition gels_spec (g : gels R) (m n : nat) : Prop :=
  forall mem lda b ldb lwork,
  let r := g (Z.of_nat m) (Z.of_nat n) mem lda b ldb lwork in
  let A := fortran lda mem in
  let full := forall z, (forall i, (i < m)%nat -> rsum n (fun j => A i j * z j) = 0) ->
              forall j, (j < n)%nat -> z j = 0 in
  let zero := forall i j, (i < m)%nat -> (j < n)%nat -> A i j = 0 in
  (gels_args_ok (Z.of_nat m) (Z.of_nat n) lda ldb lwork <> 0%Z ->
     g_info r = gels_args_ok (Z.of_nat m) (Z.of_nat n) lda ldb lwork /\
     (forall i, g_rhs r i = nth i b 0)) /\
  (gels_args_ok (Z.of_nat m) (Z.of_nat n) lda ldb lwork = 0%Z -> (n <= m)%nat -> (0 < n)%nat ->
     (full -> g_info r = 0%Z /\
        (forall j, (j < n)%nat -> rsum m (fun i => A i j * g_rhs r i) = nth j b 0) /\
        (exists z, forall i, (i < m)%nat -> g_rhs r i = rsum n (fun j => A i j * z j))) /\
     (zero -> g_info r = 0%Z /\ forall i, (i < m)%nat -> g_rhs r i = 0) /\
     (~ full -> ~ zero -> (0 < g_info r)%Z)).
