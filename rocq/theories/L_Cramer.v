(** A concrete dgels for 1 x 1 and 2 x 2 systems over any arithmetic (Cramer's rule),
    used for concrete runs only. *)
From Coq Require Import ZArith List.
From Verif Require Import Base Num M_LinearSolve.
Import ListNotations.
Open Scope nat_scope.

Definition cramer {T} {N : Num T} : gels T := fun m n mem lda b ldb lwork =>
  let A i j := nth (i + j * Z.to_nat lda) mem n0 in
  let d := nsub (nmul (A 0 0) (A 1 1)) (nmul (A 1 0) (A 0 1)) in
  mkGels 0%Z (fun i => nth i mem n0) (fun i =>
    if Z.eqb n 1 then ndiv (nth 0 b n0) (A 0 0)
    else match i with
         | O => ndiv (nsub (nmul (nth 0 b n0) (A 1 1)) (nmul (nth 1 b n0) (A 1 0))) d
         | _ => ndiv (nsub (nmul (nth 1 b n0) (A 0 0)) (nmul (nth 0 b n0) (A 0 1))) d
         end).
