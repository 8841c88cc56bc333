(** Model of cpp/SgLinearSolve.h (struct SgLinearSolve_type).
    Numbers of rows and columns are naturals (a negative or too large size makes
    std::vector::resize throw, which is not modelled).
    LAPACK's dgels is a parameter: see [gels]. *)
From Coq Require Import ZArith List Bool.
From Verif Require Import Base Num.
Import ListNotations.
Open Scope Z_scope.

(** Effect of one call of dgels: the return code and the new content of the two
    arrays (position by position). *)
Record gels_res (T : Type) := mkGels { g_info : Z; g_mat : nat -> T; g_rhs : nat -> T }.
Arguments mkGels {T}. Arguments g_info {T}. Arguments g_mat {T}. Arguments g_rhs {T}.

(** dgels('T', m, n, 1, A, lda, B, ldb, work, lwork, info).  It is a function of
    its arguments only; the content of [work] on entry is not used. *)
Definition gels (T : Type) := Z -> Z -> list T -> Z -> list T -> Z -> Z -> gels_res T.

Section LinearSolve.
Context {T : Type} {N : Num T}.
Local Open Scope num_scope.

(** cpp/SgLinearSolve.h:27-43.  [ls_lwork] is also the size of [work], whose
    content is not modelled. *)
Record ls := mkLs {
  ls_nrow : nat;
  ls_ncol : nat;
  ls_mat : list T;
  ls_matOri : list T;
  ls_b : list T;
  ls_x : list T;
  ls_lwork : Z }.

(** cpp/SgLinearSolve.h:45-58. *)
Definition ls_new (nrow ncol : nat) : ls :=
  let ldb := if (ncol <? nrow)%nat then nrow else ncol in
  let mn := Z.of_nat (if (nrow <? ncol)%nat then nrow else ncol) in
  mkLs nrow ncol (repeat n0 (nrow * ncol)) (repeat n0 (nrow * ncol)) (repeat n0 nrow)
    (repeat n0 ldb) (Z.max 1 (mn + Z.max mn 1 * 1))%Z.

(** Loop indices of [for i < n, for j < m]. *)
Definition pairs (n m : nat) : list (Z * Z) :=
  flat_map (fun i => map (fun j => (i, j)) (zseq m)) (zseq n).

(** cpp/SgLinearSolve.h:62-73. *)
Definition ls_setMatrix (s : ls) (a : list T) : exec ls :=
  let! mm := foldM (fun (mm : list T * list T) ij =>
      let k := (fst ij * Z.of_nat (ls_ncol s) + snd ij)%Z in
      let! v := vget a k in
      let! m1 := vset (fst mm) k v in
      let! m2 := vset (snd mm) k v in
      Ret (m1, m2)) (pairs (ls_nrow s) (ls_ncol s)) (ls_mat s, ls_matOri s) in
  Ret (mkLs (ls_nrow s) (ls_ncol s) (fst mm) (snd mm) (ls_b s) (ls_x s) (ls_lwork s)).

(** cpp/SgLinearSolve.h:75-80. *)
Definition ls_setRHS (s : ls) (b : list T) : exec ls :=
  let! xb := foldM (fun (xb : list T * list T) i =>
      let! v := vget b i in
      let! x1 := vset (fst xb) i v in
      let! b1 := vset (snd xb) i v in
      Ret (x1, b1)) (zseq (ls_nrow s)) (ls_x s, ls_b s) in
  Ret (mkLs (ls_nrow s) (ls_ncol s) (ls_mat s) (ls_matOri s) (snd xb) (fst xb) (ls_lwork s)).

(** cpp/SgLinearSolve.h:82-103.  [front()] of an empty vector is undefined. *)
Definition ls_solve (g : gels T) (s : ls) : exec (Z * ls) :=
  match ls_mat s, ls_x s with
  | [], _ | _, [] => Undef OutOfBounds
  | _, _ =>
    let r := g (Z.of_nat (ls_nrow s)) (Z.of_nat (ls_ncol s)) (ls_mat s) (Z.of_nat (ls_nrow s))
               (ls_x s) (Z.of_nat (length (ls_b s))) (ls_lwork s) in
    Ret (g_info r,
         mkLs (ls_nrow s) (ls_ncol s) (map (g_mat r) (seq 0 (length (ls_mat s)))) (ls_matOri s)
           (ls_b s) (map (g_rhs r) (seq 0 (length (ls_x s)))) (ls_lwork s))
  end.

(** cpp/SgLinearSolve.h:105-107. *)
Definition ls_getSolution (s : ls) : list T := ls_x s.

(** cpp/SgLinearSolve.h:109-121. *)
Definition ls_getResidual (s : ls) : exec T :=
  foldM (fun res i =>
    let! val := foldM (fun val j =>
        let! a := vget (ls_matOri s) (i * Z.of_nat (ls_ncol s) + j)%Z in
        let! x := vget (ls_x s) j in
        Ret (val + a * x)) (zseq (ls_ncol s)) n0 in
    let! bi := vget (ls_b s) i in
    Ret (res + nabs (val - bi))) (zseq (ls_nrow s)) n0.

(** The whole sequence: set the matrix and right-hand side, solve. *)
Definition ls_run (g : gels T) (s : ls) (a b : list T) : exec (Z * ls) :=
  let! s1 := ls_setMatrix s a in
  let! s2 := ls_setRHS s1 b in
  ls_solve g s2.

End LinearSolve.
