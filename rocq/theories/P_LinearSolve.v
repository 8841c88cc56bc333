(** Property theorems C05-C06: linear solver. *)
From Coq Require Import ZArith List Reals Lra Lia.
From Verif Require Import Base Num NumR M_LinearSolve S_LinAlg L_LinearSolve L_FindPointR L_GelsR.
Import ListNotations.
Open Scope R_scope.

(** C05. For any dgels that meets its documentation (exact arithmetic) and any
    earlier use of the solver: with a row-major matrix that is not zero, success
    means A x = b; independent rows give success and dependent rows a positive
    code; the residual is zero exactly when A x = b.  A zero matrix is reported as
    success with x = 0. *)
Theorem C05_square_solve : forall g n, gels_spec g n n -> (0 < n)%nat ->
  forall s a b, ls_wf n n s -> length a = (n * n)%nat -> length b = n ->
  exists info s', ls_run g s a b = Ret (info, s') /\ ls_wf n n s' /\
    (forall x, x = (fun j => nth j (ls_getSolution s') 0) ->
    (info = 0%Z -> (exists k, (k < n * n)%nat /\ nth k a 0 <> 0) ->
       forall i, (i < n)%nat -> mat_vec n a x i = nth i b 0) /\
    (rows_independent n a -> info = 0%Z) /\
    (~ rows_independent n a -> (exists k, (k < n * n)%nat /\ nth k a 0 <> 0) -> (0 < info)%Z) /\
    ((forall k, (k < n * n)%nat -> nth k a 0 = 0) ->
       info = 0%Z /\ forall i, (i < n)%nat -> x i = 0) /\
    exists res, ls_getResidual s' = Ret res /\
      (res = 0 <-> forall i, (i < n)%nat -> mat_vec n a x i = nth i b 0)).
Proof. exact ls_square_correct. Qed.
Print Assumptions C05_square_solve.

(** C05, history: any arithmetic and any dgels; the outcome does not depend on what
    the solver object did before. *)
Theorem C05_solve_history_independent : forall (T : Type) (N : Num T) n g (s s' : ls (T:=T)) a b,
  ls_wf n n s -> ls_wf n n s' -> length a = (n * n)%nat -> length b = n -> (0 < n)%nat ->
  ls_run g s a b = ls_run g s' a b /\ is_ret (ls_run g s a b).
Proof. exact @ls_run_history. Qed.
Print Assumptions C05_solve_history_independent.

(** Every solver object that can be reached has the shape asked for above. *)
Theorem C05_reachable_shape : forall (T : Type) (N : Num T) n g calls (s : ls (T:=T)),
  (0 < n)%nat ->
  (forall ab, In ab calls -> length (fst ab) = (n * n)%nat /\ length (snd ab) = n) ->
  foldM (fun s ab => let! r := ls_run g s (fst ab) (snd ab) in Ret (snd r)) calls (ls_new n n) = Ret s ->
  ls_wf n n s.
Proof. exact @ls_reach_wf. Qed.
Print Assumptions C05_reachable_shape.

(** A dgels that meets the documentation for 2 x 2, and a run on a non-symmetric matrix
    (a transposed reading would give another solution). *)
Example C05_nonvacuous : gels_spec gels2 2 2 /\
  exists s', ls_run gels2 (ls_new 2 2) [1; 2; 0; 1] [5; 2] = Ret (0%Z, s') /\
    forall i, (i < 2)%nat -> nth i (ls_getSolution s') 0 = nth i [1; 2] 0.
Proof.
  split; [exact gels2_spec22|].
  destruct (C05_square_solve gels2 2 gels2_spec22 ltac:(lia) (ls_new 2 2) [1; 2; 0; 1] [5; 2]
    (ls_new_wf 2 2) eq_refl eq_refl) as (info & s' & E & W & H).
  destruct (H _ eq_refl) as (H1 & H2 & _ & _ & _).
  assert (RI : rows_independent 2 [1; 2; 0; 1]).
  { intros z Hz i Hi. assert (Z0 := Hz 0%nat ltac:(lia)). assert (Z1 := Hz 1%nat ltac:(lia)).
    simpl in Z0, Z1. destruct i as [|[|i]]; [| |lia]; lra. }
  specialize (H2 RI). subst info. exists s'. split; [exact E|].
  assert (K : exists k, (k < 2 * 2)%nat /\ nth k [1; 2; 0; 1] 0 <> 0)
    by (exists 0%nat; split; [lia|simpl; lra]).
  assert (E0 := H1 eq_refl K 0%nat ltac:(lia)). assert (E1 := H1 eq_refl K 1%nat ltac:(lia)).
  unfold mat_vec in E0, E1. simpl in E0, E1.
  intros i Hi. destruct i as [|[|i]]; [| |lia]; simpl; lra.
Qed.

(** The documentation can be met for all sizes at once: the theorems about an arbitrary
    dgels are not about nothing. *)
Theorem C05_dgels_exists : exists g : gels R, forall m n, gels_spec g m n.
Proof. exists gelsR. exact gelsR_spec. Qed.
Print Assumptions C05_dgels_exists.

(** The same dgels, 3 x 3: a permutation with a scale, not symmetric and without a pivot on
    the diagonal; and a dependent matrix, which is reported. *)
Example C05_nonvacuous3 :
  (exists s', ls_run gelsR (ls_new 3 3) [0; 2; 0; 0; 0; 3; 4; 0; 1] [2; 6; 6] = Ret (0%Z, s') /\
    forall i, (i < 3)%nat -> nth i (ls_getSolution s') 0 = nth i [1; 1; 2] 0) /\
  exists info s', ls_run gelsR (ls_new 3 3) [1; 2; 3; 4; 5; 6; 5; 7; 9] [1; 1; 1] = Ret (info, s') /\ (0 < info)%Z.
Proof.
  split.
  - destruct (C05_square_solve gelsR 3 (gelsR_spec 3 3) ltac:(lia) (ls_new 3 3) [0; 2; 0; 0; 0; 3; 4; 0; 1] [2; 6; 6]
      (ls_new_wf 3 3) eq_refl eq_refl) as (info & s' & E & W & H).
    destruct (H _ eq_refl) as (H1 & H2 & _ & _ & _).
    assert (RI : rows_independent 3 [0; 2; 0; 0; 0; 3; 4; 0; 1]).
    { intros z Hz i Hi. assert (Z0 := Hz 0%nat ltac:(lia)). assert (Z1 := Hz 1%nat ltac:(lia)). assert (Z2 := Hz 2%nat ltac:(lia)).
      simpl in Z0, Z1, Z2. destruct i as [|[|[|i]]]; [| | |lia]; lra. }
    specialize (H2 RI). subst info. exists s'. split; [exact E|].
    assert (K : exists k, (k < 3 * 3)%nat /\ nth k [0; 2; 0; 0; 0; 3; 4; 0; 1] 0 <> 0)
      by (exists 1%nat; split; [lia|simpl; lra]).
    assert (E0 := H1 eq_refl K 0%nat ltac:(lia)). assert (E1 := H1 eq_refl K 1%nat ltac:(lia)). assert (E2 := H1 eq_refl K 2%nat ltac:(lia)).
    unfold mat_vec in E0, E1, E2. simpl in E0, E1, E2.
    intros i Hi. destruct i as [|[|[|i]]]; [| | |lia]; simpl; lra.
  - destruct (C05_square_solve gelsR 3 (gelsR_spec 3 3) ltac:(lia) (ls_new 3 3) [1; 2; 3; 4; 5; 6; 5; 7; 9] [1; 1; 1]
      (ls_new_wf 3 3) eq_refl eq_refl) as (info & s' & E & W & H).
    destruct (H _ eq_refl) as (_ & _ & H3 & _ & _). exists info, s'. split; [exact E|]. apply H3.
    + intros RI. assert (Q := RI (fun i => match i with 2%nat => -1 | _ => 1 end)).
      assert (Z0 : (1 : R) = 0); [|lra].
      refine (Q _ 0%nat _); [|lia]. intros j Hj. destruct j as [|[|[|j]]]; [| | |lia]; simpl; lra.
    + exists 0%nat. split; [lia|simpl; lra].
Qed.

(** C06 is false. Fewer equations than unknowns: the call is always rejected as
    having an illegal argument (code -8), and the solution array is not a solution
    but the right-hand side itself. *)
Theorem C06_underdetermined_refuted : forall g nrow ncol, gels_spec g nrow ncol ->
  (0 < nrow < ncol)%nat ->
  forall s a b, ls_wf nrow ncol s -> length a = (nrow * ncol)%nat -> length b = nrow ->
  exists s', ls_run g s a b = Ret ((-8)%Z, s') /\ firstn nrow (ls_getSolution s') = b.
Proof. exact ls_under_rejected. Qed.
Print Assumptions C06_underdetermined_refuted.

(** More equations than unknowns: for x = 1, x = 3 the least squares solution is 2;
    the code reports success and returns 1/2, whatever dgels is used. *)
Theorem C06_overdetermined_refuted : forall g, gels_spec g 2 1 ->
  exists s', ls_run g (ls_new 2 1) [1; 1] [1; 3] = Ret (0%Z, s') /\
    nth 0 (ls_getSolution s') 0 = 1 / 2 /\
    (forall y, (1 * 2 - 1) ^ 2 + (1 * 2 - 3) ^ 2 <= (1 * y - 1) ^ 2 + (1 * y - 3) ^ 2).
Proof. exact ls_over_wrong. Qed.
Print Assumptions C06_overdetermined_refuted.

Example C06_nonvacuous : gels_spec gels2 2 1.
Proof. exact gels2_spec21. Qed.

(** What more equations than unknowns give instead, for every matrix: the storage is read as ncol rows of
    nrow elements, and the result is the solution of least norm of that system, with the first ncol elements
    of the right-hand side; the others are not used.  Missing for C06: this is not the least squares solution of
    the system given. *)
Theorem C06_overdetermined_partial : forall g nrow ncol, gels_spec g nrow ncol -> (0 < ncol < nrow)%nat ->
  forall s a b, ls_wf nrow ncol s -> length a = (nrow * ncol)%nat -> length b = nrow ->
  (forall z, (forall i, (i < nrow)%nat -> rsum ncol (fun j => z j * nth (j * nrow + i) a 0) = 0) -> forall j, (j < ncol)%nat -> z j = 0) ->
  exists s', ls_run g s a b = Ret (0%Z, s') /\
    let x := fun j => nth j (ls_getSolution s') 0 in
    (forall j, (j < ncol)%nat -> mat_vec nrow a x j = nth j b 0) /\
    (forall y, (forall j, (j < ncol)%nat -> mat_vec nrow a y j = nth j b 0) ->
       rsum nrow (fun i => x i * x i) <= rsum nrow (fun i => y i * y i)).
Proof.
  intros g nrow ncol Hg Hn s a b W La Lb FR.
  destruct (ls_run_over nrow ncol s a b g W Hn La Lb) as (s' & Run & Xs).
  destruct (Hg a (Z.of_nat nrow) b (Z.of_nat nrow) (ls_lwork s)) as [_ H].
  assert (OK : gels_args_ok (Z.of_nat nrow) (Z.of_nat ncol) (Z.of_nat nrow) (Z.of_nat nrow) (ls_lwork s) = 0%Z).
  { destruct W as (_ & _ & _ & _ & _ & _ & W). unfold gels_args_ok.
    destruct (Z.ltb_spec (Z.of_nat nrow) (Z.max 1 (Z.of_nat nrow))); [lia|].
    destruct (Z.ltb_spec (Z.of_nat nrow) (Z.max 1 (Z.max (Z.of_nat nrow) (Z.of_nat ncol)))); [lia|].
    rewrite W. unfold ls_new. cbn [ls_lwork]. destruct (Nat.ltb_spec nrow ncol); [lia|].
    match goal with |- (if ?c then _ else _) = _ => destruct c eqn:E end; auto. apply Z.ltb_lt in E. lia. }
  specialize (H OK ltac:(lia) ltac:(lia)). destruct H as [H _].
  set (r := g _ _ _ _ _ _ _) in *. clearbody r.
  assert (FT : forall i j, fortran (Z.of_nat nrow) a i j = nth (j * nrow + i) a 0).
  { intros i j. unfold fortran. rewrite Nat2Z.id. f_equal. lia. }
  destruct H as (H1 & H2 & z & H3).
  { intros z Hz. apply FR. intros i Hi. refine (eq_trans _ (Hz i Hi)). apply rsum_ext. intros j Hj. rewrite FT. ring. }
  assert (XV : forall i, (i < nrow)%nat -> nth i (ls_getSolution s') 0 = g_rhs r i).
  { intros i Hi. unfold ls_getSolution. rewrite Xs. apply seq_map_nth. auto. }
  assert (MV : forall j, (j < ncol)%nat -> mat_vec nrow a (fun j => nth j (ls_getSolution s') 0) j = nth j b 0).
  { intros j Hj. rewrite <- (H2 j Hj). apply rsum_ext. intros i Hi. rewrite XV, FT by auto. reflexivity. }
  exists s'. rewrite Run, H1. split; auto. intros x. split; auto. intros y Hy.
  assert (OR : rsum nrow (fun i => x i * (y i - x i)) = 0).
  { rewrite (rsum_ext nrow _ (fun i => rsum ncol (fun j => nth (j * nrow + i) a 0 * z j * (y i - x i)))).
    2:{ intros i Hi. rewrite rsum_scal_r. f_equal. unfold x. rewrite XV, (H3 i Hi) by auto. apply rsum_ext. intros j Hj. rewrite FT. reflexivity. }
    rewrite rsum_swap, (rsum_ext ncol _ (fun _ => 0)), rsum_zero'; auto. intros j Hj.
    rewrite (rsum_ext nrow _ (fun i => z j * (nth (j * nrow + i) a 0 * y i - nth (j * nrow + i) a 0 * x i))) by (intros; ring).
    rewrite rsum_scal_l, rsum_minus. assert (E1 := Hy j Hj). assert (E2 := MV j Hj : mat_vec nrow a x j = nth j b 0). unfold mat_vec in E1, E2. rewrite E1, E2. ring. }
  assert (P := rsum_nonneg nrow (fun i => (y i - x i) * (y i - x i)) (fun i _ => Rle_0_sqr (y i - x i))).
  rewrite (rsum_ext nrow (fun i => y i * y i) (fun i => (x i * x i + (y i - x i) * (y i - x i)) + 2 * (x i * (y i - x i)))) by (intros; ring).
  rewrite !rsum_plus, rsum_scal_l, OR. lra.
Qed.
Print Assumptions C06_overdetermined_partial.

Example C06_overdetermined_case : exists s', ls_run gels2 (ls_new 2 1) [3; 4] [5; 7] = Ret (0%Z, s') /\
  mat_vec 2 [3; 4] (fun j => nth j (ls_getSolution s') 0) 0 = 5.
Proof.
  destruct (C06_overdetermined_partial gels2 2 1 gels2_spec21 ltac:(lia) (ls_new 2 1) [3; 4] [5; 7] (ls_new_wf 2 1) eq_refl eq_refl) as (s' & E & H & _).
  - intros z Hz j Hj. assert (H0 := Hz 0%nat ltac:(lia)). cbn in H0. destruct j; [lra|lia].
  - exists s'. split; auto. apply (H 0%nat). lia.
Qed.
