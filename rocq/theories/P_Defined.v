(** Property theorems C18 and C44 in IEEE double arithmetic: the searches are defined when the
    linear solver gives back finite doubles. *)
From Coq Require Import ZArith List Lia Reals Lra Floats.SpecFloat.
From Flocq Require Import Core BinarySingleNaN.
From Verif Require Import Base Num NumR NumF M_LinearSolve M_FindPoint M_SideIterator M_NodeInterp M_FindOverlap S_Grid S_Interp
  L_LinearSolve L_Interp L_Cramer L_FindPoint L_FindPointR L_NodeInterp L_NodeInterpR L_Float L_FloatOps L_FindPointF L_FindOverlap L_FindOverlapF L_NodeInterpF L_Defined
  P_FindPoint P_FindOverlap P_FindOverlapF P_NodeInterpF.
Import ListNotations.
Open Scope R_scope.

(** C18 in double arithmetic.  Any solver that gives back finite doubles, any grids (folded ones,
    coordinates that are infinite or NaN), any history of calls: once both grids are set, computeWeights is defined. *)
Theorem C18_defined_ieee : forall g nit tol ops s d0 d1 n dc,
  (forall m k a lda b ldb lw i, dbl (g_rhs (g m k a lda b ldb lw) i)) -> (nit <= int_max)%Z -> Forall opF_ok ops ->
  ni_run g ops (ni_new nit tol) = Ret s -> ni_src s = Some (d0, d1) -> ni_dst s = Some (n, dc) ->
  exists s', ni_computeWeights g s = Ret s' /\ ni_src s' = Some (d0, d1) /\ ni_dst s' = Some (n, dc).
Proof.
  intros g nit tol ops s d0 d1 n dc GF Hn HO HR ES ED.
  destruct (run_invP g nit tol ops s GF Hn HO HR) as (I1 & _ & _ & I2). unfold dstF_ok in I1. rewrite ED in I1. rewrite ES in I2. destruct I2 as (coords & RP).
  destruct (compute_def g s d0 d1 coords n dc GF RP ES ED I1) as (s' & E & _ & E1 & E2). exists s'. rewrite E1, E2. auto.
Qed.
Print Assumptions C18_defined_ieee.

(** C44 in double arithmetic.  Any solver that gives back finite doubles, any grid, any polygons
    with at least one point: the search is defined. *)
Theorem C44_defined_ieee : forall g d0 d1 per coords polys,
  (forall m k a lda b ldb lw i, dbl (g_rhs (g m k a lda b ldb lw) i)) -> grid_data [d0; d1]%Z coords ->
  Forall (fun p => p <> []) polys -> exists s, overlap_run g d0 d1 per coords polys = Ret s.
Proof.
  intros g d0 d1 per coords polys GF HD HN.
  assert (Hok : grid_ok [d0; d1]%Z) by apply HD.
  assert (D0 := dims_ge2 [d0; d1]%Z 0 Hok ltac:(simpl; lia)). assert (D1 := dims_ge2 [d0; d1]%Z 1 Hok ltac:(simpl; lia)). cbn [nth] in D0, D1.
  assert (DM : (d0 * d1 <= int_max)%Z) by (destruct Hok as [_ Hok]; cbn [grid_size] in Hok; unfold int_max; lia).
  destruct (fresh_ready d0 d1 per coords HD) as (f & EF & F & NI & TF).
  assert (PO : List.Forall period_ok (fp_period f)).
  { destruct (setGrid_ok (fp_new 100 (lit 1 (10 ^ 6))) [d0; d1]%Z per coords HD) as (f' & E' & _ & _ & _ & _ & _ & _ & _ & Pe & _). rewrite EF in E'. injection E' as <-.
    rewrite Pe. apply periods_ok; [apply resize_periods; constructor|apply dims_range; auto]. }
  unfold overlap_run, fo_setSrcGrid. rewrite chk_ok by (unfold int_min, int_max; lia). cbn [bind fo_new fo_finder fo_cells fo_points fo_numPoints]. rewrite EF. cbn [bind].
  replace (1 * d1)%Z with d1 by lia. rewrite Forall_forall in HN.
  match goal with |- context [foldM ?h ?l ?a] => destruct (foldM_total (fun u : fo spec_float => fo_nodeDims u = [d0; d1]%Z /\ fo_prodDims u = [d1; 1%Z] /\ twin f (fo_finder u)) h l a) as (s & E & _) end.
  - cbn. auto.
  - intros u p (A1 & A2 & A3) Ip. rewrite setPolygon_ok. cbn [bind].
    destruct (find_cells_def g d0 d1 coords p (mkFo (fo_nodeDims u) (fo_prodDims u) (fo_cells u) (fo_finder u) (flat_points p) (Some (Z.of_nat (length p)))) f GF (conj F PO)) as (u' & EU); auto;
      [rewrite NI; unfold int_max; lia|].
    destruct (find_cells_F g d0 d1 coords p (mkFo (fo_nodeDims u) (fo_prodDims u) (fo_cells u) (fo_finder u) (flat_points p) (Some (Z.of_nat (length p)))) u' f (finite_doubles g GF) F PO)
      as (qs & B1 & B2 & B3 & _); auto; [rewrite NI; unfold int_max; lia|]. exists u'. auto.
  - exists s. exact E.
Qed.
Print Assumptions C44_defined_ieee.

(** Solvers that give back finite doubles exist: results that are not finite replaced by zero. *)
Definition cramer_fin : gels spec_float := fun m n a lda b ldb lw =>
  let r := cramer m n a lda b ldb lw in
  mkGels (g_info r) (g_mat r) (fun k => let v := g_rhs r k in if (SpecFloat.valid_binary fprec femax v && is_finite_SF v)%bool then v else n0).

Lemma cramer_finite : forall m k a lda b ldb lw i, dbl (g_rhs (cramer_fin m k a lda b ldb lw) i).
Proof.
  intros m k a lda b ldb lw i. unfold cramer_fin. cbn [g_rhs]. cbv zeta.
  destruct (_ && _)%bool eqn:E; [apply Bool.andb_true_iff in E; split; tauto|split; reflexivity].
Qed.

(** C18: on the grid of the case above and after it a source grid with a coordinate that is
    not a number the weights are computed (with no weights in the second case); with the solver that
    passes the NaN on they are not: hence the hypothesis. *)
Definition nanX : list spec_float := [S754_nan; lit 0 1; lit 1 1; lit 1 1].
Example C18_defined_case : Forall opF_ok (sqOps ++ [NCompute; NSetSrc 2 2 0 0 nanX sqY])%Z /\
  (exists s s', ni_run cramer_fin (sqOps ++ [NCompute; NSetSrc 2 2 0 0 nanX sqY])%Z (ni_new 10 (lit 1 1000000)) = Ret s /\
    ni_computeWeights cramer_fin s = Ret s' /\ ni_weights s' = []) /\
  (exists s, ni_run cramer_dbl (sqOps ++ [NCompute; NSetSrc 2 2 0 0 nanX sqY])%Z (ni_new 10 (lit 1 1000000)) = Ret s /\
    forall s', ni_computeWeights cramer_dbl s <> Ret s').
Proof.
  split; [|split].
  - repeat constructor; try discriminate; try lia.
  - eexists. eexists. split; [vm_compute; reflexivity|]. split; [vm_compute; reflexivity|]. reflexivity.
  - eexists. split; [vm_compute; reflexivity|]. intros s'. vm_compute. discriminate.
Qed.

(** C44: the curved grid. *)
Example C44_defined_case : grid_data [3; 3]%Z cv3 /\
  cells_read (overlap_run cramer_fin 3 3 [0; 0]%Z cv3 [[(lit 1 2, lit 3 2)]; [(lit 3 10, lit 3 10); (lit 17 10, lit 1 2); (lit 1 2, lit 7 10)]]) = Ret [0; 3]%Z.
Proof. split; [apply C44_ieee_case|]. vm_compute. reflexivity. Qed.
