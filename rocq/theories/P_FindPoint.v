(** Property theorems C07-C16: point search in a structured grid. *)
From Coq Require Import ZArith List Reals Lra Lia Floats.SpecFloat.
From Verif Require Import Base Num NumR NumF M_LinearSolve M_FindPoint S_LinAlg L_GelsR S_Grid
  L_LinearSolve L_Cramer L_Interp L_FindPoint L_FindPointR L_FindPointA L_FindPointB.
Import ListNotations.
Open Scope R_scope.

(** setGrid succeeds on every grid with at least two nodes along each axis (and a
    number of nodes that is an int), whatever the object held before. *)
Theorem C07_setGrid_defined : forall (T : Type) (N : Num T) (s : fp (T:=T)) dims per coords,
  grid_data dims coords -> is_ret (fp_setGrid s dims per coords).
Proof.
  intros. destruct (setGrid_ok s dims per coords H) as (s' & E & _). exists s'. exact E.
Qed.
Print Assumptions C07_setGrid_defined.

(** C07. *)
Theorem C07_weights_partition_of_unity : forall s0 (s : fp (T:=R)) dims per coords,
  grid_data dims coords -> fp_setGrid s0 dims per coords = Ret s ->
  forall xs, in_grid dims xs ->
  exists c iw, fp_getSrcIndicesAndWeights s xs = Ret iw /\ is_cell dims c xs /\
    (forall k w, In (k, w) iw <-> exists v, is_corner c v /\ k = flat dims v /\ w = hat xs v) /\
    NoDup (map fst iw) /\ Z.of_nat (length iw) = (2 ^ Z.of_nat (length dims))%Z /\
    (forall k w, In (k, w) iw -> (0 <= k < grid_size dims)%Z /\ 0 <= w <= 1) /\
    lsum (map snd iw) = 1.
Proof. exact weights_partition. Qed.
Print Assumptions C07_weights_partition_of_unity.

(** C08. *)
Theorem C08_interp_exact : forall s0 (s : fp (T:=R)) dims per coords, grid_data dims coords ->
  fp_setGrid s0 dims per coords = Ret s ->
  forall field, Z.of_nat (length field) = grid_size dims ->
  (forall v, is_node dims v -> fp_interp s (map IZR v) field = Ret (nth (Z.to_nat (flat dims v)) field 0)) /\
  (forall c0 cs, (forall v, is_node dims v -> nth (Z.to_nat (flat dims v)) field 0 = c0 + dot cs (map IZR v)) ->
   forall xs, in_grid dims xs -> fp_interp s xs field = Ret (c0 + dot cs xs)).
Proof. exact interp_node. Qed.
Print Assumptions C08_interp_exact.

(** C09. Any linear solver result: every number of calls of next is defined (no array
    access out of bounds, no overflow) and the indices stay inside the grid. *)
Theorem C09_indices_stay_in_grid : forall g s0 (s : fp (T:=R)) dims per coords guess target s1 k,
  grid_data dims coords -> fp_setGrid s0 dims per coords = Ret s ->
  in_grid dims guess -> length target = length dims ->
  fp_reset s guess target = Ret s1 -> (Z.of_nat k <= int_max)%Z ->
  exists codes s', fp_steps g k s1 = Ret (codes, s') /\ in_grid dims (fp_dIndices s').
Proof. exact indices_stay. Qed.
Print Assumptions C09_indices_stay_in_grid.

(** C10. Any arithmetic, any linear solver: the loop calling next until it returns
    something else than 0 never needs more than max(1, nitermax) calls. *)
Theorem C10_search_terminates : forall (T : Type) (N : Num T) g (s s1 : fp (T:=T)) guess target fuel,
  fp_reset s guess target = Ret s1 ->
  (Z.max 1 (fp_nitermax s) <= Z.of_nat fuel)%Z -> fp_loop g fuel s1 <> Ret None.
Proof.
  intros T N g s s1 guess target fuel HR Hf.
  assert (E : fp_nitermax s1 = fp_nitermax s /\ fp_iter s1 = 0%Z).
  { unfold fp_reset in HR. apply bind_ret_inv in HR. destruct HR as (a & _ & HR).
    apply bind_ret_inv in HR. destruct HR as (b & _ & HR). injection HR as <-. auto. }
  destruct E as [E1 E2]. apply loop_terminates; [lia|]. rewrite E1, E2. lia.
Qed.
Print Assumptions C10_search_terminates.

(** C10, exact arithmetic: moreover no call is undefined, so a code is delivered. *)
Theorem C10_search_delivers : forall g dims coords (s : fp (T:=R)),
  fp_good dims coords s -> fp_iter s = 0%Z -> (fp_nitermax s <= int_max)%Z ->
  exists code s', fp_loop g (Z.to_nat (Z.max 1 (fp_nitermax s))) s = Ret (Some (code, s')) /\ code <> 0%Z /\
    in_grid dims (fp_dIndices s').
Proof.
  intros g dims coords s G HI HM. destruct (loop_ends g dims coords s G HI HM) as (code & s' & E & C & G').
  exists code, s'. split; auto. split; auto. apply G'.
Qed.
Print Assumptions C10_search_delivers.

(** C11, any arithmetic. *)
Theorem C11_converged_below_tolerance : forall (T : Type) (N : Num T) g (s s' : fp (T:=T)),
  fp_next g s = Ret (1%Z, s') ->
  exists e, fp_getError s' = Ret e /\ nlt e (fp_tolpos s') = true /\
    fp_inside (fp_target s') (fp_xmins s') (fp_xmaxs s') = true.
Proof. intros T N. exact next_converged. Qed.
Print Assumptions C11_converged_below_tolerance.

(** C11, exact arithmetic: the error is the Euclidean distance between the target and
    the multilinear interpolation of the node coordinates, component by component the
    value returned by interp. *)
Theorem C11_error_is_distance : forall dims coords (s : fp (T:=R)), fp_good dims coords s ->
  exists p, fp_getPosition s = Ret p /\ length p = length dims /\
    (forall i, (i < length dims)%nat ->
       fp_interp s (fp_dIndices s) (nth i coords []) = Ret (nth i p 0)) /\
    fp_getError s = Ret (sqrt (rsum (length dims) (fun i => (nth i p 0 - nth i (fp_target s) 0) ^ 2))).
Proof.
  intros dims coords s G. eexists. split; [apply (getPosition_R dims coords); exact G|].
  rewrite map_length, seq_length. split; auto. split.
  - intros i Hi. rewrite seq_map_nth by auto. destruct G as (HD & Hh & _ & _ & _ & _ & Hx).
    rewrite (interp_R dims); auto; [apply HD|]. apply good_coord; auto.
  - rewrite (getError_R dims coords) by auto. unfold distance. do 2 f_equal. apply rsum_ext.
    intros i Hi. rewrite seq_map_nth by auto. ring.
Qed.
Print Assumptions C11_error_is_distance.

(** C12. Any arithmetic, any two histories of resets and nexts on the same object:
    the following search gives the same codes, indices and error histories. *)
Theorem C12_history_independent : forall (T : Type) (N : Num T) g s (s0 : fp (T:=T)) dims per coords h1 h2 o1 o2 s1 s2,
  grid_data dims coords -> fp_setGrid s dims per coords = Ret s0 ->
  fp_ops g h1 s0 = Ret (o1, s1) -> fp_ops g h2 s0 = Ret (o2, s2) ->
  forall guess target fuel,
  bind (fp_reset s1 guess target) (fp_trace g fuel) = bind (fp_reset s2 guess target) (fp_trace g fuel).
Proof.
  intros T N g s s0 dims per coords h1 h2 o1 o2 s1 s2 HD HS.
  destruct (setGrid_ok s dims per coords HD) as (s' & E & (Hd & _) & _ & W & _).
  rewrite HS in E. injection E as <-. apply search_history_independent; auto.
  rewrite Hd. apply HD.
Qed.
Print Assumptions C12_history_independent.

(** C13. *)
Theorem C13_affine_one_step : forall g nit tol dims per coords (s0 s : fp (T:=R)) guess target c A ts,
  gels_spec g (length dims) (length dims) ->
  grid_data dims coords -> length per = length dims ->
  affine_grid dims coords c A -> invertible (length dims) A ->
  fp_setGrid (fp_new nit tol) dims per coords = Ret s0 ->
  in_grid dims guess -> in_grid dims ts -> length target = length dims ->
  (forall i, (i < length dims)%nat -> nth i target 0 = nth i c 0 + dot (nth i A []) ts) ->
  fp_reset s0 guess target = Ret s ->
  exists code s', fp_next g s = Ret (code, s') /\ fp_dIndices s' = ts /\ fp_getError s' = Ret 0 /\
    ((1 < nit)%Z -> 0 < tol -> code = 1%Z).
Proof.
  intros g nit tol dims per coords s0 s guess target c A ts HG HD LP HA HI HS Hg Hts Ht HT HR.
  destruct (reset_good _ s0 dims per coords guess target HD HS Hg Ht)
    as (s' & E & G & ET & EI & I & EE & B1 & B2 & P & EN & EO).
  rewrite HR in E. injection E as <-.
  destruct (setGrid_ok (fp_new nit tol) dims per coords HD) as (s' & E & _ & _ & _ & _ & _ & _ & _ & PE & _).
  rewrite HS in E. injection E as <-.
  assert (BH : box_holds dims coords s) by (eapply box_holds_after; eauto).
  assert (PO : periods_ok dims (fp_period s)).
  { rewrite P, PE. cbn [fp_new fp_period]. apply fresh_periods. auto. }
  destruct (affine_one_step g dims coords c A s ts HG G BH PO I EE HA HI Hts) as (code & s' & R1 & R2 & _ & R3 & R4).
  { rewrite ET. auto. }
  exists code, s'. rewrite EN, EO in R4. auto.
Qed.
Print Assumptions C13_affine_one_step.

(** C14 is false: the box of the previous grid is kept.  For any linear solver: after
    setting the grid [0,1]^2 and then the grid [10,11]^2 the target (5,5) is not
    rejected, while a fresh object rejects it. *)
Definition sqA : list (list R) := [[0; 0; 1; 1]; [0; 1; 0; 1]].
Definition sqB : list (list R) := [[10; 10; 11; 11]; [10; 11; 10; 11]].

Lemma sq_data : forall c, c = sqA \/ c = sqB -> grid_data [2; 2]%Z c.
Proof.
  intros c [-> | ->]; (split; [discriminate|split; [split; [repeat constructor; lia|simpl; lia]|split; [reflexivity|repeat constructor]]]).
Qed.

Lemma nmax_big : 100 <= (nmax : R).
Proof. unfold nmax. cbn [nofZ NumR]. apply IZR_le. vm_compute. discriminate. Qed.

Lemma sq_finite : forall c, c = sqA \/ c = sqB -> finite_coords c.
Proof.
  intros c Hc l v Hl Hv. assert (B := nmax_big).
  assert (0 <= v <= 11); [|lra].
  destruct Hc as [-> | ->]; simpl in Hl; destruct Hl as [<-|[<-|[]]]; simpl in Hv;
    decompose [or] Hv; subst; try lra; contradiction.
Qed.

Lemma sq_guess : in_grid [2; 2]%Z [0; 0].
Proof. constructor; [|constructor; [|constructor]]; change (IZR (2 - 1)) with 1; lra. Qed.

Theorem C14_stale_box_refuted : forall g nit tol,
  exists sF sA sB s1 s2 s2' code,
    fp_setGrid (fp_new nit tol) [2; 2]%Z [0; 0]%Z sqB = Ret sF /\
    fp_setGrid (fp_new nit tol) [2; 2]%Z [0; 0]%Z sqA = Ret sA /\
    fp_setGrid sA [2; 2]%Z [0; 0]%Z sqB = Ret sB /\
    bind (fp_reset sF [0; 0] [5; 5]) (fp_next g) = Ret ((-3)%Z, s1) /\
    fp_reset sB [0; 0] [5; 5] = Ret s2 /\
    fp_next g s2 = Ret (code, s2') /\ code <> (-3)%Z.
Proof.
  intros g nit tol.
  assert (HA := sq_data sqA (or_introl eq_refl)). assert (HB := sq_data sqB (or_intror eq_refl)).
  destruct (C07_setGrid_defined R NumR (fp_new nit tol) [2; 2]%Z [0; 0]%Z sqB HB) as [sF EF].
  destruct (C07_setGrid_defined R NumR (fp_new nit tol) [2; 2]%Z [0; 0]%Z sqA HA) as [sA EA].
  destruct (C07_setGrid_defined R NumR sA [2; 2]%Z [0; 0]%Z sqB HB) as [sB EB].
  destruct (reset_good _ sF [2; 2]%Z [0; 0]%Z sqB [0; 0] [5; 5] HB EF sq_guess eq_refl) as (s1 & R1 & _).
  destruct (reset_good _ sB [2; 2]%Z [0; 0]%Z sqB [0; 0] [5; 5] HB EB sq_guess eq_refl) as (s2 & R2 & _).
  destruct (outside_rejected g nit tol sF [2; 2]%Z [0; 0]%Z sqB [0; 0] [5; 5] s1 HB
     (sq_finite _ (or_intror eq_refl)) EF sq_guess eq_refl R1) as (code & s1' & N1 & O1 & _).
  destruct (stale_box g (fp_new nit tol) sA sB s2 [2; 2]%Z [0; 0]%Z sqA [2; 2]%Z [0; 0]%Z sqB [0; 0] [5; 5] HA HB eq_refl EA EB sq_guess eq_refl)
    as (code2 & s2' & N2 & O2); auto.
  { intros i Hi. exists 0, 11. destruct i as [|[|i]]; simpl in *; [..|lia]; (split; [auto 10|split; [auto 10|lra]]). }
  exists sF, sA, sB, s1', s2, s2', code2. repeat split; auto. rewrite R1. cbn [bind].
  assert (C : code = (-3)%Z).
  { apply O1. exists 0%nat. split; [simpl; lia|]. left. intros v Hv.
    assert (E : (fp_eps : R) < 1).
    { unfold fp_eps, neps. rewrite lit_R. cbn [nmul nofZ NumR].
      assert (200 < IZR (2 ^ 52)) by (apply IZR_lt; reflexivity).
      apply Rmult_lt_reg_r with (IZR (2 ^ 52)); [lra|]. field_simplify; lra. }
    simpl in Hv. simpl. decompose [or] Hv; subst; lra || contradiction. }
  rewrite <- C. exact N1.
Qed.
Print Assumptions C14_stale_box_refuted.

(** C14 is false for the periodicity too (IEEE arithmetic): a grid that was periodic
    leaves its period behind.  One axis with nodes 0, 1, 1.125; the step from index 1.75
    towards 0.375 overshoots to the low side.  A fresh non-periodic object clips to index
    0, the reused one wraps to the other end. *)
Definition Fq (n d : Z) : spec_float := lit n d.
Definition axC : list (list spec_float) := [[Fq 0 1; Fq 1 1; Fq 9 8]].

Theorem C14_stale_period_refuted :
  let fresh := let! s := fp_setGrid (fp_new 10 (Fq 1 1000)) [3]%Z [0]%Z axC in
               let! s := fp_reset s [Fq 7 4] [Fq 3 8] in
               let! r := fp_next cramer s in Ret (fst r, fp_dIndices (snd r)) in
  let reused := let! s := fp_setGrid (fp_new 10 (Fq 1 1000)) [3]%Z [1]%Z axC in
               let! s := fp_setGrid s [3]%Z [0]%Z axC in
               let! s := fp_reset s [Fq 7 4] [Fq 3 8] in
               let! r := fp_next cramer s in Ret (fst r, fp_dIndices (snd r)) in
  fresh = Ret (0%Z, [Fq 0 1]) /\ exists x, reused = Ret (0%Z, [x]) /\ nlt (Fq 1 1) x = true.
Proof. vm_compute. split; [reflexivity|]. eexists. split; reflexivity. Qed.
Print Assumptions C14_stale_period_refuted.

(** C14, what holds: if the old bounding box lies inside the new one and no axis stops
    being periodic, every search on the reused object is that of a fresh one, after any
    sequence of searches on the old grid. *)
Theorem C14_regrid_partial : forall g nit tol (sA sA' sB sF : fp (T:=R)) h o dimsA perA coordsA dimsB perB coordsB,
  grid_data dimsA coordsA -> grid_data dimsB coordsB -> length dimsA = length dimsB ->
  length perA = length dimsA -> length perB = length dimsB ->
  finite_coords coordsA -> finite_coords coordsB ->
  fp_setGrid (fp_new nit tol) dimsA perA coordsA = Ret sA ->
  fp_ops g h sA = Ret (o, sA') ->
  fp_setGrid sA' dimsB perB coordsB = Ret sB ->
  fp_setGrid (fp_new nit tol) dimsB perB coordsB = Ret sF ->
  box_within (length dimsB) coordsA coordsB ->
  Forall2 (fun a b => a <> 0%Z -> b <> 0%Z) perA perB ->
  forall guess target fuel,
  bind (fp_reset sB guess target) (fp_trace g fuel) = bind (fp_reset sF guess target) (fp_trace g fuel).
Proof. exact regrid_fresh. Qed.
Print Assumptions C14_regrid_partial.

(** C15. *)
Theorem C15_outside_box_rejected : forall g nit tol (s : fp (T:=R)) dims per coords guess target s1,
  grid_data dims coords -> finite_coords coords ->
  fp_setGrid (fp_new nit tol) dims per coords = Ret s -> in_grid dims guess -> length target = length dims ->
  fp_reset s guess target = Ret s1 ->
  exists code s2, fp_next g s1 = Ret (code, s2) /\
  (code = (-3)%Z <-> exists i, (i < length dims)%nat /\
     ((forall v, In v (nth i coords []) -> nth i target 0 < v - fp_eps) \/
      (forall v, In v (nth i coords []) -> nth i target 0 > v + fp_eps))) /\
  (code = (-3)%Z -> s2 = s1).
Proof. exact outside_rejected. Qed.
Print Assumptions C15_outside_box_rejected.

(** C15, any arithmetic: -3 leaves the whole object unchanged and is returned exactly
    when some comparison of the target with the widened box fails. *)
Theorem C15_rejection_unchanged : forall (T : Type) (N : Num T) g (s s' : fp (T:=T)) code,
  fp_next g s = Ret (code, s') ->
  (code = (-3)%Z <-> fp_inside (fp_target s) (fp_xmins s) (fp_xmaxs s) = false) /\
  (code = (-3)%Z -> s' = s).
Proof.
  intros T N g s s' code H. apply next_inv in H.
  destruct H as [(-> & -> & F)|(F & jr & sv & info & sv' & xs & err & H)].
  - tauto.
  - assert (NC : code <> (-3)%Z).
    { destruct H as (_ & _ & _ & _ & _ & _ & _ & _ & _ & _ & _ & _ & [(-> & _)|[(-> & _)|[(-> & _)|(-> & _)]]]); discriminate. }
    split; [|contradiction]. split; intros C; [contradiction|congruence].
Qed.
Print Assumptions C15_rejection_unchanged.

(** C15, IEEE: a target with a NaN component is rejected, whatever the box. *)
Theorem C15_nan_rejected : forall t mins maxs i, length mins = length t -> length maxs = length t ->
  nth_error t i = Some S754_nan -> fp_inside t mins maxs = false.
Proof.
  induction t as [|x t IH]; intros [|a mins] [|b maxs] i H1 H2 H; try discriminate; destruct i; try discriminate.
  - injection H as ->. cbn [fp_inside]. cbn [nle NumF]. unfold SFleb.
    destruct (nsub a fp_eps); reflexivity.
  - cbn [fp_inside]. rewrite (IH mins maxs i); auto. apply Bool.andb_false_r.
Qed.
Print Assumptions C15_nan_rejected.

(** C16 is false for every periodic axis, whether or not its last node repeats the
    first one: wrapping index -1/4 gives the last node. *)
Theorem C16_wrap_refuted : forall d, (2 <= d < 2 ^ 31)%Z ->
  ~ congruent (IZR d) (- (1 / 4)) (fp_truncate1 (IZR d) d (- (1 / 4))) /\
  ~ congruent (IZR (d - 1)) (- (1 / 4)) (fp_truncate1 (IZR d) d (- (1 / 4))).
Proof.
  intros d Hd. rewrite wrap_quarter by auto.
  assert (Ed : IZR (d - 1) = IZR d - 1) by (rewrite minus_IZR; reflexivity).
  assert (2 <= IZR d) by (apply IZR_le; lia). rewrite Ed. split; intros [k Hk].
  - assert (A1 : IZR k * IZR d < 0 * IZR d) by lra. assert (A2 : -1 * IZR d < IZR k * IZR d) by lra.
    apply Rmult_lt_reg_r in A1; [|lra]. apply Rmult_lt_reg_r in A2; [|lra].
    apply lt_IZR in A1. apply lt_IZR in A2. lia.
  - assert (D : IZR (k + 1) * (IZR d - 1) = - (1 / 4)) by (rewrite plus_IZR; lra).
    assert (A1 : IZR (k + 1) * (IZR d - 1) < 0 * (IZR d - 1)) by lra.
    assert (A2 : -1 * (IZR d - 1) < IZR (k + 1) * (IZR d - 1)) by lra.
    apply Rmult_lt_reg_r in A1; [|lra]. apply Rmult_lt_reg_r in A2; [|lra].
    apply lt_IZR in A1. apply lt_IZR in A2. lia.
Qed.
Print Assumptions C16_wrap_refuted.

(** In terms of positions: on a closed axis (last node = first node) index -1/4 is three
    quarters of the way from the last but one to the last node; the code uses the last. *)
Theorem C16_closed_axis_refuted : forall s0 (s : fp (T:=R)) d c, (3 <= d < 2 ^ 31)%Z ->
  Z.of_nat (length c) = d -> fp_setGrid s0 [d] [1]%Z [c] = Ret s ->
  nth (Z.to_nat (d - 1)) c 0 = nth 0 c 0 -> nth (Z.to_nat (d - 2)) c 0 <> nth 0 c 0 ->
  exists p q, fp_interp s [IZR (d - 1) - 1 / 4] c = Ret p /\
    fp_interp s (fp_truncate [IZR d] [d] [- (1 / 4)]) c = Ret q /\ p <> q /\ q = nth 0 c 0.
Proof.
  intros s0 s d c Hd Hc HS H1 H2.
  assert (HD : grid_data [d] [c]).
  { split; [discriminate|]. split; [split; [repeat constructor; lia|simpl; lia]|]. split; [reflexivity|].
    repeat constructor. simpl. lia. }
  destruct (setGrid_ok s0 [d] [1]%Z [c] HD) as (s' & E & Hh & _). rewrite HS in E. injection E as <-.
  assert (Ed : IZR (d - 1) = IZR d - 1) by (rewrite minus_IZR; reflexivity).
  assert (3 <= IZR d) by (apply IZR_le; lia).
  cbn [fp_truncate]. rewrite wrap_quarter by lia.
  assert (G1 : in_grid [d] [IZR (d - 1) - 1 / 4]) by (constructor; [lra|constructor]).
  assert (G2 : in_grid [d] [IZR (d - 1)]) by (constructor; [lra|constructor]).
  rewrite !(interp_R [d]) by (auto; try apply HD; simpl; lia).
  assert (EN : multilin [d] [IZR (d - 1)] (field_at [d] c) = nth 0 c 0).
  { rewrite (multilin_node [d] [d - 1]%Z) by (first [apply HD | constructor; [lia|constructor]]).
    unfold field_at. cbn [flat grid_size]. rewrite Z.mul_1_r, Z.add_0_r. exact H1. }
  eexists _, _. split; [reflexivity|]. split; [reflexivity|]. rewrite EN. split; auto.
  cbn [multilin]. unfold field_at. cbn [flat grid_size].
  assert (EC : cell d (IZR (d - 1) - 1 / 4) = (d - 2)%Z).
  { unfold cell. rewrite (Int_part_spec _ (d - 2)); [lia|]. rewrite minus_IZR. lra. }
  rewrite EC. rewrite !Z.mul_1_r, !Z.add_0_r. replace (d - 2 + 1)%Z with (d - 1)%Z by lia. rewrite H1.
  rewrite (minus_IZR d 2). replace (IZR (d - 1) - 1 / 4 - (IZR d - 2)) with (3 / 4) by lra. lra.
Qed.
Print Assumptions C16_closed_axis_refuted.

(** C16, what holds: with period equal to the number of nodes, an index equivalent to a
    position of the grid is wrapped to an equivalent one. *)
Theorem C16_wrap_partial : forall d x, (2 <= d < 2 ^ 31)%Z ->
  (exists y, 0 <= y <= IZR (d - 1) /\ congruent (IZR d) x y) ->
  congruent (IZR d) x (fp_truncate1 (IZR d) d x).
Proof. exact wrap_congruent. Qed.
Print Assumptions C16_wrap_partial.

(** ** Concrete cases *)
(** A sheared 2 x 2 grid, position (1 + 2 i + j, -1 + 3 j). *)
Definition shC : list (list R) := [[1; 2; 3; 4]; [-1; 2; -1; 2]].
Definition shA : list (list R) := [[2; 1]; [0; 3]].

Lemma sh_data : grid_data [2; 2]%Z shC.
Proof.
  split; [discriminate|split; [split; [repeat constructor; lia|simpl; lia]|split; [reflexivity|repeat constructor]]].
Qed.

Lemma sh_affine : affine_grid [2; 2]%Z shC [1; -1] shA.
Proof.
  split; [reflexivity|]. split; [repeat constructor|]. intros i v Hi Hv.
  inversion Hv as [|d x ds v' Hx Hv']; subst. inversion Hv' as [|d y ds v2 Hy Hv2]; subst. inversion Hv2; subst.
  assert (x = 0 \/ x = 1)%Z as [-> | ->] by lia; assert (y = 0 \/ y = 1)%Z as [-> | ->] by lia;
  destruct i as [|[|i]]; simpl in Hi; try lia; simpl; lra.
Qed.

Lemma sh_invertible : invertible 2 shA.
Proof.
  exists (fun i j => match i, j with O, O => 1 / 2 | O, _ => - (1 / 6) | _, O => 0 | _, _ => 1 / 3 end).
  split; intros i k Hi Hk; destruct i as [|[|i]]; try lia; destruct k as [|[|k]]; try lia;
    unfold entry; simpl; lra.
Qed.

Lemma sh_guess : forall x y, 0 <= x <= 1 -> 0 <= y <= 1 -> in_grid [2; 2]%Z [x; y].
Proof. intros. constructor; [|constructor; [|constructor]]; change (IZR (2 - 1)) with 1; lra. Qed.

(** C07, C08, C09, C13, C15: the hypotheses are met by the sheared grid; the search from
    the corner lands on (1/4, 1/2) in one step. *)
Example C13_nonvacuous : exists s0 s s',
  fp_setGrid (fp_new 10 (1 / 1000)) [2; 2]%Z [0; 0]%Z shC = Ret s0 /\
  fp_reset s0 [1; 1] [2; 1 / 2] = Ret s /\
  fp_next gels2 s = Ret (1%Z, s') /\ fp_dIndices s' = [1 / 4; 1 / 2].
Proof.
  destruct (C07_setGrid_defined R NumR (fp_new 10 (1 / 1000)) [2; 2]%Z [0; 0]%Z shC sh_data) as [s0 E0].
  destruct (reset_good _ s0 [2; 2]%Z [0; 0]%Z shC [1; 1] [2; 1 / 2] sh_data E0 ltac:(apply sh_guess; lra) eq_refl)
    as (s & E & _).
  destruct (C13_affine_one_step gels2 10 (1 / 1000) [2; 2]%Z [0; 0]%Z shC s0 s [1; 1] [2; 1 / 2] [1; -1] shA [1 / 4; 1 / 2])
    as (code & s' & H1 & H2 & _ & H3); auto.
  - exact gels2_spec22.
  - exact sh_data.
  - exact sh_affine.
  - exact sh_invertible.
  - apply sh_guess; lra.
  - apply sh_guess; lra.
  - intros i Hi. destruct i as [|[|i]]; simpl in *; [lra|lra|lia].
  - exists s0, s, s'. rewrite H3 in H1 by (lra || lia). auto.
Qed.

(** Three dimensions: a 2 x 2 x 2 grid, position (2 k, 3 i, 5 j + k) at the node (i, j, k);
    the axes are permuted and the grid is sheared. *)
Definition sh3C : list (list R) := [[0; 2; 0; 2; 0; 2; 0; 2]; [0; 0; 0; 0; 3; 3; 3; 3]; [0; 1; 5; 6; 0; 1; 5; 6]].
Definition sh3A : list (list R) := [[0; 0; 2]; [3; 0; 0]; [0; 5; 1]].

Lemma sh3_data : grid_data [2; 2; 2]%Z sh3C.
Proof.
  split; [discriminate|split; [split; [repeat constructor; lia|simpl; lia]|split; [reflexivity|repeat constructor]]].
Qed.

Lemma sh3_affine : affine_grid [2; 2; 2]%Z sh3C [0; 0; 0] sh3A.
Proof.
  split; [reflexivity|]. split; [repeat constructor|]. intros i v Hi Hv.
  inversion Hv as [|d x ds v' Hx Hv']; subst. inversion Hv' as [|d y ds v2 Hy Hv2]; subst. inversion Hv2 as [|d z ds v3 Hz Hv3]; subst. inversion Hv3; subst.
  assert (x = 0 \/ x = 1)%Z as [-> | ->] by lia; assert (y = 0 \/ y = 1)%Z as [-> | ->] by lia; assert (z = 0 \/ z = 1)%Z as [-> | ->] by lia;
  destruct i as [|[|[|i]]]; simpl in Hi; try lia; simpl; lra.
Qed.

Lemma sh3_invertible : invertible 3 sh3A.
Proof.
  exists (fun i j => match i, j with O, S O => 1 / 3 | S O, O => - (1 / 10) | S O, S (S O) => 1 / 5 | S (S O), O => 1 / 2 | _, _ => 0 end).
  split; intros i k Hi Hk; destruct i as [|[|[|i]]]; try lia; destruct k as [|[|[|k]]]; try lia;
    unfold entry; simpl; lra.
Qed.

Lemma sh3_guess : forall x y z, 0 <= x <= 1 -> 0 <= y <= 1 -> 0 <= z <= 1 -> in_grid [2; 2; 2]%Z [x; y; z].
Proof. intros. repeat (constructor; [change (IZR (2 - 1)) with 1; lra|]). constructor. Qed.

Example C13_nonvacuous3 : exists s0 s s',
  fp_setGrid (fp_new 10 (1 / 1000)) [2; 2; 2]%Z [0; 0; 0]%Z sh3C = Ret s0 /\
  fp_reset s0 [1; 1; 0] [1; 1; 3] = Ret s /\
  fp_next gelsR s = Ret (1%Z, s') /\ fp_dIndices s' = [1 / 3; 1 / 2; 1 / 2].
Proof.
  destruct (C07_setGrid_defined R NumR (fp_new 10 (1 / 1000)) [2; 2; 2]%Z [0; 0; 0]%Z sh3C sh3_data) as [s0 E0].
  destruct (reset_good _ s0 [2; 2; 2]%Z [0; 0; 0]%Z sh3C [1; 1; 0] [1; 1; 3] sh3_data E0 ltac:(apply sh3_guess; lra) eq_refl)
    as (s & E & _).
  destruct (C13_affine_one_step gelsR 10 (1 / 1000) [2; 2; 2]%Z [0; 0; 0]%Z sh3C s0 s [1; 1; 0] [1; 1; 3] [0; 0; 0] sh3A [1 / 3; 1 / 2; 1 / 2])
    as (code & s' & H1 & H2 & _ & H3); auto.
  - exact (gelsR_spec 3 3).
  - exact sh3_data.
  - exact sh3_affine.
  - exact sh3_invertible.
  - apply sh3_guess; lra.
  - apply sh3_guess; lra.
  - intros i Hi. destruct i as [|[|[|i]]]; simpl in *; [lra|lra|lra|lia].
  - exists s0, s, s'. rewrite H3 in H1 by (lra || lia). auto.
Qed.

(** C07, C08: weights at (1/4, 1/2) are 3/8, 3/8, 1/8, 1/8. *)
Example C07_nonvacuous : exists s iw,
  fp_setGrid (fp_new 10 (1 / 1000)) [2; 2]%Z [0; 0]%Z shC = Ret s /\
  fp_getSrcIndicesAndWeights s [1 / 4; 1 / 2] = Ret iw /\ In (0%Z, 3 / 8) iw /\ In (3%Z, 1 / 8) iw.
Proof.
  destruct (C07_setGrid_defined R NumR (fp_new 10 (1 / 1000)) [2; 2]%Z [0; 0]%Z shC sh_data) as [s E0].
  destruct (C07_weights_partition_of_unity _ s _ _ _ sh_data E0 [1 / 4; 1 / 2] ltac:(apply sh_guess; lra))
    as (c & iw & E & CC & H & _).
  exists s, iw. split; auto. split; auto.
  assert (c = [0; 0]%Z).
  { destruct CC as [CC _]. inversion CC as [|d x ds v' Hx Hv']; subst.
    inversion Hv' as [|d y ds v2 Hy Hv2]; subst. inversion Hv2; subst. do 2 f_equal; lia. }
  subst c. split; apply H.
  - exists [0; 0]%Z. split; [repeat constructor|]. split; [reflexivity|]. simpl. rewrite !Rabs_pos_eq by lra. lra.
  - exists [1; 1]%Z. split; [constructor; [lia|constructor; [lia|constructor]]|]. split; [reflexivity|]. simpl. rewrite !Rabs_left by lra. lra.
Qed.

(** C10, C11, C12: IEEE runs of the search, on a curved grid; four steps, converged, and the
    same after another search. *)
Definition cvC : list (list spec_float) :=
  [[Fq 0 1; Fq 0 1; Fq 1 1; Fq 1 1; Fq 2 1; Fq 5 2]; [Fq 0 1; Fq 1 1; Fq 1 4; Fq 3 2; Fq 0 1; Fq 1 1]].

Definition cv_run (h : list fp_op) : exec (list (Z * list spec_float * list spec_float)) :=
  let! s := fp_setGrid (fp_new 10 (Fq 1 1000000)) [3; 2]%Z [0; 0]%Z cvC in
  let! r := fp_ops cramer h s in
  let! s := fp_reset (snd r) [Fq 0 1; Fq 0 1] [Fq 7 4; Fq 3 4] in
  fp_trace cramer 12 s.

Example C10_nonvacuous : exists l, cv_run [] = Ret l /\ map (fun x => fst (fst x)) l = [0; 0; 0; 1]%Z.
Proof. eexists. split; vm_compute; reflexivity. Qed.

Example C12_nonvacuous : cv_run [] = cv_run [OpReset [Fq 1 1; Fq 1 1] [Fq 1 3; Fq 1 3]; OpNext; OpNext; OpNext]
  /\ is_ret (cv_run []).
Proof. split; [vm_compute; reflexivity|]. eexists. vm_compute. reflexivity. Qed.

(** C14: the partial theorem applies to any grid set twice. *)
Example C14_nonvacuous : box_within 2 sqA sqA /\ Forall2 (fun a b : Z => a <> 0%Z -> b <> 0%Z) [0; 0]%Z [0; 1]%Z.
Proof.
  split.
  - intros i v Hi Hv. split; exists v; (split; [auto|lra]).
  - repeat constructor; auto.
Qed.

(** C15: a rejected target exists on the sheared grid (see also C14_stale_box_refuted). *)
Example C15_nonvacuous : exists i, (i < 2)%nat /\ forall v, In v (nth i shC []) -> nth i [2; 5] 0 > v + 1.
Proof. exists 1%nat. split; [lia|]. intros v Hv. simpl in *. decompose [or] Hv; subst; lra || contradiction. Qed.

(** C16: index 7.25 on an axis of 3 nodes is equivalent to 1.25. *)
Example C16_nonvacuous : exists y, 0 <= y <= IZR (3 - 1) /\ congruent (IZR 3) (29 / 4) y.
Proof. exists (5 / 4). split; [change (IZR (3 - 1)) with 2; lra|]. exists 2%Z. simpl. lra. Qed.
