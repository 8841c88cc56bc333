(** C89: node interpolation on affine grids. *)
From Coq Require Import ZArith List Bool Reals Lra Lia Floats.SpecFloat.
From Flocq Require Import Core BinarySingleNaN.
From Verif Require Import Base Num NumR NumF M_LinearSolve M_FindPoint M_SideIterator M_NodeInterp S_Grid S_Interp S_LinAlg L_LinearSolve L_Interp L_FindPoint L_FindPointR L_FindPointA L_FindPointB L_FindPointG
  L_NodeInterp L_NodeInterpR L_NodeExact L_NodeAffine L_Cramer L_Float L_FloatOps L_FindPointF L_NodeInterpF L_FindOverlapF L_Defined L_AffineF L_CramerF P_FindPoint P_AffineF.
From Verif Require L_GelsR.
Import ListNotations.
Open Scope R_scope.

(** The value of the array at node (i, j) of a grid with [d1] nodes along the second axis. *)
Definition at_node (d1 : Z) (f : list R) (i j : Z) : R := nth (Z.to_nat (i * d1 + j)) f 0.

(** The node positions are an affine function of the indices. *)
Definition affine2 (d0 d1 : Z) (f : list R) (o a b : R) : Prop :=
  forall i j, (0 <= i < d0)%Z -> (0 <= j < d1)%Z -> at_node d1 f i j = o + a * IZR i + b * IZR j.

Lemma affine2_nodes : forall d0 d1 f o a b, affine2 d0 d1 f o a b ->
  forall v, is_node [d0; d1] v -> nth (Z.to_nat (flat [d0; d1] v)) f 0 = o + dot [a; b] (map IZR v).
Proof.
  intros d0 d1 f o a b H v Hv. inversion Hv as [|? i ? ? Hi H1]; subst. inversion H1 as [|? j ? ? Hj H2]; subst. inversion H2; subst.
  assert (Q := H i j Hi Hj). unfold at_node in Q. cbn [flat grid_size fold_right map dot]. replace (i * (d1 * 1) + (j * 1 + 0))%Z with (i * d1 + j)%Z by ring.
  rewrite Q. ring.
Qed.

Lemma invertible2 : forall a b c d, a * d - b * c <> 0 -> invertible 2 [[a; b]; [c; d]].
Proof.
  intros a b c d H. exists (fun i j => match i, j with O, O => d | O, _ => - b | _, O => - c | _, _ => a end / (a * d - b * c)).
  split; intros i k Hi Hk; destruct i as [|[|i]]; try lia; destruct k as [|[|k]]; try lia; cbn; unfold entry; cbn; field; exact H.
Qed.

(** C89. Exact arithmetic, any solver meeting the documentation of dgels, periodic or not: on an affine source grid every destination
    node in the grid gets weights, whatever the other destination nodes, and a field that is linear in the position gets the right value
    there. *)
Theorem C89_affine : forall g nit tol (s1 s2 s3 : ni (T:=R)) d0 d1 p0 p1 cx cy h n dc ox oy a b c d,
  gels_spec g 2 2 -> grid_data [d0; d1] [cx; cy] -> affine2 d0 d1 cx ox a b -> affine2 d0 d1 cy oy c d -> a * d - b * c <> 0 ->
  (1 < nit)%Z -> 0 < tol -> ni_setSrcGrid (ni_new nit tol) d0 d1 p0 p1 cx cy = Ret s1 ->
  Forall keeps_src h -> ni_run g h s1 = Ret s2 -> ni_dst s2 = Some (n, dc) -> ni_computeWeights g s2 = Ret s3 ->
  forall k t0 t1, (0 <= k < n)%Z -> 0 <= t0 <= IZR (d0 - 1) -> 0 <= t1 <= IZR (d1 - 1) ->
  let x := ox + a * t0 + b * t1 in let y := oy + c * t0 + d * t1 in
  vget dc (k * 2) = Ret x -> vget dc (k * 2 + 1) = Ret y ->
  (exists iw, In (k, iw) (ni_weights s3)) /\
  forall src dst f0 f1 f2, Z.of_nat (length src) = (d0 * d1)%Z -> Z.of_nat (length dst) = n ->
    (forall i j, (0 <= i < d0)%Z -> (0 <= j < d1)%Z -> at_node d1 src i j = f0 + f1 * at_node d1 cx i j + f2 * at_node d1 cy i j) ->
    exists out, ni_apply s3 src dst = Ret out /\ vget out k = Ret (f0 + f1 * x + f2 * y).
Proof.
  intros g nit tol s1 s2 s3 d0 d1 p0 p1 cx cy h n dc ox oy a b c d HG HD AX AY DET Hnit Htol HS HK HR ED HC k t0 t1 Hk Ht0 Ht1 x y Ex Ey.
  assert (D := dims2 d0 d1 ltac:(apply HD)).
  destruct (starts_from (fun st => in_grid [d0; d1] st) g _ s1 s2 s3 d0 d1 p0 p1 cx cy h n dc HD HS HK HR ED HC) with (k := k) as (x' & y' & st & Ex' & Ey' & Pst & SW); auto.
  { unfold start_guess. rewrite !lit_R. cbn [ndiv nofZ NumR]. assert (0 < IZR (d0 - 1)) by (apply IZR_lt; lia). assert (0 < IZR (d1 - 1)) by (apply IZR_lt; lia).
    constructor; [lra|constructor; [lra|constructor]]. }
  { intros sd Hsd. apply side_range in Hsd. destruct sd as [u v]. unfold side_pos. cbn [fst snd] in *. cbn [ndiv nofZ NumR n2]. 
    assert (BB : forall a d, (-1 <= a <= 1)%Z -> (2 <= d)%Z -> 0 <= IZR ((a + 1) * (d - 1)) / 2 <= IZR (d - 1)).
    { intros z dd Hz Hd. assert (0 <= IZR ((z + 1) * (dd - 1))) by (apply IZR_le; nia).
      assert (IZR ((z + 1) * (dd - 1)) <= 2 * IZR (dd - 1)) by (rewrite <- mult_IZR; apply IZR_le; nia). lra. }
    constructor; [apply BB; lia|constructor; [apply BB; lia|constructor]]. }
  rewrite Ex in Ex'. injection Ex' as <-. rewrite Ey in Ey'. injection Ey' as <-.
  destruct (setSrc_result _ _ _ _ _ _ _ _ HD HS) as (SG & Hh & Hc & W & _ & Hnm & Htl & _ & _). cbn [ni_new ni_finder] in SG.
  assert (Hts : in_grid [d0; d1] [t0; t1]) by (constructor; [exact Ht0|constructor; [exact Ht1|constructor]]).
  destruct (reset_good _ (ni_finder s1) [d0; d1]%Z [p0; p1]%Z [cx; cy] st [x; y] HD SG Pst eq_refl) as (s & ER & _).
  destruct (C13_affine_one_step g nit tol [d0; d1]%Z [p0; p1]%Z [cx; cy] (ni_finder s1) s st [x; y] [ox; oy] [[a; b]; [c; d]] [t0; t1]) as (code & s' & NX & EI & _ & CO); auto.
  { split; [reflexivity|]. split; [repeat constructor|]. intros i v Hi Hv. destruct i as [|[|i]]; cbn [nth]; [apply (affine2_nodes d0 d1 cx ox a b AX v Hv)|apply (affine2_nodes d0 d1 cy oy c d AY v Hv)|cbn [length] in Hi; lia]. }
  { apply invertible2. exact DET. }
  { intros i Hi. destruct i as [|[|i]]; cbn [nth dot]; [unfold x; ring|unfold y; ring|cbn [length] in Hi; lia]. }
  specialize (CO Hnit Htol). subst code.
  assert (FT : ni_findTarget g (ni_finder s1) st [x; y] = Ret (0%Z, s')).
  { eapply search_found; [exact ER|]. unfold fp_search. cbn [fp_loop]. rewrite NX. reflexivity. }
  assert (TW : twin (ni_finder s1) s').
  { apply find_result in FT; [apply FT|destruct Hh as [-> _]; discriminate|exact W]. }
  assert (Hh' : fp_holds [d0; d1] s').
  { destruct Hh as (A & B & C). destruct TW as (_ & G & _). assert (Q1 : fp_dims (ni_finder s1) = fp_dims s') by apply G. assert (Q2 : fp_prodDims (ni_finder s1) = fp_prodDims s') by apply G.
    assert (Q3 : fp_nodeProdDims (ni_finder s1) = fp_nodeProdDims s') by apply G. unfold fp_holds. rewrite <- Q1, <- Q2, <- Q3. auto. }
  destruct (weights_partition_holds s' [d0; d1]%Z ltac:(apply HD) Hh' _ Hts) as (lo & iw & EW & _).
  assert (IN : In (k, iw) (ni_weights s3)) by (apply SW; exists s'; split; [exact FT|rewrite EI; exact EW]).
  split; [exists iw; exact IN|]. intros src dst f0 f1 f2 LS LD FF.
  destruct (weights_locate g _ s1 s2 s3 d0 d1 p0 p1 cx cy h n dc HD HS HK HR ED HC) as [[K1 K2] L].
  destruct (apply_spec s3 src dst K2) as (out & EA & _ & P & _).
  { intros k' iw' Hin. split; [rewrite LD; eapply K1; eauto|]. destruct (L k' iw' Hin) as (x' & y' & px & py & _ & _ & Epx & _). apply (weighted_ret iw' cx).
    - destruct HD as (_ & _ & _ & F). inversion F; subst. cbn [nth grid_size] in *. lia.
    - exists px. exact Epx. }
  exists out. split; [exact EA|]. rewrite (P k iw IN).
  destruct (C08_interp_exact (ni_finder (ni_new nit tol)) (ni_finder s1) [d0; d1]%Z [p0; p1]%Z [cx; cy] HD SG src) as [_ AFF]; [cbn [grid_size]; lia|].
  assert (IP : fp_interp (ni_finder s1) [t0; t1] src = weighted iw src).
  { unfold fp_interp. rewrite (weights_ext (ni_finder s1) s') by apply TW. rewrite EW. reflexivity. }
  rewrite <- IP. rewrite (AFF (f0 + f1 * ox + f2 * oy) [f1 * a + f2 * c; f1 * b + f2 * d]).
  - f_equal. cbn [dot]. unfold x, y. ring.
  - apply affine2_nodes. intros i j Hi Hj. rewrite FF by auto. rewrite AX, AY by auto. ring.
  - exact Hts.
Qed.
Print Assumptions C89_affine.

(** The starting positions in double arithmetic are in the grid. *)
Lemma div_axis : forall z dd q, (2 <= dd <= 2 ^ 30)%Z -> (0 <= z <= 2 * (dd - 1))%Z -> dbl q -> IZR z <= fval q * IZR (dd - 1) -> 1 <= fval q -> on_axis dd (ndiv (nofZ z) q).
Proof.
  intros z dd q Hd Hz Dq B1 B2. destruct (f_ofZ z ltac:(lia)) as [DD DV]. assert (B : 0 <= IZR z) by (apply IZR_le; lia). assert (Bd : IZR z <= 2147483648) by (apply IZR_le; lia).
  assert (Q : 0 <= IZR z / fval q <= IZR (dd - 1)).
  { split; [apply Rmult_le_pos; [lra|left; apply Rinv_0_lt_compat; lra]|]. apply Rmult_le_reg_r with (fval q); [lra|]. unfold Rdiv. rewrite Rmult_assoc, Rinv_l by lra. lra. }
  assert (QB : IZR (dd - 1) <= 2147483647) by (apply IZR_le; lia).
  destruct (f_div (nofZ z) q DD Dq ltac:(lra)) as [E1 E2]; [rewrite DV; apply small_R; rewrite Rabs_pos_eq; lra|].
  split; auto. rewrite E2, DV. split.
  - rewrite <- (rnd_Z 0) by lia. apply rnd_le. apply Q.
  - rewrite <- (rnd_Z (dd - 1)) by lia. apply rnd_le. apply Q.
Qed.

(** C89 in double arithmetic.  The source grid is affine up to [del] and well conditioned (see C13_ieee, whose hypotheses on the
    coordinates, the solver and the tolerance these are), the object is new.  Every destination node in the grid gets weights, whatever
    the other destination nodes.  A field that is affine in the indices up to [ef] gets the right value there up to the rounding of the
    sum and the error of the index position. *)
Theorem C89_ieee : forall g nit tol (s1 s2 s3 : ni (T:=spec_float)) d0 d1 cx cy h n dc ox oy a b c d M del B sg tau eta zeta,
  let e := del + 48 * uround * M + 12 * etiny in
  let q := rate tau eta in let r := rest d0 d1 tau zeta in let D := IZR (Z.max d0 d1) in
  grid_data [d0; d1]%Z [cx; cy] -> near_affine d0 d1 M del cx ox a b -> near_affine d0 d1 M del cy oy c d ->
  M <= bpow radix2 400 -> 0 <= del <= bpow radix2 400 ->
  Rabs a <= B -> Rabs b <= B -> Rabs c <= B -> Rabs d <= B -> B <= bpow radix2 366 ->
  0 < sg -> (forall u v, sg * Rmax (Rabs u) (Rabs v) <= Rmax (Rabs (a * u + b * v)) (Rabs (c * u + d * v))) ->
  e <= tau * sg -> tau <= 1 / 64 -> 0 <= eta <= 1 / 16 -> 0 <= zeta <= 1 -> accurate2 g (2 * M + 10 * e) (sg / 2) eta zeta ->
  (3 <= nit)%Z -> dbl tol -> 4 * B * (q * (q * D + r) + r) + 4 * e + bpow radix2 (-535) <= fval tol ->
  ni_setSrcGrid (ni_new nit tol) d0 d1 0 0 cx cy = Ret s1 ->
  Forall keeps_src h -> ni_run g h s1 = Ret s2 -> ni_dst s2 = Some (n, dc) -> ni_computeWeights g s2 = Ret s3 ->
  forall k x y t0 t1, (0 <= k < n)%Z -> vget dc (k * 2) = Ret x -> vget dc (k * 2 + 1) = Ret y -> dbl x -> dbl y ->
  0 <= t0 <= IZR (d0 - 1) -> 0 <= t1 <= IZR (d1 - 1) ->
  Rabs (fval x - (ox + a * t0 + b * t1)) <= del -> Rabs (fval y - (oy + c * t0 + d * t1)) <= del ->
  (exists v, In v cx /\ fval v <= fval x) -> (exists v, In v cx /\ fval x <= fval v) ->
  (exists v, In v cy /\ fval v <= fval y) -> (exists v, In v cy /\ fval y <= fval v) ->
  (exists iw, In (k, iw) (ni_weights s3)) /\
  forall src dst Mf ef f0 f1 f2, near_affine d0 d1 Mf ef src f0 f1 f2 -> Mf <= bpow radix2 400 -> 0 <= ef <= bpow radix2 400 -> Z.of_nat (length dst) = n ->
    exists out v, ni_apply s3 src dst = Ret out /\ vget out k = Ret v /\ dbl v /\
      Rabs (fval v - (f0 + f1 * t0 + f2 * t1)) <= ef + 48 * uround * Mf + 12 * etiny + (Rabs f1 + Rabs f2) * (q * D + 2 * r).
Proof.
  intros g nit tol s1 s2 s3 d0 d1 cx cy h n dc ox oy a b c d M del B sg tau eta zeta e q r D HD AX AY HM Hdel Ba Bb Bc Bd HB Hsg HSg HT Htau Heta Hzeta HG Nit Dtol TT
    HS HK HR ED HC k x y t0 t1 Hk Ex Ey Dx Dy Ht0 Ht1 Nx Ny Lx Ux Ly Uy.
  assert (DR := L_NodeInterpR.dims2 d0 d1 (proj1 (proj2 HD))).
  destruct (starts_from (fun st => exists gx gy, st = [gx; gy] /\ on_axis d0 gx /\ on_axis d1 gy) g _ s1 s2 s3 d0 d1 0 0 cx cy h n dc HD HS HK HR ED HC) with (k := k)
    as (x' & y' & st & Ex' & Ey' & (gx & gy & -> & Hgx & Hgy) & SW); auto.
  { destruct lit_guess as [[L1 L2] [L3 L4]]. unfold start_guess. do 2 eexists. split; [reflexivity|]. assert (0 <= IZR (d0 - 1)) by (apply IZR_le; lia). assert (0 <= IZR (d1 - 1)) by (apply IZR_le; lia).
    split; apply div_axis; auto; try lia; rewrite <- Rmult_1_l at 1; apply Rmult_le_compat_r; lra. }
  { intros sd Hsd. apply side_range in Hsd. destruct sd as [u v]. unfold side_pos. cbn [fst snd] in *. do 2 eexists. split; [reflexivity|].
    assert (V2 : fval n2 = 2) by (unfold fval, n2; vm_compute (nofZ _); cbn [SF2R cond_Zopp]; unfold F2R; simpl; lra). destruct two_near as [D2 _].
    split; (apply div_axis; [lia|nia|exact D2|rewrite V2, <- mult_IZR; apply IZR_le; nia|lra]). }
  rewrite Ex in Ex'. injection Ex' as <-. rewrite Ey in Ey'. injection Ey' as <-.
  destruct (setSrc_result _ _ _ _ _ _ _ _ HD HS) as (SG & Hh & Hc & W & _ & Hnm & Htl & _ & _). cbn [ni_new ni_finder] in SG.
  assert (HG0 : in_gridF [d0; d1] [gx; gy]) by (apply Forall2_cons; [exact Hgx|apply Forall2_cons; [exact Hgy|constructor]]).
  destruct (reset_F (fp_new nit tol) (ni_finder s1) [d0; d1]%Z [0; 0]%Z [cx; cy] [gx; gy] [x; y] HD ltac:(constructor) SG HG0 eq_refl) as (_ & s & ER & _).
  destruct (C13_ieee g nit tol d0 d1 cx cy (ni_finder s1) s gx gy x y ox oy a b c d M del B sg tau eta zeta t0 t1 HD AX AY HM Hdel Ba Bb Bc Bd HB Hsg HSg HT Htau Heta Hzeta HG SG Hgx Hgy
    Dx Dy Ht0 Ht1 Nx Ny Lx Ux Ly Uy ER Nit Dtol TT) as (s' & u & v & ES & EI & Hu & Hv & Nu & Nv & _). fold q r D in Nu, Nv.
  assert (FT := search_found g _ s s' [gx; gy] [x; y] ER ES).
  assert (TW : twin (ni_finder s1) s').
  { apply find_result in FT; [apply FT|destruct Hh as [-> _]; discriminate|exact W]. }
  assert (Hh' : fp_holds [d0; d1] s').
  { destruct Hh as (H1 & H2 & H3). destruct TW as (_ & G & _). assert (Q1 : fp_dims (ni_finder s1) = fp_dims s') by apply G. assert (Q2 : fp_prodDims (ni_finder s1) = fp_prodDims s') by apply G.
    assert (Q3 : fp_nodeProdDims (ni_finder s1) = fp_nodeProdDims s') by apply G. unfold fp_holds. rewrite <- Q1, <- Q2, <- Q3. auto. }
  assert (GI : in_gridF [d0; d1] [u; v]) by (apply Forall2_cons; [exact Hu|apply Forall2_cons; [exact Hv|constructor]]).
  destruct (weights_held [d0; d1]%Z s' _ ltac:(apply HD) Hh' GI) as (lo & iw & EW & _).
  assert (IN : In (k, iw) (ni_weights s3)) by (apply SW; exists s'; split; [exact FT|rewrite EI; exact EW]).
  split; [exists iw; exact IN|]. intros src dst Mf ef f0 f1 f2 NF MF EF LD.
  destruct (weights_locate g _ s1 s2 s3 d0 d1 0 0 cx cy h n dc HD HS HK HR ED HC) as [[K1 K2] L].
  destruct (apply_spec s3 src dst K2) as (out & EA & _ & P & _).
  { intros k' iw' Hin. split; [rewrite LD; eapply K1; eauto|]. destruct (L k' iw' Hin) as (x' & y' & px & py & _ & _ & Epx & _). apply (weighted_ret iw' cx).
    - destruct HD as (_ & _ & _ & F). inversion F; subst. destruct NF as (LF & _). cbn [nth grid_size] in *. lia.
    - exists px. exact Epx. }
  destruct (interp_near d0 d1 s' Mf ef (proj1 (proj2 HD)) Hh' MF EF src f0 f1 f2 u v NF Hu Hv) as (z & EZ & Dz & Nz & _). rewrite err_val in Nz.
  exists out, z. split; [exact EA|]. split; [rewrite (P k iw IN); unfold fp_interp in EZ; rewrite EW in EZ; exact EZ|]. split; [exact Dz|].
  set (m := q * D + 2 * r) in *.
  replace (fval z - (f0 + f1 * t0 + f2 * t1)) with ((fval z - (f0 + f1 * fval u + f2 * fval v)) + (f1 * (fval u - t0) + f2 * (fval v - t1))) by ring.
  apply Rabs_split; [exact Nz|]. rewrite Rmult_plus_distr_r. apply Rabs_split; rewrite Rabs_mult; (apply Rmult_le_compat_l; [apply Rabs_pos|assumption]).
Qed.
Print Assumptions C89_ieee.

(** *** Cases *)
(** Two destination nodes on the sheared grid of C13: (0, 2), which is in the bounding box and not in the grid, so that all nine sides
    are tried for it, and then (1.75, 1.5).  The second gets weights, and the field x - 2 y (in halves) its value -1.25. *)
Definition shf : list spec_float := map (fun z => nopp (hf z)) [0; 3; 6; -2; 1; 4; -4; -1; 2]%Z.
Definition shOps : list (ni_op (T:=spec_float)) := [NSetDst 2 1 [hf 0; lit 7 4] [hf 4; hf 3]]%Z.

Lemma sh_runs : exists s1 s2 s3 dc, ni_setSrcGrid (ni_new 3 tol30) 3 3 0 0 shx shy = Ret s1 /\ ni_run cramer shOps s1 = Ret s2 /\ ni_dst s2 = Some (2%Z, dc) /\
  ni_computeWeights cramer s2 = Ret s3 /\ map fst (ni_weights s3) = [1%Z] /\ vget dc (1 * 2) = Ret (lit 7 4) /\ vget dc (1 * 2 + 1) = Ret (hf 3).
Proof.
  do 4 eexists. split; [vm_compute; reflexivity|]. split; [vm_compute; reflexivity|]. split; [reflexivity|]. split; [vm_compute; reflexivity|]. split; [reflexivity|].
  split; vm_compute; reflexivity.
Qed.

Example C89_ieee_nonvacuous : exists s1 s2 s3 dc out v,
  ni_setSrcGrid (ni_new 3 tol30) 3 3 0 0 shx shy = Ret s1 /\ ni_run cramer shOps s1 = Ret s2 /\ ni_dst s2 = Some (2%Z, dc) /\ ni_computeWeights cramer s2 = Ret s3 /\
  map fst (ni_weights s3) = [1%Z] /\ ni_apply s3 shf [hf 1; hf 1] = Ret out /\ vget out 1 = Ret v /\ Rabs (fval v + 5 / 4) <= / 1073741824.
Proof.
  destruct half_values as (V0 & V1 & V2 & V3 & V4 & V5 & V6 & T7). destruct hf_vals as [_ HT]. destruct pow_facts as (U & PE & PZ & PT). destruct sheared_powers as (P400 & P366 & P405 & Pm).
  destruct sheared_grid as (HD & AX & AY).
  assert (NF : near_affine 3 3 4 0 shf 0 1 (- (3 / 2))).
  { assert (VN : forall z, (-4 <= z <= 6)%Z -> fval (nopp (hf z)) = - (IZR z / 2)).
    { intros z Hz. assert (C : (z = -4 \/ z = -3 \/ z = -2 \/ z = -1 \/ z = 0 \/ z = 1 \/ z = 2 \/ z = 3 \/ z = 4 \/ z = 5 \/ z = 6)%Z) by lia.
      repeat (destruct C as [-> |C]; [unfold fval; vm_compute (nopp _); cbn [SF2R cond_Zopp]; unfold F2R; simpl; lra|]). subst z. unfold fval; vm_compute (nopp _); cbn [SF2R cond_Zopp]; unfold F2R; simpl; lra. }
    split; [reflexivity|]. split; [apply dbls; vm_compute; reflexivity|]. split.
    + intros f I. unfold shf in I. cbn [map In] in I. repeat (destruct I as [<- |I]; [rewrite VN by lia; apply Rabs_le; lra|]). destruct I.
    + intros i j Hi Hj. assert (Ci : (i = 0 \/ i = 1 \/ i = 2)%Z) by lia. assert (Cj : (j = 0 \/ j = 1 \/ j = 2)%Z) by lia.
      destruct Ci as [-> |[-> | ->]]; destruct Cj as [-> |[-> | ->]];
        (match goal with |- context [nth ?n shf ?z] => let v := eval vm_compute in n in let h := eval cbn [shf map nth] in (nth v shf z) in change (nth n shf z) with h end); rewrite VN by lia; apply Rabs_le; lra. }
  destruct sh_runs as (s1 & s2 & s3 & dc & E1 & E2 & E3 & E4 & E5 & E6 & E7). exists s1, s2, s3, dc.
  destruct (C89_ieee cramer 3 tol30 s1 s2 s3 3 3 shx shy shOps 2 dc 0 0 1 (1 / 2) 0 1 4 0 1 (1 / 2) (512 * uround) (48 * uround * 36 ^ 2) (bpow radix2 (-69))) with (k := 1%Z) (x := lit 7 4 : spec_float) (y := hf 3) (t0 := 1) (t1 := 3 / 2)
    as [_ AP]; auto; try lra; try lia.
  - rewrite Rabs_pos_eq; lra.
  - rewrite Rabs_pos_eq; lra.
  - rewrite Rabs_pos_eq; lra.
  - rewrite Rabs_pos_eq; lra.
  - exact sheared_stretch.
  - apply cramer_accurate; lra.
  - split; reflexivity.
  - unfold rate, rest. change (IZR (Z.max 3 3)) with 3. rewrite U. nra.
  - repeat constructor.
  - split; reflexivity.
  - split; reflexivity.
  - change (3 - 1)%Z with 2%Z; lra.
  - change (3 - 1)%Z with 2%Z; lra.
  - rewrite T7. apply Rabs_le. lra.
  - rewrite V3. apply Rabs_le. lra.
  - exists (hf 3). split; [cbn; tauto|lra].
  - exists (hf 4). split; [cbn; tauto|lra].
  - exists (hf 2). split; [cbn; tauto|lra].
  - exists (hf 4). split; [cbn; tauto|lra].
  - destruct (AP shf [hf 1; hf 1] 4 0 0 1 (- (3 / 2)) NF) as (out & v & A1 & A2 & _ & A3); [lra|lra|reflexivity|].
    exists out, v. do 7 (split; [assumption|]). revert A3. rewrite Rabs_R1, (Rabs_left (- (3 / 2))) by lra. unfold rate, rest. change (IZR (Z.max 3 3)) with 3. rewrite U. intros A3.
    replace (fval v + 5 / 4) with (fval v - (0 + 1 * 1 + - (3 / 2) * (3 / 2))) by field. eapply Rle_trans; [exact A3|]. lra.
Qed.

(** C89 in exact arithmetic: the same grid, one destination node, any solver. *)
Example C89_nonvacuous : exists g s1 s2 s3 out,
  gels_spec g 2 2 /\ ni_setSrcGrid (ni_new 2 (/ 2)) 2 2 0 0 [0; 1 / 2; 1; 3 / 2] [0; 1; 0; 1] = Ret s1 /\
  ni_run g [NSetDst 1 1 [1] [1 / 2]] s1 = Ret s2 /\ ni_computeWeights g s2 = Ret s3 /\ ni_apply s3 [3; 0; 5; 2] [7] = Ret out /\ vget out 0 = Ret 3.
Proof.
  assert (HG : gels_spec L_GelsR.gelsR 2 2) by apply L_GelsR.gelsR_spec.
  assert (HD : grid_data [2; 2]%Z [[0; 1 / 2; 1; 3 / 2]; [0; 1; 0; 1]]) by (split; [discriminate|split; [split; [repeat constructor; lia|vm_compute; discriminate]|split; [reflexivity|repeat constructor]]]).
  destruct (setSrc_total (ni_new 2 (/ 2)) 2 2 0 0 _ _ HD) as [s1 E1].
  destruct (setSrc_result _ _ _ _ _ _ _ _ HD E1) as (SG & Hh & Hc & W & Lp & Hnm & _ & Hs & _).
  set (s2 := mkNi (ni_finder s1) (ni_src s1) (Some (1%Z, [1; 1 / 2])) (ni_weights s1)).
  assert (E2 : ni_run L_GelsR.gelsR [NSetDst 1 1 [1] [1 / 2]] s1 = Ret s2) by reflexivity.
  destruct (L_NodeInterpR.compute_total L_GelsR.gelsR s2 2 2 [[0; 1 / 2; 1; 3 / 2]; [0; 1; 0; 1]] 1 [1; 1 / 2]) as (s3 & E3 & _); auto.
  { unfold fp_ready. do 5 (split; [assumption|]). cbn [s2 ni_finder]. rewrite Hnm. cbn. unfold int_max. lia. }
  exists L_GelsR.gelsR, s1, s2, s3.
  destruct (C89_affine L_GelsR.gelsR 2 (/ 2) s1 s2 s3 2 2 0 0 [0; 1 / 2; 1; 3 / 2] [0; 1; 0; 1] [NSetDst 1 1 [1] [1 / 2]] 1 [1; 1 / 2] 0 0 1 (1 / 2) 0 1) with (k := 0%Z) (t0 := 3 / 4) (t1 := 1 / 2)
    as [_ AP]; auto; try lra; try lia.
  - intros i j Hi Hj. assert (Ci : (i = 0 \/ i = 1)%Z) by lia. assert (Cj : (j = 0 \/ j = 1)%Z) by lia. destruct Ci as [-> | ->], Cj as [-> | ->]; unfold at_node; simpl; lra.
  - intros i j Hi Hj. assert (Ci : (i = 0 \/ i = 1)%Z) by lia. assert (Cj : (j = 0 \/ j = 1)%Z) by lia. destruct Ci as [-> | ->], Cj as [-> | ->]; unfold at_node; simpl; lra.
  - repeat constructor.
  - change (2 - 1)%Z with 1%Z; lra.
  - change (2 - 1)%Z with 1%Z; lra.
  - change (vget [1; 1 / 2] (0 * 2)) with (Ret 1). f_equal. lra.
  - change (vget [1; 1 / 2] (0 * 2 + 1)) with (Ret (1 / 2)). f_equal. lra.
  - destruct (AP [3; 0; 5; 2] [7] 3 2 (-4)) as (out & A1 & A2); [reflexivity|reflexivity| |].
    + intros i j Hi Hj. assert (Ci : (i = 0 \/ i = 1)%Z) by lia. assert (Cj : (j = 0 \/ j = 1)%Z) by lia. destruct Ci as [-> | ->], Cj as [-> | ->]; unfold at_node; simpl; lra.
    + exists out. do 5 (split; [assumption|]). rewrite A2. f_equal. lra.
Qed.
