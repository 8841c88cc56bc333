(** Property theorems C08, C17, C18 in IEEE double arithmetic: interpolation with rounding. *)
From Coq Require Import ZArith List Lia Reals Lra Floats.SpecFloat.
From Flocq Require Import Core BinarySingleNaN.
From Verif Require Import Base Num NumR NumF M_LinearSolve M_FindPoint M_SideIterator M_NodeInterp S_Grid S_Interp
  L_LinearSolve L_Interp L_FindPoint L_FindPointR L_NodeInterp L_NodeInterpR L_Float L_FloatOps L_FindPointF L_FindOverlapF L_NodeInterpF P_FindPoint P_FindOverlapF.
Import ListNotations.
Open Scope R_scope.

(** C08 in double arithmetic.  Every dimension and grid: a nodal field of doubles up to [M] in
    size that is within [e] of an affine function of the indices is interpolated within
    [e] + 2^n ((n + 1) 2^-51 M + 3 . 2^-1074) of that function, at every double position of the
    grid. *)
Theorem C08_affine_ieee : forall s0 s dims per coords, grid_data dims coords -> fp_setGrid s0 dims per coords = Ret s ->
  forall field M c0 cs e, Z.of_nat (length field) = grid_size dims -> Forall dbl field -> (forall f, In f field -> Rabs (fval f) <= M) -> M <= bpow radix2 900 ->
  (forall v, is_node dims v -> Rabs (fval (nth (Z.to_nat (flat dims v)) field n0) - (c0 + dot cs (map IZR v))) <= e) ->
  forall xs, in_gridF dims xs ->
  exists r, fp_interp s xs field = Ret r /\ dbl r /\
    Rabs (fval r - (c0 + dot cs (map fval xs))) <= e + IZR (2 ^ Z.of_nat (length dims)) * (INR (length dims + 1) * bpow radix2 (-51) * M + 3 * bpow radix2 (-1074)).
Proof. exact affine_ieee. Qed.
Print Assumptions C08_affine_ieee.

(** The same for any nodal field: the result is the multilinear interpolation of the stored
    values up to that error. *)
Theorem C08_multilinear_ieee : forall s0 s dims per coords, grid_data dims coords -> fp_setGrid s0 dims per coords = Ret s ->
  forall field M xs, Z.of_nat (length field) = grid_size dims -> Forall dbl field -> (forall f, In f field -> Rabs (fval f) <= M) -> M <= bpow radix2 900 ->
  in_gridF dims xs ->
  exists r, fp_interp s xs field = Ret r /\ dbl r /\
    Rabs (fval r - multilin dims (map fval xs) (fun v => fval (nth (Z.to_nat (flat dims v)) field n0))) <=
      IZR (2 ^ Z.of_nat (length dims)) * (INR (length dims + 1) * bpow radix2 (-51) * M + 3 * bpow radix2 (-1074)).
Proof.
  intros s0 s dims per coords HD HS field M xs LF DF BF MB Hx.
  destruct (setGrid_ok s0 dims per coords HD) as (s' & E & Hh & _). rewrite HS in E. injection E as <-.
  exact (interp_F dims s xs field M (proj1 (proj2 HD)) Hh Hx LF DF BF MB).
Qed.
Print Assumptions C08_multilinear_ieee.

(** C18 in double arithmetic.  Any solver that returns doubles (also infinite ones and NaN), any
    history of calls: whenever computeWeights returns, every set of weights has four different
    valid nodes, weights in [0, 1] and a sum within 2^-51 of one. *)
Theorem C18_weights_ieee : forall g nit tol ops s d0 d1 n dc s', gives_doubles g -> (nit <= int_max)%Z -> Forall opF_ok ops ->
  ni_run g ops (ni_new nit tol) = Ret s -> ni_src s = Some (d0, d1) -> ni_dst s = Some (n, dc) -> ni_computeWeights g s = Ret s' ->
  NoDup (map fst (ni_weights s')) /\
  forall k iw, In (k, iw) (ni_weights s') -> (0 <= k < n)%Z /\
    length iw = 4%nat /\ NoDup (map fst iw) /\
    (forall j w, In (j, w) iw -> (0 <= j < d0 * d1)%Z /\ dbl w /\ 0 <= fval w <= 1) /\
    Rabs (lsum (map (fun e => fval (snd e)) iw) - 1) <= bpow radix2 (-51).
Proof.
  intros g nit tol ops s d0 d1 n dc s' V Hn HO HR ES ED HC.
  destruct (run_invF g nit tol ops s V Hn HO HR) as (_ & _ & _ & I1 & I2). rewrite ED in I1. rewrite ES in I2. destruct I2 as (coords & RF).
  destruct (compute_F g s s' d0 d1 coords n dc V RF ES ED I1 HC) as (_ & ND & K). split; auto.
  intros k iw Hin. destruct (K k iw Hin) as (Hk & (N1 & L4 & W & S1) & _). split; auto.
Qed.
Print Assumptions C18_weights_ieee.

(** C18 in double arithmetic: the values of apply leave the range of the source data by no more
    than 2^-48 of its size (plus 2^-1070), hence constants are kept up to that error; nodes
    without weights are untouched. *)
Theorem C18_no_new_extrema_ieee : forall g nit tol ops s d0 d1 n dc s' src dst lo hi M,
  gives_doubles g -> (nit <= int_max)%Z -> Forall opF_ok ops ->
  ni_run g ops (ni_new nit tol) = Ret s -> ni_src s = Some (d0, d1) -> ni_dst s = Some (n, dc) -> ni_computeWeights g s = Ret s' ->
  Z.of_nat (length src) = (d0 * d1)%Z -> Z.of_nat (length dst) = n -> Forall dbl src ->
  (forall v, In v src -> lo <= fval v <= hi) -> - M <= lo -> hi <= M -> M <= bpow radix2 900 ->
  exists out, ni_apply s' src dst = Ret out /\ length out = length dst /\
    forall k, (0 <= k < n)%Z -> exists v, vget out k = Ret v /\
      ((exists iw, In (k, iw) (ni_weights s')) -> dbl v /\ lo - (bpow radix2 (-48) * M + bpow radix2 (-1070)) <= fval v <= hi + (bpow radix2 (-48) * M + bpow radix2 (-1070))) /\
      ((forall iw, ~ In (k, iw) (ni_weights s')) -> vget dst k = Ret v).
Proof.
  intros g nit tol ops s d0 d1 n dc s' src dst lo hi M V Hn HO HR ES ED HC LS LD DS B Hlo Hhi HM.
  destruct (C18_weights_ieee g nit tol ops s d0 d1 n dc s' V Hn HO HR ES ED HC) as [ND K].
  assert (W : forall k iw, In (k, iw) (ni_weights s') -> exists r, weighted iw src = Ret r /\ dbl r /\ lo - (bpow radix2 (-48) * M + bpow radix2 (-1070)) <= fval r <= hi + (bpow radix2 (-48) * M + bpow radix2 (-1070))).
  { intros k iw Hin. destruct (K k iw Hin) as (_ & L4 & N1 & W & S1). apply (weighted_near (d0 * d1)); auto. split; auto. }
  destruct (apply_spec s' src dst ND) as (out & EA & LO & P & Q).
  - intros k iw Hin. destruct (K k iw Hin) as [Hk _]. split; [lia|]. destruct (W k iw Hin) as (r & E & _). exists r. exact E.
  - exists out. split; auto. split; auto. intros k Hk.
    assert (G : vget out k = Ret (nth (Z.to_nat k) out n0)) by (apply vget_nth; lia).
    generalize dependent (nth (Z.to_nat k) out n0). intros v G. exists v. split; auto. split.
    + intros (iw & Hin). destruct (W k iw Hin) as (r & E & D & Br). rewrite (P k iw Hin), E in G. injection G as <-. auto.
    + intros Hno. rewrite <- (Q k Hno). exact G.
Qed.
Print Assumptions C18_no_new_extrema_ieee.

(** C17 in double arithmetic.  Coordinates up to [M] <= 2^400: the exact point given by the stored
    weights and the stored source coordinates is within tolpos (1 + 2^-50) + 2^-48 M + 2^-534 of
    the destination node, as a Euclidean distance of reals. *)
Theorem C17_distance_ieee : forall g nit tol before s s1 s2 s3 d0 d1 p0 p1 c0 c1 h n dc M,
  gives_doubles g -> (nit <= int_max)%Z -> Forall opF_ok before -> ni_run g before (ni_new nit tol) = Ret s ->
  grid_data [d0; d1]%Z [c0; c1] -> ni_setSrcGrid s d0 d1 p0 p1 c0 c1 = Ret s1 ->
  Forall keeps_src h -> ni_run g h s1 = Ret s2 -> ni_dst s2 = Some (n, dc) -> ni_computeWeights g s2 = Ret s3 ->
  dbl tol -> Forall dbl c0 -> Forall dbl c1 -> Forall dbl dc ->
  (forall v, In v c0 \/ In v c1 \/ In v dc -> Rabs (fval v) <= M) -> M <= bpow radix2 400 ->
  forall k iw, In (k, iw) (ni_weights s3) -> exists x y, vget dc (k * 2) = Ret x /\ vget dc (k * 2 + 1) = Ret y /\
    sqrt ((exact_sum iw c0 - fval x) ^ 2 + (exact_sum iw c1 - fval y) ^ 2) <= fval tol * (1 + bpow radix2 (-50)) + bpow radix2 (-48) * M + bpow radix2 (-534).
Proof.
  intros g nit tol before s s1 s2 s3 d0 d1 p0 p1 c0 c1 h n dc M V Hn HB HR0 HD HS HK HR ED HC Dt D0 D1 Dd B HM k iw Hin.
  destruct (weights_locate g s s1 s2 s3 d0 d1 p0 p1 c0 c1 h n dc HD HS HK HR ED HC) as [_ L]. 
  destruct (L k iw Hin) as (x & y & px & py & Ex & Ey & Epx & Epy & LT). clear L. exists x, y. split; auto. split; auto.
  destruct (run_invF g nit tol before s V Hn HB HR0) as (_ & ET & _). rewrite ET in LT. clear ET.
  assert (RUN : ni_run g (before ++ NSetSrc d0 d1 p0 p1 c0 c1 :: h) (ni_new nit tol) = Ret s2).
  { unfold ni_run in *. rewrite foldM_app, HR0. cbn [bind foldM ni_step]. rewrite HS. exact HR. }
  destruct (setSrc_result _ _ _ _ _ _ _ _ HD HS) as (_ & Hh & _ & W & _ & _ & _ & ES & _).
  destruct (run_keeps g h s1 s2) as (_ & E2); auto; [destruct Hh as [-> _]; discriminate|].
  assert (OK : Forall opF_ok (before ++ NSetSrc d0 d1 p0 p1 c0 c1 :: h)).
  { apply Forall_app. split; [exact HB|]. constructor; [exact HD|]. apply Forall_forall. intros o HI. rewrite Forall_forall in HK. assert (Q := HK o HI). destruct o; [exact I|destruct Q|exact I]. }
  destruct (C18_weights_ieee g nit tol _ s2 d0 d1 n dc s3 V Hn OK RUN ltac:(congruence) ED HC) as [_ K].
  destruct (K k iw Hin) as (_ & L4 & N1 & WP & S1). clear K.
  destruct HD as (_ & _ & _ & FL). inversion FL as [|q1 q2 Q1 FL']; subst. inversion FL' as [|q3 q4 Q2 _]; subst. cbn [grid_size] in *.
  assert (M0 : 0 <= M) by (apply Rle_trans with (Rabs (fval x)); [apply Rabs_pos|apply B; right; right; eapply vget_In; eauto]).
  assert (Bx : Rabs (fval x) <= M) by (apply B; right; right; eapply vget_In; eauto). assert (By : Rabs (fval y) <= M) by (apply B; right; right; eapply vget_In; eauto).
  assert (Dx : dbl x) by (rewrite Forall_forall in Dd; apply Dd; eapply vget_In; eauto). assert (Dy : dbl y) by (rewrite Forall_forall in Dd; apply Dd; eapply vget_In; eauto).
  assert (M9 : M <= bpow radix2 900) by (eapply Rle_trans; [exact HM|apply bpow_le; lia]).
  assert (U51 : bpow radix2 (-51) = 4 * uround) by (unfold uround; simpl; lra). assert (S2 := Rabs_le_inv _ _ S1). rewrite U51 in S2.
  assert (CO : forall c p, Forall dbl c -> (forall v, In v c -> Rabs (fval v) <= M) -> Z.of_nat (length c) = (d0 * d1)%Z -> weighted iw c = Ret p ->
    dbl p /\ Rabs (fval p - exact_sum iw c) <= 16 * uround * M + 12 * etiny /\ Rabs (fval p) <= 2 * M + 1).
  { intros c p Dc Bc Lc Ep.
    destruct (weighted_F iw c M Dc Bc ltac:(lra)) as (r & E & D & C); [intros j w I; rewrite Lc; destruct (WP j w I) as (A1 & A2 & A3); split; [lia|split; auto]|unfold uround in S2; lra|rewrite L4; simpl; lia|].
    rewrite Ep in E. injection E as <-. split; auto. rewrite L4 in C. unfold term_error in C. simpl (INR 4) in C. split; [lra|].
    destruct (weighted_near (d0 * d1) iw c (- M) M M) as (r & E & _ & R2); auto; try lra; [split; auto|intros v I; apply Rabs_le_inv; auto|].
    rewrite Ep in E. injection E as <-. assert (T : bpow radix2 (-1070) = 16 * etiny) by (unfold etiny; change 16 with (bpow radix2 4); rewrite <- bpow_plus; reflexivity).
    assert (U48 : bpow radix2 (-48) = 32 * uround) by (unfold uround; simpl; lra). rewrite T, U48 in R2. assert (Te := etiny_lt). assert (Pe := etiny_pos).
    apply Rabs_le. unfold uround in R2. lra. }
  destruct (CO c0 px D0 ltac:(intros v I; apply B; auto) ltac:(lia) Epx) as (Dpx & Cx & Bpx).
  destruct (CO c1 py D1 ltac:(intros v I; apply B; auto) ltac:(lia) Epy) as (Dpy & Cy & Bpy).
  assert (P404 : 3 * M + 1 <= bpow radix2 404).
  { assert (G : bpow radix2 404 = 16 * bpow radix2 400) by (change 16 with (bpow radix2 4); rewrite <- bpow_plus; reflexivity).
    assert (G1 : 1 <= bpow radix2 400) by (change 1 with (bpow radix2 0); apply bpow_le; lia). rewrite G. lra. }
  assert (DD := dist_F px py x y tol Dpx Dpy Dx Dy Dt). cbv beta in DD.
  assert (TX : Rabs (fval px - fval x) <= bpow radix2 404) by (apply Rabs_le_inv in Bpx, Bx; apply Rabs_le; lra).
  assert (TY : Rabs (fval py - fval y) <= bpow radix2 404) by (apply Rabs_le_inv in Bpy, By; apply Rabs_le; lra).
  specialize (DD TX TY LT).
  replace (exact_sum iw c0 - fval x) with ((fval px - fval x) + (exact_sum iw c0 - fval px)) by ring.
  replace (exact_sum iw c1 - fval y) with ((fval py - fval y) + (exact_sum iw c1 - fval py)) by ring.
  eapply Rle_trans; [apply norm_shift|]. rewrite (Rabs_minus_sym (exact_sum iw c0)), (Rabs_minus_sym (exact_sum iw c1)).
  assert (U48 : bpow radix2 (-48) = 32 * uround) by (unfold uround; simpl; lra). rewrite U48.
  assert (H534 : bpow radix2 (-534) = 2 * bpow radix2 (-535)) by (change (-534)%Z with (1 + -535)%Z; rewrite bpow_plus; reflexivity). rewrite H534.
  assert (TH : 24 * etiny <= bpow radix2 (-535)).
  { apply Rle_trans with (bpow radix2 (-1069)); [|apply bpow_le; lia]. unfold etiny. change (-1069)%Z with (5 + -1074)%Z. rewrite bpow_plus. apply Rmult_le_compat_r; [apply bpow_ge_0|]. simpl. lra. }
  lra.
Qed.
Print Assumptions C17_distance_ieee.

(** *** Cases *)
(** The unit square, one destination node at (4/10, 3/10): the weights of the stored numbers do
    not sum to one, and the constant 1 is not reproduced exactly.  The error bounds above are
    not idle. *)
Definition sqX : list spec_float := map (fun v => lit v 1) [0; 0; 1; 1]%Z.
Definition sqY : list spec_float := map (fun v => lit v 1) [0; 1; 0; 1]%Z.
Definition sqOps : list (ni_op (T:=spec_float)) := [NSetSrc 2 2 0 0 sqX sqY; NSetDst 1 1 [lit 4 10] [lit 3 10]]%Z.

Example C18_constant_rounded_case : gives_doubles cramer_dbl /\ Forall opF_ok sqOps /\
  exists s dc s' iw out, ni_run cramer_dbl sqOps (ni_new 10 (lit 1 1000000)) = Ret s /\
    ni_src s = Some (2, 2)%Z /\ ni_dst s = Some (1%Z, dc) /\ ni_computeWeights cramer_dbl s = Ret s' /\
    ni_weights s' = [(0%Z, iw)] /\ map fst iw = [0; 1; 2; 3]%Z /\
    ni_apply s' [n1; n1; n1; n1] [n0] = Ret [out] /\ neq out n1 = false.
Proof.
  split; [exact cramer_doubles|]. split.
  - constructor; [|constructor; [exact I|constructor]]. split; [discriminate|split; [split; [repeat constructor; lia|vm_compute; discriminate]|split; [reflexivity|repeat constructor]]].
  - do 5 eexists. split; [vm_compute; reflexivity|]. split; [reflexivity|]. split; [reflexivity|]. split; [vm_compute; reflexivity|].
    split; [reflexivity|]. split; [reflexivity|]. split; [vm_compute; reflexivity|]. vm_compute; reflexivity.
Qed.

(** C08: the field 1, 2, 3, 4 is affine and exact at the nodes; the position (1/4, 1/2) is in the grid. *)
Example C08_ieee_case : grid_data [2; 2]%Z [sqX; sqY] /\ in_gridF [2; 2]%Z [lit 1 4; lit 1 2] /\
  (forall v, is_node [2; 2]%Z v -> Rabs (fval (nth (Z.to_nat (flat [2; 2]%Z v)) (map (fun z => lit z 1) [1; 2; 3; 4]%Z) n0) - (1 + dot [2; 1] (map IZR v))) <= 0).
Proof.
  split; [split; [discriminate|split; [split; [repeat constructor; lia|vm_compute; discriminate]|split; [reflexivity|repeat constructor]]]|]. split.
  - assert (V4 : fval (lit 1 4) = / 4) by (unfold fval; vm_compute (lit 1 4); cbn [SF2R cond_Zopp]; unfold F2R; simpl; lra).
    assert (V2 : fval (lit 1 2) = / 2) by (unfold fval; vm_compute (lit 1 2); cbn [SF2R cond_Zopp]; unfold F2R; simpl; lra).
    apply Forall2_cons; [|apply Forall2_cons; [|apply Forall2_nil]]; (split; [split; reflexivity|]); rewrite ?V4, ?V2; change (2 - 1)%Z with 1%Z; lra.
  - intros v H. inversion H as [|a x la lx Hx H']; subst. inversion H' as [|b y lb ly Hy H'']; subst. inversion H''; subst.
    assert (E : forall z, (0 < z < 5)%Z -> fval (lit z 1) = IZR z).
    { intros z Hz. unfold fval. assert (C : (z = 1 \/ z = 2 \/ z = 3 \/ z = 4)%Z) by lia. destruct C as [-> |[-> |[-> | ->]]]; vm_compute (lit _ _); cbn [SF2R cond_Zopp]; unfold F2R; simpl; lra. }
    assert (X : (x = 0 \/ x = 1)%Z) by lia. assert (Y : (y = 0 \/ y = 1)%Z) by lia.
    destruct X as [-> | ->], Y as [-> | ->]; cbn [flat grid_size map dot]; change (Z.to_nat _) with 0%nat || change (Z.to_nat _) with 1%nat || change (Z.to_nat _) with 2%nat || change (Z.to_nat _) with 3%nat;
      cbn [map nth]; rewrite E by lia; apply Rabs_le; lra.
Qed.
