(** Property theorems C31, C32 and C34 in IEEE double arithmetic. *)
From Coq Require Import ZArith List Bool Reals Lra Lia Floats.SpecFloat.
From Flocq Require Import Core BinarySingleNaN.
From Verif Require Import Base Num NumR NumF M_BoxIterator M_LinearSolve M_FindPoint M_Triangulate M_Quad M_QuadLine M_FlowInterp S_LinAlg S_Geometry S_Quad S_Grid S_Sort S_Array S_Flow
  L_LinearSolve L_Interp L_Cramer L_FindPoint L_NodeInterp L_Float L_FloatOps L_FindPointF L_NodeInterpF L_Defined L_FlowInterp L_FlowTwin L_FlowF P_QuadLineFlows P_Flow P_Defined.
Import ListNotations.
Open Scope R_scope.

Definition proj_doubles (x0a x1a x0b x1b : spec_float) : list spec_float :=
  let '(a, b, c, d) := projections x0a x1a x0b x1b in [a; b; c; d].

Lemma flow_code_sym : forall a b, flow_code a b = 0%Z <-> flow_code b a = 0%Z.
Proof. intros a b. unfold flow_code. destruct (a =? 1)%Z, (b =? 1)%Z; split; intros; try discriminate; auto. Qed.

Lemma flowsF_run : forall g q A B, gives_finite g ->
  exists ca xa ya f f1 cb xb yb f2, readyP [2; 2]%Z (quad_grid q) f /\ finderF f /\ qf_find g f A = Ret (ca, [xa; ya], f1) /\ qf_find g f1 B = Ret (cb, [xb; yb], f2) /\ twin f f1 /\
    fp_setGrid (qf_finder (qf_new (T:=spec_float))) [2; 2]%Z [0; 0]%Z (quad_grid q) = Ret f /\
    readyP [2; 2]%Z (quad_grid q) f1 /\ finderF f1 /\
    unitF xa /\ unitF ya /\ unitF xb /\ unitF yb /\ flows g q A B = Ret (flow_code ca cb, proj_doubles xa ya xb yb).
Proof.
  intros g q A B GF. destruct (setF (qf_finder (qf_new (T:=spec_float))) q newF) as (f & E & FR & FF).
  destruct (find_unit g q f A GF FR) as (ca & xa & ya & f1 & E1 & FR1 & T1 & Ua & Va).
  destruct (find_unit g q f1 B GF FR1) as (cb & xb & yb & f2 & E2 & FR2 & T2 & Ub & Vb).
  exists ca, xa, ya, f, f1, cb, xb, yb, f2. repeat (split; [assumption|]). split; [apply (finderF_twin f); auto|]. repeat (split; [assumption|]).
  unfold flows, qf_setQuadPoints. rewrite E. cbn [bind].
  unfold qf_computeProjections, qf_indices, qf_setLinePoints. cbn [qf_line qf_finder fst snd]. rewrite E1. cbn [bind]. rewrite E2. cbn [bind qf_xia qf_xib].
  change (vget [xa; ya] 0) with (Ret xa). change (vget [xa; ya] 1) with (Ret ya).
  change (vget [xb; yb] 0) with (Ret xb). change (vget [xb; yb] 1) with (Ret yb). cbn [bind fst snd mapM].
  unfold qf_getProjection, proj_doubles. cbn [qf_proj]. destruct (projections xa ya xb yb) as [[[a b] c] d].
  change (vget [a; b; c; d] 0) with (Ret a). change (vget [a; b; c; d] 1) with (Ret b).
  change (vget [a; b; c; d] 2) with (Ret c). change (vget [a; b; c; d] 3) with (Ret d). cbn [bind].
  unfold flow_code. destruct (cb =? 1)%Z, (ca =? 1)%Z; reflexivity.
Qed.

(** C31 in double arithmetic.  Any solver that gives back finite doubles, coordinates up to [M] in
    absolute value: there are positions of the two ends in the unit square such that the projections
    times the edge differences of any nodal values up to [H] are within 48 roundings (2^-53 H) of the difference of the
    bilinear function, as real numbers; if the return code is 0 these positions are mapped to
    within 1e-10 (1 + 2^-50) + 2^-46 M + 2^-534 of the ends. *)
Theorem C31_projections_ieee : forall g (q : quad spec_float) (A B : pt spec_float) M,
  (forall m k a lda b ldb lw i, dbl (g_rhs (g m k a lda b ldb lw) i)) ->
  (forall p, In p [q0 q; q1 q; q2 q; q3 q; A; B] -> (dbl (fst p) /\ Rabs (fval (fst p)) <= M) /\ dbl (snd p) /\ Rabs (fval (snd p)) <= M) -> M <= bpow radix2 400 ->
  exists code w0 w1 w2 w3 xa ya xb yb, flows g q A B = Ret (code, [w0; w1; w2; w3]) /\
  0 <= xa <= 1 /\ 0 <= ya <= 1 /\ 0 <= xb <= 1 /\ 0 <= yb <= 1 /\
  (forall p00 p10 p01 p11 H, Rabs p00 <= H -> Rabs p10 <= H -> Rabs p01 <= H -> Rabs p11 <= H ->
     Rabs (fval w0 * (p10 - p00) + fval w1 * (p11 - p01) + fval w2 * (p01 - p00) + fval w3 * (p11 - p10) -
           (bilinear p00 p10 p01 p11 xb yb - bilinear p00 p10 p01 p11 xa ya)) <= 48 * (bpow radix2 (-53) * H)) /\
  (code = 0%Z -> forall P x y, (P = A /\ x = xa /\ y = ya) \/ (P = B /\ x = xb /\ y = yb) ->
     sqrt (sqdist (pv P) (bilinear_map (pv (q0 q)) (pv (q1 q)) (pv (q2 q)) (pv (q3 q)) x y)) <=
       fval (lit 1 (10 ^ 10)) * (1 + bpow radix2 (-50)) + bpow radix2 (-46) * M + bpow radix2 (-534)).
Proof.
  intros g q A B M GF HB HM. destruct (flowsF_run g q A B GF) as (ca & xa & ya & f & f1 & cb & xb & yb & f2 & FR & FF & E1 & E2 & TW & _ & FR1 & FF1 & Ua & Va & Ub & Vb & E).
  unfold proj_doubles in E. destruct (projections xa ya xb yb) as [[[w0 w1] w2] w3] eqn:PE.
  destruct (projections_F _ _ _ _ _ _ _ _ Ua Va Ub Vb PE) as (_ & _ & _ & N0 & N1 & N2 & N3).
  exists (flow_code ca cb), w0, w1, w2, w3, (fval xa), (fval ya), (fval xb), (fval yb). split; auto.
  split; [apply Ua|]. split; [apply Va|]. split; [apply Ub|]. split; [apply Vb|]. split.
  - intros p00 p10 p01 p11 H H0 H1 H2 H3. set (x0 := fval xa) in *. set (y0 := fval ya) in *. set (x1 := fval xb) in *. set (y1 := fval yb) in *.
    change (bpow radix2 (-53)) with uround. match goal with |- Rabs ?z <= _ => replace z with
      ((fval w0 - (x1 - x0) * (1 - (y0 + y1) / 2)) * (p10 - p00) + (fval w1 - (x1 - x0) * ((y0 + y1) / 2)) * (p11 - p01) +
       (fval w2 - (y1 - y0) * (1 - (x0 + x1) / 2)) * (p01 - p00) + (fval w3 - (y1 - y0) * ((x0 + x1) / 2)) * (p11 - p10)) by (unfold bilinear; field) end.
    assert (K : forall e d, Rabs e <= 6 * uround -> Rabs d <= 2 * H -> Rabs (e * d) <= 12 * (uround * H)).
    { intros e d He Hd. rewrite Rabs_mult. replace (12 * (uround * H)) with ((6 * uround) * (2 * H)) by ring. apply Rmult_le_compat; auto; apply Rabs_pos. }
    assert (D : forall a b, Rabs a <= H -> Rabs b <= H -> Rabs (a - b) <= 2 * H) by (intros a b Ha Hb; apply Rabs_le_inv in Ha, Hb; apply Rabs_le; lra).
    assert (K0 := K _ _ N0 (D p10 p00 H1 H0)). assert (K1 := K _ _ N1 (D p11 p01 H3 H2)). assert (K2 := K _ _ N2 (D p01 p00 H2 H0)). assert (K3 := K _ _ N3 (D p11 p10 H3 H1)).
    eapply Rle_trans; [apply Rabs_triang|]. eapply Rle_trans; [apply Rplus_le_compat_r; apply Rabs_triang|].
    eapply Rle_trans; [apply Rplus_le_compat_r; apply Rplus_le_compat_r; apply Rabs_triang|]. lra.
  - unfold flow_code. intros C. destruct (Z.eqb_spec cb 1) as [Cb|]; [|discriminate]. destruct (Z.eqb_spec ca 1) as [Ca|]; [|discriminate]. subst ca cb.
    assert (COR : forall P, In P [A; B] -> forall v, In v (fst P :: snd P :: concat (quad_grid q)) -> dbl v /\ Rabs (fval v) <= M).
    { intros P IP v Iv. assert (HP : In P [q0 q; q1 q; q2 q; q3 q; A; B]) by (simpl in IP |- *; tauto).
      cbn [quad_grid concat app In] in Iv. 
      destruct Iv as [<-|[<-|[<-|[<-|[<-|[<-|[<-|[<-|[<-|[<-|[]]]]]]]]]]]; [apply (HB P HP)|apply (HB P HP)|
        apply (HB (q0 q))|apply (HB (q3 q))|apply (HB (q1 q))|apply (HB (q2 q))|apply (HB (q0 q))|apply (HB (q3 q))|apply (HB (q1 q))|apply (HB (q2 q))]; simpl; tauto. }
    intros P x y [(-> & -> & ->)|(-> & -> & ->)].
    + apply (find_distance g q f f1); auto. apply COR. simpl; auto.
    + apply (find_distance g q f1 f2); auto. apply COR. simpl; auto.
Qed.
Print Assumptions C31_projections_ieee.

(** C32 in double arithmetic.  Any solver that gives back finite doubles, any cell and any points
    (also with coordinates that are infinite or NaN): computeProjections returns finite doubles in [-1, 1], those of
    the low and the high edge have the same sign, and their sum is the index displacement up to 12 roundings. *)
Theorem C32_bounded_ieee : forall g (q : quad spec_float) (A B : pt spec_float),
  (forall m k a lda b ldb lw i, dbl (g_rhs (g m k a lda b ldb lw) i)) ->
  exists c w0 w1 w2 w3 xa ya xb yb, flows g q A B = Ret (c, [w0; w1; w2; w3]) /\
  (forall w, In w [w0; w1; w2; w3] -> dbl w /\ -1 <= fval w <= 1) /\ 0 <= fval w0 * fval w1 /\ 0 <= fval w2 * fval w3 /\
  0 <= xa <= 1 /\ 0 <= ya <= 1 /\ 0 <= xb <= 1 /\ 0 <= yb <= 1 /\
  Rabs (fval w0 + fval w1 - (xb - xa)) <= 12 * bpow radix2 (-53) /\ Rabs (fval w2 + fval w3 - (yb - ya)) <= 12 * bpow radix2 (-53).
Proof.
  intros g q A B GF. destruct (flowsF_run g q A B GF) as (ca & xa & ya & f & f1 & cb & xb & yb & f2 & FR & FF & E1 & E2 & TW & _ & FR1 & FF1 & Ua & Va & Ub & Vb & E).
  unfold proj_doubles in E. destruct (projections xa ya xb yb) as [[[w0 w1] w2] w3] eqn:PE.
  destruct (projections_F _ _ _ _ _ _ _ _ Ua Va Ub Vb PE) as (W & S1 & S2 & N0 & N1 & N2 & N3).
  exists (flow_code ca cb), w0, w1, w2, w3, (fval xa), (fval ya), (fval xb), (fval yb). split; auto.
  split; [intros w I; destruct (W w I) as [D P]; split; auto; apply Rabs_le_inv; auto|]. split; auto. split; auto.
  split; [apply Ua|]. split; [apply Va|]. split; [apply Ub|]. split; [apply Vb|]. change (bpow radix2 (-53)) with uround.
  apply Rabs_le_inv in N0, N1, N2, N3. split; apply Rabs_le; lra.
Qed.
Print Assumptions C32_bounded_ieee.

(** C32 in double arithmetic: the reversed segment has exactly the opposite projections. *)
Theorem C32_reversed_ieee : forall g (q : quad spec_float) (A B : pt spec_float),
  (forall m k a lda b ldb lw i, dbl (g_rhs (g m k a lda b ldb lw) i)) ->
  exists c c' w0 w1 w2 w3 v0 v1 v2 v3, flows g q A B = Ret (c, [w0; w1; w2; w3]) /\ flows g q B A = Ret (c', [v0; v1; v2; v3]) /\
    fval v0 = - fval w0 /\ fval v1 = - fval w1 /\ fval v2 = - fval w2 /\ fval v3 = - fval w3 /\ (c = 0%Z <-> c' = 0%Z).
Proof.
  intros g q A B GF.
  destruct (flowsF_run g q A B GF) as (ca & xa & ya & f & f1 & cb & xb & yb & f2 & FR & FF & E1 & E2 & T1 & SE & _ & _ & Ua & Va & Ub & Vb & E).
  destruct (flowsF_run g q B A GF) as (cb' & xb' & yb' & f' & f1' & ca' & xa' & ya' & f2' & _ & _ & E1' & E2' & T1' & SE' & _ & _ & _ & _ & _ & _ & E').
  rewrite SE in SE'. injection SE' as <-.
  assert (K : forall f1 f2 p c xs c' xs' g1 g2, twin f1 f2 -> qf_find g f1 p = Ret (c, xs, g1) -> qf_find g f2 p = Ret (c', xs', g2) -> c = c' /\ xs = xs').
  { intros h1 h2 p c xs c' xs' g1 g2 TW H1 H2. destruct (twin_qf_find g h1 h2 p TW) as [(u & X & _)|(a & b & X1 & X2 & P1 & P2 & _)]; [congruence|].
    rewrite H1 in X1. rewrite H2 in X2. injection X1 as <-. injection X2 as <-. cbn [fst snd] in *. auto. }
  destruct (K _ _ _ _ _ _ _ _ _ T1' E1 E2') as [<- X]. injection X as <- <-.
  destruct (K _ _ _ _ _ _ _ _ _ T1 E1' E2) as [<- X]. injection X as -> ->.
  unfold proj_doubles in E, E'. destruct (projections xa ya xb yb) as [[[w0 w1] w2] w3] eqn:PE. destruct (projections xb yb xa ya) as [[[v0 v1] v2] v3] eqn:PE'.
  destruct (projections_rev _ _ _ _ _ _ _ _ _ _ _ _ Ua Va Ub Vb PE PE') as (R0 & R1 & R2 & R3).
  do 10 eexists. split; [exact E|]. split; [exact E'|]. repeat (split; [assumption|]). apply flow_code_sym.
Qed.
Print Assumptions C32_reversed_ieee.

(** C34 in double arithmetic.  Any solver that gives back finite doubles, any cells and lines
    (coordinates may be infinite or NaN): computeWeights returns. *)
Theorem C34_defined_ieee : forall g srt cosv d0 d1 nx ny n (xs ys dxs dys : list spec_float),
  (forall m k a lda b ldb lw i, dbl (g_rhs (g m k a lda b ldb lw) i)) ->
  (2 <= d0)%Z -> (2 <= d1)%Z -> (d0 * d1 <= int_max)%Z -> (2 <= n <= int_max)%Z ->
  stores d0 d1 nx xs -> stores d0 d1 ny ys -> Z.of_nat (length dxs) = n -> Z.of_nat (length dys) = n ->
  exists s1 s2 s3, fl_setSrcGrid fl_new d0 d1 [xs; ys] = Ret s1 /\ fl_setDstGrid cosv s1 n [dxs; dys] = Ret s2 /\
    fl_computeWeights srt g s2 = Ret s3.
Proof.
  intros g srt cosv d0 d1 nx ny n xs ys dxs dys GF H0 H1 HI Hn SX SY LX LY.
  destruct (grid_setup cosv d0 d1 nx ny n xs ys dxs dys H0 H1 HI Hn SX SY LX LY) as (s1 & s2 & E1 & E2 & O2 & EW & EN & EL & EC).
  destruct (computeWeightsF_total srt g s2 (n - 1) ((d0 - 1) * (d1 - 1)) _ _ GF EN ltac:(apply O2) EL EC) as (s3 & E3).
  exists s1, s2, s3. auto.
Qed.
Print Assumptions C34_defined_ieee.

(** *** Cases *)
(** A general convex cell and a segment in it: found, with projections that are not dyadic fractions. *)
Definition convexF : quad spec_float := mkQuad (lit 0 1, lit 0 1) (lit 2 1, lit 0 1) (lit 3 1, lit 2 1) (lit 0 1, lit 1 1).
Example C31_ieee_case : (forall m k a lda b ldb lw i, dbl (g_rhs (cramer_fin m k a lda b ldb lw) i)) /\
  (exists w0 w1 w2 w3, flows cramer_fin convexF (lit 1 2, lit 0 1) (lit 5 4, lit 3 4) = Ret (0%Z, [w0; w1; w2; w3]) /\ nlt (lit 1 10) w0 = true /\ nlt (lit 1 10) w3 = true /\
     exists v0 v1 v2 v3, flows cramer_fin convexF (lit 5 4, lit 3 4) (lit 1 2, lit 0 1) = Ret (0%Z, [v0; v1; v2; v3]) /\ nlt v0 (lit (-1) 10) = true).
Proof.
  split; [exact cramer_finite|]. do 4 eexists. split; [vm_compute; reflexivity|]. split; [vm_compute; reflexivity|]. split; [vm_compute; reflexivity|].
  do 4 eexists. split; [vm_compute; reflexivity|]. vm_compute. reflexivity.
Qed.

(** The two cells of C34_case with a corner that is not a number (the cell gets weights 0), and a
    self-intersecting cell, where the matrix of the first step is singular: with a solver that
    divides by the determinant computeWeights casts a number that is not finite.  Hence the hypothesis on the solver. *)
Example C34_ieee_case :
  (exists s1 s2 s3 w, fl_setSrcGrid fl_new 3 2 [[S754_nan; FZ 0; FZ 1; FZ 1; FZ 2; FZ 2]; map FZ [0; 1; 0; 1; 0; 1]%Z]%Z = Ret s1 /\
    fl_setDstGrid (fun _ _ => FZ 0) s1 2 [[lit 1 2; lit 3 2]; [lit 1 4; lit 3 4]] = Ret s2 /\
    fl_computeWeights insertion cramer_fin s2 = Ret s3 /\ fl_weights s3 = [(0%Z, [(0%Z, map FZ [0; 0; 0; 0]%Z); (1%Z, w)])] /\ w <> map FZ [0; 0; 0; 0]%Z) /\
  (exists s1 s2 s3, fl_setSrcGrid fl_new 2 2 [map FZ [0; 0; 1; 1]%Z; map FZ [0; 1; 1; 0]%Z]%Z = Ret s1 /\
    fl_setDstGrid (fun _ _ => FZ 0) s1 2 [[lit 1 4; lit 1 4]; [FZ (-1); FZ 2]] = Ret s2 /\
    fl_computeWeights insertion cramer_fin s2 = Ret s3 /\ fl_computeWeights insertion cramer s2 = Undef BadCast).
Proof.
  split.
  - do 4 eexists. repeat (split; [vm_compute; reflexivity|]). vm_compute. discriminate.
  - do 3 eexists. repeat (split; [vm_compute; reflexivity|]). vm_compute. reflexivity.
Qed.
