(** Properties C38 and C39 in IEEE double arithmetic: conservative interpolation between rectilinear grids without common lines. *)
From Coq Require Import ZArith List Bool Reals Lra Lia Permutation Floats.SpecFloat.
From Flocq Require Import Core BinarySingleNaN.
From Verif Require Import Base Num NumR NumF S_LinAlg S_Array S_Geometry S_Quad S_Area S_Overlap S_Sort S_ConserveGrid S_Rectilinear
  M_LinearSolve M_Triangulate M_Quad M_QuadIntersect M_ConserveInterp S_ConserveTable L_LinearSolve
  L_Conserve L_ConserveTable L_ConserveApply L_ConserveAgain L_Area L_ConserveArea L_ConserveRect S_ConserveRel L_ConserveRel L_Triangulate L_Float L_FloatOps L_FindPointF L_QuadBoxF L_ResidualF
  L_QuadF L_TriNear L_RectF P_Conserve.
Import ListNotations.
Open Scope R_scope.

(** n doubles of magnitude at most M, increasing by at least st. *)
Definition flines (M st : R) (n : Z) (X : Z -> spec_float) : Prop :=
  (forall i, (0 <= i < n)%Z -> dbl (X i) /\ Rabs (fval (X i)) <= M) /\ forall i, (0 <= i < n - 1)%Z -> st <= fval (X (i + 1)%Z) - fval (X i).

(** The lines of two grids are at least st apart. *)
Definition no_common (st : R) (n : Z) (X : Z -> spec_float) (m : Z) (U : Z -> spec_float) : Prop :=
  forall i k, (0 <= i < n)%Z -> (0 <= k < m)%Z -> st <= Rabs (fval (X i) - fval (U k)).

(** Two such grids, the first of d0 x d1 nodes and the second of e0 x e1 nodes, with steps that are not too small for the solver and the arithmetic. *)
Definition unit_err (eta : R) : R := 192 * eta + 1396 * uround.
Definition rect_ieee (M st eta : R) (d0 d1 : Z) (X Y : Z -> spec_float) (e0 e1 : Z) (U V : Z -> spec_float) : Prop :=
  1 <= M <= bpow radix2 400 /\ 0 <= eta <= / 10 ^ 13 /\ 0 < st /\ / 10 ^ 12 + 4 * (unit_err eta * (M * M)) < st * st /\
  flines M st d0 X /\ flines M st d1 Y /\ flines M st e0 U /\ flines M st e1 V /\ no_common st d0 X e0 U /\ no_common st d1 Y e1 V.

(** Bound of the error of the weights of a cell of size A. *)
Definition weight_err (M eta A : R) : R := 21 * (unit_err eta * (M * M)) / A.

Definition fsize (n1 : Z) (X Y : Z -> spec_float) (c : Z) : R :=
  (fval (X (c / (n1 - 1) + 1)%Z) - fval (X (c / (n1 - 1))%Z)) * (fval (Y (c mod (n1 - 1) + 1)%Z) - fval (Y (c mod (n1 - 1))%Z)).

Lemma kappa_off : forall M eta, kappa M (off M eta) = unit_err eta * (M * M).
Proof. intros M eta. unfold kappa, off, tau, unit_err. ring. Qed.
Lemma eps12 : epsR = / 10 ^ 12.
Proof. unfold epsR, tr_eps. rewrite lit_R. lra. Qed.
Lemma flines_le : forall M st n X, 0 < st -> flines M st n X -> forall i j, (0 <= i <= j)%Z -> (j < n)%Z -> fval (X i) <= fval (X j).
Proof.
  intros M st n X P [_ L] i j A B. assert (E : exists m, (j = i + Z.of_nat m)%Z) by (exists (Z.to_nat (j - i)); lia). destruct E as (m & ->). revert A B.
  induction m as [|m IH]; intros A B; [replace (i + Z.of_nat 0)%Z with i by lia; lra|].
  assert (C := IH ltac:(lia) ltac:(lia)). assert (D := L (i + Z.of_nat m)%Z ltac:(lia)). replace (i + Z.of_nat (S m))%Z with (i + Z.of_nat m + 1)%Z by lia. lra.
Qed.

Section Grids.
Variable srt : (nat -> nat -> bool) -> list nat -> list nat.
Variable g : gels spec_float.
Variables M st eta : R.
Variables d0 d1 e0 e1 : Z.
Variables X Y U V : Z -> spec_float.
Variables xs ys us vs : list spec_float.
Hypothesis SRT : forall lt l, Permutation (srt lt l) l.
Hypothesis G : axis2 eta g.
Hypothesis H0 : (2 <= d0)%Z.
Hypothesis H1 : (2 <= d1)%Z.
Hypothesis H2 : (d0 * d1 <= int_max)%Z.
Hypothesis H3 : (2 <= e0)%Z.
Hypothesis H4 : (2 <= e1)%Z.
Hypothesis H5 : (e0 * e1 <= int_max)%Z.
Hypothesis SX : stores d0 d1 (fun i _ => X i) xs.
Hypothesis SY : stores d0 d1 (fun _ j => Y j) ys.
Hypothesis SU : stores e0 e1 (fun i _ => U i) us.
Hypothesis SV : stores e0 e1 (fun _ j => V j) vs.
Hypothesis RP : rect_ieee M st eta d0 d1 X Y e0 e1 U V.

Definition part (c k : Z) : R :=
  common (fval (X (c / (d1 - 1))%Z)) (fval (X (c / (d1 - 1) + 1)%Z)) (fval (U (k / (e1 - 1))%Z)) (fval (U (k / (e1 - 1) + 1)%Z)) *
  common (fval (Y (c mod (d1 - 1))%Z)) (fval (Y (c mod (d1 - 1) + 1)%Z)) (fval (V (k mod (e1 - 1))%Z)) (fval (V (k mod (e1 - 1) + 1)%Z)).

Lemma fsize_pos : forall n0 n1 (P Q : Z -> spec_float) c, 0 < st -> (2 <= n0)%Z -> (2 <= n1)%Z -> flines M st n0 P -> flines M st n1 Q -> (0 <= c < (n0 - 1) * (n1 - 1))%Z -> st * st <= fsize n1 P Q c.
Proof.
  intros n0 n1 P Q c SP N0 N1 [_ LP] [_ LQ] Hc. destruct (cell_split n0 n1 c N0 N1 Hc) as [S1 S2]. assert (A := LP _ S1). assert (B := LQ _ S2).
  unfold fsize. apply Rmult_le_compat; lra.
Qed.

Lemma table : forall m ms, exists s, conserve_run srt g d0 d1 xs ys e0 e1 us vs (m :: ms) = Ret s /\
  forall c, (0 <= c < (d0 - 1) * (d1 - 1))%Z -> let o := row_of (ci_weights s) c in
    let sh k := part c k / fsize d1 X Y c in let err := weight_err M eta (fsize d1 X Y c) in
    Forall (fun e => In (fst e) (range ((e0 - 1) * (e1 - 1))) /\ dbl (snd e) /\ Rabs (fval (snd e) - sh (fst e)) <= err) o /\ NoDup (map fst o) /\
    (forall k, In k (range ((e0 - 1) * (e1 - 1))) -> Rabs (weight_of (vals o) k - sh k) <= err) /\
    Rabs (total (map snd (vals o)) - rsum (map sh (range ((e0 - 1) * (e1 - 1))))) <= INR (length o) * err /\
    (forall h, rsum (map (fun c => sh c * h c) (range ((e0 - 1) * (e1 - 1)))) = rsum (map (fun e => sh (fst e) * h (fst e)) o)).
Proof.
  intros m ms. destruct RP as ([M1 M2] & ER & SP & SEP & LX & LY & LU & LV & AX & AY).
  destruct (run_grids srt g d0 d1 _ _ xs ys e0 e1 _ _ us vs H0 H1 H2 H3 H4 H5 SX SY SU SV) as (dg & sg & GD & GS & RUN).
  destruct (computeWeights_rel srt g (fst m) (snd m) d0 d1 e0 e1 _ _ _ _ dg sg GD GS (mkCi (Some dg) (Some sg) [] None)) as (s & CW & _ & _ & _ & AS & RF & ROW); auto.
  { constructor. } { intros d r []. }
  exists s. split; [rewrite RUN; apply run_again; auto|]. intros c Hc o sh err.
  assert (ND : g_numCells dg = ((d0 - 1) * (d1 - 1))%Z) by apply GD. assert (NS : g_numCells sg = ((e0 - 1) * (e1 - 1))%Z) by apply GS.
  destruct (ROW c) as [R1 _]. rewrite ND in R1. destruct (R1 Hc) as (o' & PC & EO). cbn [ci_weights row_of] in EO. fold o in EO. subst o'. rewrite NS in PC.
  destruct (cell_split d0 d1 c H0 H1 Hc) as [S1 S2]. set (i := (c / (d1 - 1))%Z) in *. set (j := (c mod (d1 - 1))%Z) in *.
  assert (KE := kappa_off M eta). assert (MM : 1 <= M * M) by nra. assert (U0 := u_rng).
  assert (UP : 0 <= unit_err eta) by (unfold unit_err; lra).
  assert (EE : 0 <= unit_err eta * (M * M)) by (apply Rmult_le_pos; lra).
  assert (UL : 1396 * uround * (M * M) <= unit_err eta * (M * M)) by (apply Rmult_le_compat_r; unfold unit_err; lra).
  assert (B1 := proj2 LX i S1). assert (B2 := proj2 LY j S2).
  assert (ST1 : st <= 2 * M). { destruct (proj1 LX i ltac:(lia)) as [_ P0]. destruct (proj1 LX (i + 1)%Z ltac:(lia)) as [_ P1]. apply Rabs_le_inv in P0, P1. lra. }
  assert (ST0 : M / 10 ^ 7 <= st).
  { destruct (Rle_dec (M / 10 ^ 7) st) as [L|L]; auto. exfalso. assert (st * st <= M / 10 ^ 7 * (M / 10 ^ 7)) by (apply Rmult_le_compat; lra).
    assert (0 <= M * M) by lra. unfold uround in UL. lra. }
  assert (AP : 0 < fsize d1 X Y c). { assert (A := fsize_pos d0 d1 X Y c SP H0 H1 LX LY Hc). assert (0 < st * st) by (apply Rmult_lt_0_compat; lra). lra. }
  apply pieces_row with (E := entry_rel srt g (fst m c) (snd m c) (cell_at d1 (fun i _ => X i) (fun _ j => Y j) c) (cell_at e1 (fun i _ => U i) (fun _ j => V j))); auto.
  - unfold err, weight_err. apply Rmult_le_pos; [lra|left; apply Rinv_0_lt_compat; auto].
  - intros k y I EN. apply in_range in I. destruct (cell_split e0 e1 k H3 H4 I) as [S3 S4]. set (p := (k / (e1 - 1))%Z) in *. set (q := (k mod (e1 - 1))%Z) in *.
    assert (B3 := proj2 LU p S3). assert (B4 := proj2 LV q S4).
    assert (CX : forall i, (0 <= i < d0)%Z -> coord M (X i)) by (intros; apply LX; auto). assert (CY : forall i, (0 <= i < d1)%Z -> coord M (Y i)) by (intros; apply LY; auto).
    assert (CU : forall i, (0 <= i < e0)%Z -> coord M (U i)) by (intros; apply LU; auto). assert (CV : forall i, (0 <= i < e1)%Z -> coord M (V i)) by (intros; apply LV; auto).
    assert (PX : forall i k, (0 <= i < d0)%Z -> (0 <= k < e0)%Z -> apart st (X i) (U k)) by (intros; apply AX; auto).
    assert (PY : forall i k, (0 <= i < d1)%Z -> (0 <= k < e1)%Z -> apart st (Y i) (V k)) by (intros; apply AY; auto).
    assert (Q := entry_near M st eta M1 M2 ST0 ST1 ER g G srt (fst m c) (snd m c) k (X i) (X (i + 1)%Z) (Y j) (Y (j + 1)%Z) (U p) (U (p + 1)%Z) (V q) (V (q + 1)%Z) _ y SRT
      (CX i ltac:(lia)) (CX (i + 1)%Z ltac:(lia)) (CY j ltac:(lia)) (CY (j + 1)%Z ltac:(lia)) (CU p ltac:(lia)) (CU (p + 1)%Z ltac:(lia)) (CV q ltac:(lia)) (CV (q + 1)%Z ltac:(lia)) B1 B2 B3 B4
      (PX i p ltac:(lia) ltac:(lia)) (PX i (p + 1)%Z ltac:(lia) ltac:(lia)) (PX (i + 1)%Z p ltac:(lia) ltac:(lia)) (PX (i + 1)%Z (p + 1)%Z ltac:(lia) ltac:(lia))
      (PY j q ltac:(lia) ltac:(lia)) (PY j (q + 1)%Z ltac:(lia) ltac:(lia)) (PY (j + 1)%Z q ltac:(lia) ltac:(lia)) (PY (j + 1)%Z (q + 1)%Z ltac:(lia) ltac:(lia))
      ltac:(rewrite KE, eps12; lra) eq_refl EN). cbv zeta in Q. rewrite KE in Q. exact Q.
  - apply range_NoDup.
Qed.

Lemma part_sum : forall c, (0 <= c < (d0 - 1) * (d1 - 1))%Z ->
  fval (U 0%Z) <= fval (X (c / (d1 - 1))%Z) -> fval (X (c / (d1 - 1) + 1)%Z) <= fval (U (e0 - 1)%Z) ->
  fval (V 0%Z) <= fval (Y (c mod (d1 - 1))%Z) -> fval (Y (c mod (d1 - 1) + 1)%Z) <= fval (V (e1 - 1)%Z) ->
  rsum (map (part c) (range ((e0 - 1) * (e1 - 1)))) = fsize d1 X Y c.
Proof.
  intros c Hc A1 A2 A3 A4. destruct RP as (_ & _ & SP & _ & LX & LY & LU & LV & _ & _). destruct (cell_split d0 d1 c H0 H1 Hc) as [S1 S2].
  assert (B1 := proj2 LX _ S1). assert (B2 := proj2 LY _ S2).
  unfold part, fsize. rewrite (rsum_grid (fun p => common (fval (X (c / (d1 - 1))%Z)) (fval (X (c / (d1 - 1) + 1)%Z)) (fval (U p)) (fval (U (p + 1)%Z)))
    (fun q => common (fval (Y (c mod (d1 - 1))%Z)) (fval (Y (c mod (d1 - 1) + 1)%Z)) (fval (V q)) (fval (V (q + 1)%Z)))) by lia.
  rewrite (common_sum (fun k => fval (U k))), (common_sum (fun k => fval (V k))); auto; try lia; try lra; intros k Hk; [assert (Q := proj2 LV k Hk)|assert (Q := proj2 LU k Hk)]; lra.
Qed.

Lemma part_sum_src : forall k, (0 <= k < (e0 - 1) * (e1 - 1))%Z ->
  fval (X 0%Z) <= fval (U (k / (e1 - 1))%Z) -> fval (U (k / (e1 - 1) + 1)%Z) <= fval (X (d0 - 1)%Z) ->
  fval (Y 0%Z) <= fval (V (k mod (e1 - 1))%Z) -> fval (V (k mod (e1 - 1) + 1)%Z) <= fval (Y (d1 - 1)%Z) ->
  rsum (map (fun c => part c k) (range ((d0 - 1) * (d1 - 1)))) = fsize e1 U V k.
Proof.
  intros k Hk A1 A2 A3 A4. destruct RP as (_ & _ & SP & _ & LX & LY & LU & LV & _ & _). destruct (cell_split e0 e1 k H3 H4 Hk) as [S1 S2].
  assert (B1 := proj2 LU _ S1). assert (B2 := proj2 LV _ S2).
  unfold part, fsize. rewrite (rsum_grid (fun p => common (fval (X p)) (fval (X (p + 1)%Z)) (fval (U (k / (e1 - 1))%Z)) (fval (U (k / (e1 - 1) + 1)%Z)))
    (fun q => common (fval (Y q)) (fval (Y (q + 1)%Z)) (fval (V (k mod (e1 - 1))%Z)) (fval (V (k mod (e1 - 1) + 1)%Z)))) by lia.
  rewrite (rsum_ext (fun p => common (fval (X p)) (fval (X (p + 1)%Z)) (fval (U (k / (e1 - 1))%Z)) (fval (U (k / (e1 - 1) + 1)%Z))) (fun p => common (fval (U (k / (e1 - 1))%Z)) (fval (U (k / (e1 - 1) + 1)%Z)) (fval (X p)) (fval (X (p + 1)%Z)))) by (intros; apply common_sym).
  rewrite (rsum_ext (fun q => common (fval (Y q)) (fval (Y (q + 1)%Z)) (fval (V (k mod (e1 - 1))%Z)) (fval (V (k mod (e1 - 1) + 1)%Z))) (fun q => common (fval (V (k mod (e1 - 1))%Z)) (fval (V (k mod (e1 - 1) + 1)%Z)) (fval (Y q)) (fval (Y (q + 1)%Z)))) by (intros; apply common_sym).
  rewrite (common_sum (fun k => fval (X k))), (common_sum (fun k => fval (Y k))); auto; try lia; try lra; intros q Hq; [assert (Q := proj2 LY q Hq)|assert (Q := proj2 LX q Hq)]; lra.
Qed.
End Grids.

(** ** C38 *)
Theorem C38_rectilinear_ieee : forall srt (g : gels spec_float) M st eta d0 d1 X Y xs ys e0 e1 U V us vs m ms,
  axis2 eta g -> (forall lt l, Permutation (srt lt l) l) ->
  (2 <= d0)%Z -> (2 <= d1)%Z -> (d0 * d1 <= int_max)%Z -> (2 <= e0)%Z -> (2 <= e1)%Z -> (e0 * e1 <= int_max)%Z ->
  stores d0 d1 (fun i _ => X i) xs -> stores d0 d1 (fun _ j => Y j) ys -> stores e0 e1 (fun i _ => U i) us -> stores e0 e1 (fun _ j => V j) vs ->
  rect_ieee M st eta d0 d1 X Y e0 e1 U V ->
  exists s, conserve_run srt g d0 d1 xs ys e0 e1 us vs (m :: ms) = Ret s /\
    forall i j, (0 <= i < d0 - 1)%Z -> (0 <= j < d1 - 1)%Z -> let row := row_of (ci_weights s) (i * (d1 - 1) + j) in
      let A := (fval (X (i + 1)%Z) - fval (X i)) * (fval (Y (j + 1)%Z) - fval (Y j)) in
      (forall e, In e row -> dbl (snd e)) /\
      (forall k l, (0 <= k < e0 - 1)%Z -> (0 <= l < e1 - 1)%Z -> Rabs (weight_of (vals row) (k * (e1 - 1) + l) -
        common (fval (X i)) (fval (X (i + 1)%Z)) (fval (U k)) (fval (U (k + 1)%Z)) * common (fval (Y j)) (fval (Y (j + 1)%Z)) (fval (V l)) (fval (V (l + 1)%Z)) / A) <= weight_err M eta A) /\
      (fval (U 0%Z) <= fval (X i) -> fval (X (i + 1)%Z) <= fval (U (e0 - 1)%Z) -> fval (V 0%Z) <= fval (Y j) -> fval (Y (j + 1)%Z) <= fval (V (e1 - 1)%Z) ->
        Rabs (total (map snd (vals row)) - 1) <= INR (length row) * weight_err M eta A).
Proof.
  intros srt g M st eta d0 d1 X Y xs ys e0 e1 U V us vs m ms G SRT H0 H1 H2 H3 H4 H5 SX SY SU SV RP.
  destruct (table srt g M st eta d0 d1 e0 e1 X Y U V xs ys us vs SRT G H0 H1 H2 H3 H4 H5 SX SY SU SV RP m ms) as (s & RN & W).
  exists s. split; auto. intros i j Hi Hj row A. set (c := (i * (d1 - 1) + j)%Z) in *.
  assert (Hc : (0 <= c < (d0 - 1) * (d1 - 1))%Z) by (unfold c; nia).
  assert (PS := part_sum M st eta d0 d1 e0 e1 X Y U V H0 H1 H3 H4 RP c Hc).
  assert (AP : 0 < A). { destruct RP as (_ & _ & SP & _ & LX & LY & _). assert (B1 := proj2 LX i Hi). assert (B2 := proj2 LY j Hj). apply Rmult_lt_0_compat; lra. }
  assert (EA : fsize d1 X Y c = A /\ forall k, part d1 e1 X Y U V c k = common (fval (X i)) (fval (X (i + 1)%Z)) (fval (U (k / (e1 - 1))%Z)) (fval (U (k / (e1 - 1) + 1)%Z)) *
    common (fval (Y j)) (fval (Y (j + 1)%Z)) (fval (V (k mod (e1 - 1))%Z)) (fval (V (k mod (e1 - 1) + 1)%Z))).
  { unfold fsize, part. replace (c / (d1 - 1))%Z with i by (apply (Z.div_unique_pos _ _ i j); unfold c; lia). replace (c mod (d1 - 1))%Z with j by (apply (Z.mod_unique_pos _ _ i j); unfold c; lia). auto. }
  destruct EA as [EA EP]. destruct (W c Hc) as (F & _ & WK & WT & _). rewrite EA in *. fold row in F, WK, WT.
  replace (c / (d1 - 1))%Z with i in PS by (apply (Z.div_unique_pos _ _ i j); unfold c; lia). replace (c mod (d1 - 1))%Z with j in PS by (apply (Z.mod_unique_pos _ _ i j); unfold c; lia).
  split; [|split].
  - intros e I. rewrite List.Forall_forall in F. apply (F e I).
  - intros k l Hk Hl. assert (Hc' : (0 <= k * (e1 - 1) + l < (e0 - 1) * (e1 - 1))%Z) by nia.
    specialize (WK (k * (e1 - 1) + l)%Z (proj2 (in_range _ _) Hc')). rewrite EP in WK.
    replace ((k * (e1 - 1) + l) / (e1 - 1))%Z with k in WK by (apply (Z.div_unique_pos _ _ k l); lia).
    replace ((k * (e1 - 1) + l) mod (e1 - 1))%Z with l in WK by (apply (Z.mod_unique_pos _ _ k l); lia). exact WK.
  - intros A1 A2 A3 A4. rewrite (rsum_ext _ (fun k => / A * part d1 e1 X Y U V c k)) in WT by (intros; unfold Rdiv; ring). rewrite rsum_scale, PS in WT by auto. rewrite Rinv_l in WT by lra. exact WT.
Qed.
Print Assumptions C38_rectilinear_ieee.

(** ** C39 *)
Theorem C39_rectilinear_ieee : forall srt (g : gels spec_float) M st eta d0 d1 X Y xs ys e0 e1 U V us vs m ms S src dst,
  axis2 eta g -> (forall lt l, Permutation (srt lt l) l) ->
  (2 <= d0)%Z -> (2 <= d1)%Z -> (d0 * d1 <= int_max)%Z -> (2 <= e0)%Z -> (2 <= e1)%Z -> (e0 * e1 <= int_max)%Z ->
  stores d0 d1 (fun i _ => X i) xs -> stores d0 d1 (fun _ j => Y j) ys -> stores e0 e1 (fun i _ => U i) us -> stores e0 e1 (fun _ j => V j) vs ->
  rect_ieee M st eta d0 d1 X Y e0 e1 U V ->
  Z.of_nat (length src) = ((e0 - 1) * (e1 - 1))%Z -> Z.of_nat (length dst) = ((d0 - 1) * (d1 - 1))%Z -> (forall x, In x dst -> dbl x /\ fval x = 0) ->
  1 <= S <= bpow radix2 800 -> (forall x, In x src -> dbl x /\ Rabs (fval x) <= S) ->
  exists s out, conserve_run srt g d0 d1 xs ys e0 e1 us vs (m :: ms) = Ret s /\ ci_apply s src dst = Ret out /\ length out = length dst /\
    let f k := fval (nth (Z.to_nat k) src n0) in let h c := fval (nth (Z.to_nat c) out n0) in
    let err c := let n := INR (length (row_of (ci_weights s) c)) in n * (weight_err M eta (fsize d1 X Y c) + 17 * n * uround) * S in
    (forall c, (0 <= c < (d0 - 1) * (d1 - 1))%Z -> (Z.of_nat (length (row_of (ci_weights s) c)) <= (e0 - 1) * (e1 - 1))%Z /\ dbl (nth (Z.to_nat c) out n0) /\
      Rabs (h c - total (map (fun k => common (fval (X (c / (d1 - 1))%Z)) (fval (X (c / (d1 - 1) + 1)%Z)) (fval (U (k / (e1 - 1))%Z)) (fval (U (k / (e1 - 1) + 1)%Z)) *
        common (fval (Y (c mod (d1 - 1))%Z)) (fval (Y (c mod (d1 - 1) + 1)%Z)) (fval (V (k mod (e1 - 1))%Z)) (fval (V (k mod (e1 - 1) + 1)%Z)) * f k) (range ((e0 - 1) * (e1 - 1)))) / fsize d1 X Y c) <= err c) /\
    (fval (X 0%Z) <= fval (U 0%Z) -> fval (U (e0 - 1)%Z) <= fval (X (d0 - 1)%Z) -> fval (Y 0%Z) <= fval (V 0%Z) -> fval (V (e1 - 1)%Z) <= fval (Y (d1 - 1)%Z) ->
      Rabs (total (map (fun c => fsize d1 X Y c * h c) (range ((d0 - 1) * (d1 - 1)))) - total (map (fun k => fsize e1 U V k * f k) (range ((e0 - 1) * (e1 - 1))))) <=
      total (map (fun c => fsize d1 X Y c * err c) (range ((d0 - 1) * (d1 - 1))))).
Proof.
  intros srt g M st eta d0 d1 X Y xs ys e0 e1 U V us vs m ms S src dst G SRT H0 H1 H2 H3 H4 H5 SX SY SU SV RP LS LD DZ SB SR.
  destruct (table srt g M st eta d0 d1 e0 e1 X Y U V xs ys us vs SRT G H0 H1 H2 H3 H4 H5 SX SY SU SV RP m ms) as (s & RN & W).
  destruct (C43_apply srt g d0 d1 xs ys e0 e1 us vs (m :: ms) src dst) as (s' & out & RN' & AP & LO & VO); auto; try (apply SX); try (apply SY); try (apply SU); try (apply SV).
  rewrite RN in RN'. injection RN' as <-. exists s, out. split; auto. split; auto. split; auto. intros f h err.
  assert (RP' := RP). destruct RP' as ([M1 M2] & ER & SP & SEP & LX & LY & LU & LV & AX & AY).
  assert (UP : 0 <= unit_err eta) by (assert (U0 := u_rng); unfold unit_err; lra). assert (MM : 1 <= M * M) by nra.
  assert (EE : 0 <= unit_err eta * (M * M)) by (apply Rmult_le_pos; lra).
  assert (LEN : forall c, (0 <= c < (d0 - 1) * (d1 - 1))%Z -> (length (row_of (ci_weights s) c) <= length (range ((e0 - 1) * (e1 - 1))))%nat).
  { intros c Hc. destruct (W c Hc) as (F & NDp & _). rewrite <- (map_length fst (row_of _ _)). apply NoDup_incl_length; auto. intros k I. apply in_map_iff in I. destruct I as (e & <- & I). rewrite List.Forall_forall in F. apply (F e I). }
  assert (ONE : forall c, (0 <= c < (d0 - 1) * (d1 - 1))%Z -> dbl (nth (Z.to_nat c) out n0) /\
    Rabs (h c - rsum (map (fun k => part d1 e1 X Y U V c k * f k) (range ((e0 - 1) * (e1 - 1)))) / fsize d1 X Y c) <= err c).
  { intros c Hc. destruct (W c Hc) as (F & NDp & _ & _ & SUM). set (A := fsize d1 X Y c) in *. set (o := row_of (ci_weights s) c) in *.
    assert (AL := fsize_pos M st d0 d1 X Y c SP H0 H1 LX LY Hc). fold A in AL.
    assert (E6 : 0 <= weight_err M eta A <= 6).
    { unfold weight_err. split; [apply Rmult_le_pos; [lra|left; apply Rinv_0_lt_compat; lra]|]. apply Rmult_le_reg_r with A; [lra|].
      replace (21 * (unit_err eta * (M * M)) / A * A) with (21 * (unit_err eta * (M * M))) by (field; lra). lra. }
    assert (RW : rsum (map (fun k => part d1 e1 X Y U V c k * f k) (range ((e0 - 1) * (e1 - 1)))) / A = rsum (map (fun e : Z * spec_float => part d1 e1 X Y U V c (fst e) / A * f (fst e)) o)).
    { rewrite <- (SUM f). rewrite (rsum_ext (fun c0 => part d1 e1 X Y U V c c0 / A * f c0) (fun k => / A * (part d1 e1 X Y U V c k * f k))) by (intros; unfold Rdiv; ring). rewrite rsum_scale. unfold Rdiv. ring. }
    rewrite RW. destruct (weighted_near (weight_err M eta A) S (fun k => part d1 e1 X Y U V c k / A) (fun k => nth (Z.to_nat k) src n0) o E6 SB) as [DW EW].
    { apply Rle_trans with (INR (length (range ((e0 - 1) * (e1 - 1))))).
      - apply le_INR. apply LEN. auto.
      - rewrite L_Box2.range_length, INR_IZR_INZ, Z2Nat.id by nia. apply Rle_trans with (IZR int_max); [apply IZR_le; nia|]. change (bpow radix2 40) with (IZR (2 ^ 40)). apply IZR_le. unfold int_max. lia. }
    { rewrite List.Forall_forall in *. intros e I. destruct (F e I) as (I1 & I2 & I3). apply in_range in I1. split; auto. split; auto. split.
      - assert (B : 0 <= part d1 e1 X Y U V c (fst e) <= A).
        { destruct (cell_split d0 d1 c H0 H1 Hc) as [S1 S2]. assert (B1 := proj2 LX _ S1). assert (B2 := proj2 LY _ S2).
          unfold part, A, fsize.
          match goal with |- 0 <= ?a * ?b <= _ => assert (C1 : 0 <= a <= fval (X (c / (d1 - 1) + 1)%Z) - fval (X (c / (d1 - 1))%Z)) by (apply common_rng; lra);
            assert (C2 : 0 <= b <= fval (Y (c mod (d1 - 1) + 1)%Z) - fval (Y (c mod (d1 - 1))%Z)) by (apply common_rng; lra) end.
          split; [apply Rmult_le_pos; lra|apply Rmult_le_compat; lra]. }
        split; [apply Rmult_le_pos; [lra|left; apply Rinv_0_lt_compat; lra]|]. apply Rmult_le_reg_r with A; [lra|]. replace (part d1 e1 X Y U V c (fst e) / A * A) with (part d1 e1 X Y U V c (fst e)) by (field; lra). lra.
      - apply SR. apply nth_In. lia. }
    unfold h, err. fold o. cbv zeta. rewrite (VO c n0 Hc). fold o.
    clearbody o. destruct o as [|e o]; [|split; auto]. cbn [map rsum length] in EW |- *.
    destruct (DZ (nth (Z.to_nat c) dst n0)) as [D0 V0]; [apply nth_In; lia|]. split; auto. rewrite V0, Rminus_0_r, Rabs_R0. cbn [INR]. lra. }
  split.
  - intros c Hc. split; [assert (L := LEN c Hc); rewrite L_Box2.range_length in L; nia|]. rewrite total_rsum. apply ONE. auto.
  - intros C1 C2 C3 C4. assert (TR : forall l, total l = rsum l) by apply total_rsum.
    rewrite (TR (map (fun c => fsize d1 X Y c * h c) _)), (TR (map (fun k => fsize e1 U V k * f k) _)), (TR (map (fun c => fsize d1 X Y c * err c) _)).
    assert (MX := fun i j A B => flines_le M st d0 X SP LX i j A B). assert (MY := fun i j A B => flines_le M st d1 Y SP LY i j A B).
    assert (MU := fun i j A B => flines_le M st e0 U SP LU i j A B). assert (MV := fun i j A B => flines_le M st e1 V SP LV i j A B).
    assert (KEEP : rsum (map (fun k => fsize e1 U V k * f k) (range ((e0 - 1) * (e1 - 1)))) =
      rsum (map (fun c => rsum (map (fun k => part d1 e1 X Y U V c k * f k) (range ((e0 - 1) * (e1 - 1))))) (range ((d0 - 1) * (d1 - 1))))).
    { rewrite rsum_swap. apply rsum_ext. intros k I. apply in_range in I. destruct (cell_split e0 e1 k H3 H4 I) as [S1 S2].
      rewrite (rsum_ext _ (fun c => f k * part d1 e1 X Y U V c k)) by (intros; ring). rewrite rsum_scale.
      rewrite (part_sum_src M st eta d0 d1 e0 e1 X Y U V H0 H1 H3 H4 RP k I); [ring| | | |].
      - apply Rle_trans with (1 := C1). apply MU; lia.
      - apply Rle_trans with (2 := C2). apply MU; lia.
      - apply Rle_trans with (1 := C3). apply MV; lia.
      - apply Rle_trans with (2 := C4). apply MV; lia. }
    rewrite KEEP. clear KEEP.
    assert (L : forall l, (forall c, In c l -> (0 <= c < (d0 - 1) * (d1 - 1))%Z) ->
      Rabs (rsum (map (fun c => fsize d1 X Y c * h c) l) - rsum (map (fun c => rsum (map (fun k => part d1 e1 X Y U V c k * f k) (range ((e0 - 1) * (e1 - 1))))) l)) <= rsum (map (fun c => fsize d1 X Y c * err c) l)).
    { induction l as [|c l IH]; intros HL; cbn [map rsum]; [rewrite Rminus_eq_0, Rabs_R0; lra|]. specialize (IH (fun c I => HL c (or_intror I))).
      assert (Hc := HL c (or_introl eq_refl)). destruct (ONE c Hc) as [_ E]. set (mean := rsum (map (fun k => part d1 e1 X Y U V c k * f k) (range ((e0 - 1) * (e1 - 1))))) in *.
      assert (AL := fsize_pos M st d0 d1 X Y c SP H0 H1 LX LY Hc). set (A := fsize d1 X Y c) in *. assert (AP' : 0 < A) by (assert (0 < st * st) by (apply Rmult_lt_0_compat; lra); lra).
      assert (E' : Rabs (A * h c - mean) <= A * err c). { replace (A * h c - mean) with (A * (h c - mean / A)) by (field; lra). rewrite Rabs_mult, (Rabs_pos_eq A) by lra. apply Rmult_le_compat_l; lra. }
      apply Rabs_le_inv in E', IH. apply Rabs_le. lra. }
    apply L. intros c I. apply in_range. auto.
Qed.
Print Assumptions C39_rectilinear_ieee.

(** ** Cases: destination lines 0, 2 and source lines -1, 1, 3 (both directions), and the other way round. *)
Definition fwide (i : Z) : spec_float := nofZ (2 * i).
Definition fshifted (i : Z) : spec_float := nofZ (2 * i - 1).
Lemma fwide_val : forall i, (0 <= i <= 2)%Z -> dbl (fwide i) /\ fval (fwide i) = wide i.
Proof. intros i Hi. unfold fwide, wide. destruct (f_ofZ (2 * i) ltac:(lia)) as [D V]. split; auto. rewrite V, mult_IZR. reflexivity. Qed.
Lemma fshifted_val : forall i, (0 <= i <= 2)%Z -> dbl (fshifted i) /\ fval (fshifted i) = shifted i.
Proof. intros i Hi. unfold fshifted, shifted. destruct (f_ofZ (2 * i - 1) ltac:(lia)) as [D V]. split; auto. rewrite V, minus_IZR, mult_IZR. reflexivity. Qed.

Lemma case_rect : rect_ieee 4 1 (4 * uround) 2 2 fwide fwide 3 3 fshifted fshifted /\ rect_ieee 4 1 (4 * uround) 3 3 fshifted fshifted 2 2 fwide fwide.
Proof.
  assert (LW : flines 4 1 2 fwide).
  { split; intros i Hi; [|destruct (fwide_val i ltac:(lia)) as [_ ->]; destruct (fwide_val (i + 1)%Z ltac:(lia)) as [_ ->]; unfold wide; rewrite plus_IZR; lra].
    destruct (fwide_val i ltac:(lia)) as [D ->]. split; auto. unfold wide. assert (0 <= IZR i <= 1) by (split; apply IZR_le; lia). apply Rabs_le. lra. }
  assert (LS : flines 4 1 3 fshifted).
  { split; intros i Hi; [|destruct (fshifted_val i ltac:(lia)) as [_ ->]; destruct (fshifted_val (i + 1)%Z ltac:(lia)) as [_ ->]; unfold shifted; rewrite plus_IZR; lra].
    destruct (fshifted_val i ltac:(lia)) as [D ->]. split; auto. unfold shifted. assert (0 <= IZR i <= 2) by (split; apply IZR_le; lia). apply Rabs_le. lra. }
  assert (NC : no_common 1 2 fwide 3 fshifted).
  { intros i k Hi Hk. destruct (fwide_val i ltac:(lia)) as [_ ->]. destruct (fshifted_val k ltac:(lia)) as [_ ->]. unfold wide, shifted.
    replace (2 * IZR i - (2 * IZR k - 1)) with (IZR (2 * i - 2 * k + 1)) by (rewrite plus_IZR, minus_IZR, !mult_IZR; ring). rewrite Rabs_Zabs. apply IZR_le. lia. }
  assert (NC' : no_common 1 3 fshifted 2 fwide) by (intros i k Hi Hk; rewrite Rabs_minus_sym; apply NC; auto).
  assert (B : 4 <= bpow radix2 400) by (change 4 with (bpow radix2 2); apply bpow_le; lia).
  unfold rect_ieee, unit_err, uround. split; (split; [lra|]); (split; [lra|]); (split; [lra|]); (split; [lra|]); auto 10.
Qed.

Definition farray (n : nat) (f : Z -> Z -> spec_float) : list spec_float := flat_map (fun i => map (fun j => f i j) (zseq n)) (zseq n).
Lemma farray_stores : forall f, stores 2 2 f (farray 2 f) /\ stores 3 3 f (farray 3 f).
Proof.
  intros f. split; (split; [reflexivity|]); intros i j Hi Hj.
  - assert (I : (i = 0 \/ i = 1)%Z) by lia. assert (J : (j = 0 \/ j = 1)%Z) by lia. destruct I as [-> | ->], J as [-> | ->]; reflexivity.
  - assert (I : (i = 0 \/ i = 1 \/ i = 2)%Z) by lia. assert (J : (j = 0 \/ j = 1 \/ j = 2)%Z) by lia. destruct I as [-> | [-> | ->]], J as [-> | [-> | ->]]; reflexivity.
Qed.
Definition fnoise : memory spec_float := (fun _ _ => (nofZ 7, nofZ 9), fun _ _ _ => (nofZ 8, nofZ (-3))).

(** The cell [0, 2] x [0, 2] over four cells: a quarter each up to 2e-10 (the bound is 181,776 units of rounding). *)
Example C38_ieee_case : exists s, conserve_run insertion exact2 2 2 (farray 2 (fun i _ => fwide i)) (farray 2 (fun _ j => fwide j))
    3 3 (farray 3 (fun i _ => fshifted i)) (farray 3 (fun _ j => fshifted j)) [fnoise; fnoise] = Ret s /\
  (forall k, (0 <= k < 4)%Z -> Rabs (weight_of (vals (row_of (ci_weights s) 0)) k - 1 / 4) <= 2 / 10 ^ 10).
Proof.
  destruct (C38_rectilinear_ieee insertion exact2 4 1 (4 * uround) 2 2 fwide fwide _ _ 3 3 fshifted fshifted _ _ fnoise [fnoise] exact2_axis (fun lt l => proj1 (insertion_sorts nat lt l))
    ltac:(lia) ltac:(lia) ltac:(unfold int_max; lia) ltac:(lia) ltac:(lia) ltac:(unfold int_max; lia)
    (proj1 (farray_stores _)) (proj1 (farray_stores _)) (proj2 (farray_stores _)) (proj2 (farray_stores _)) (proj1 case_rect)) as (s & RN & W).
  exists s. split; auto. destruct (W 0%Z 0%Z ltac:(lia) ltac:(lia)) as (_ & W1 & _). change (0 * (2 - 1) + 0)%Z with 0%Z in *. change (0 + 1)%Z with 1%Z in *.
  destruct (fwide_val 0 ltac:(lia)) as [_ F0]. destruct (fwide_val 1 ltac:(lia)) as [_ F1]. destruct (fshifted_val 0 ltac:(lia)) as [_ S0]. destruct (fshifted_val 1 ltac:(lia)) as [_ S1]. destruct (fshifted_val 2 ltac:(lia)) as [_ S2].
  rewrite F0, F1 in W1.
  assert (CM : common (wide 0) (wide 1) (shifted 0) (shifted 1) = 1 /\ common (wide 0) (wide 1) (shifted 1) (shifted 2) = 1).
  { unfold common, wide, shifted, Rmin, Rmax. split; repeat destruct (Rle_dec _ _); lra. }
  destruct CM as [C1 C2]. assert (EB : weight_err 4 (4 * uround) ((wide 1 - wide 0) * (wide 1 - wide 0)) <= 2 / 10 ^ 10) by (unfold weight_err, unit_err, wide, uround; lra).
  assert (AR : (wide 1 - wide 0) * (wide 1 - wide 0) = 4) by (unfold wide; lra).
  intros k Hk. assert (K : (k = 0 \/ k = 1 \/ k = 2 \/ k = 3)%Z) by lia.
  assert (Q1 := W1 0%Z 0%Z ltac:(lia) ltac:(lia)). assert (Q2 := W1 0%Z 1%Z ltac:(lia) ltac:(lia)). assert (Q3 := W1 1%Z 0%Z ltac:(lia) ltac:(lia)). assert (Q4 := W1 1%Z 1%Z ltac:(lia) ltac:(lia)).
  change (0 + 1)%Z with 1%Z in *. change (1 + 1)%Z with 2%Z in *. rewrite ?S0, ?S1, ?S2, ?C1, ?C2, AR in Q1. rewrite ?S0, ?S1, ?S2, ?C1, ?C2, AR in Q2. rewrite ?S0, ?S1, ?S2, ?C1, ?C2, AR in Q3. rewrite ?S0, ?S1, ?S2, ?C1, ?C2, AR in Q4. rewrite AR in EB.
  replace (1 * 1 / 4) with (1 / 4) in * by lra.
  destruct K as [-> |[-> |[-> | ->]]]; apply Rle_trans with (2 := EB); [exact Q1|exact Q2|exact Q3|exact Q4].
Qed.
Print Assumptions C38_ieee_case.

(** One source cell [0, 2] x [0, 2] with value 5 over four destination cells of size 4: the total 20 is kept up to 1e-7. *)
Example C39_ieee_case : exists s out, conserve_run insertion exact2 3 3 (farray 3 (fun i _ => fshifted i)) (farray 3 (fun _ j => fshifted j))
    2 2 (farray 2 (fun i _ => fwide i)) (farray 2 (fun _ j => fwide j)) [fnoise] = Ret s /\
  ci_apply s [nofZ 5] [n0; n0; n0; n0] = Ret out /\ Forall dbl out /\ Rabs (4 * total (map fval out) - 20) <= / 10 ^ 7.
Proof.
  destruct (C39_rectilinear_ieee insertion exact2 4 1 (4 * uround) 3 3 fshifted fshifted _ _ 2 2 fwide fwide _ _ fnoise [] 5 [nofZ 5] [n0; n0; n0; n0] exact2_axis (fun lt l => proj1 (insertion_sorts nat lt l))
    ltac:(lia) ltac:(lia) ltac:(unfold int_max; lia) ltac:(lia) ltac:(lia) ltac:(unfold int_max; lia)
    (proj2 (farray_stores _)) (proj2 (farray_stores _)) (proj1 (farray_stores _)) (proj1 (farray_stores _)) (proj2 case_rect) eq_refl eq_refl) as (s & out & RN & AP & LN & E1 & E2).
  - intros x [<- |[<- |[<- |[<- |[]]]]]; split; try reflexivity; split; reflexivity.
  - split; [lra|]. change 5 with (IZR 5). apply Rle_trans with (bpow radix2 3); [change (bpow radix2 3) with 8; lra|apply bpow_le; lia].
  - intros x [<- |[]]. destruct (f_ofZ 5 ltac:(lia)) as [D V]. split; auto. rewrite V. rewrite Rabs_pos_eq; lra.
  - exists s, out. split; auto. split; auto. split.
    { apply List.Forall_forall. intros x I. apply (In_nth _ _ n0) in I. destruct I as (n & L & <-). rewrite LN in L. cbn [length] in L.
      rewrite <- (Nat2Z.id n). apply E1. lia. }
    destruct (fwide_val 0 ltac:(lia)) as [_ F0]. destruct (fwide_val 1 ltac:(lia)) as [_ F1]. destruct (fshifted_val 0 ltac:(lia)) as [_ S0]. destruct (fshifted_val 1 ltac:(lia)) as [_ S1]. destruct (fshifted_val 2 ltac:(lia)) as [_ S2].
    change (2 - 1)%Z with 1%Z in *. change (3 - 1)%Z with 2%Z in *. rewrite F0, F1, S0, S2 in E2.
    specialize (E2 ltac:(unfold wide, shifted; lra) ltac:(unfold wide, shifted; lra) ltac:(unfold wide, shifted; lra) ltac:(unfold wide, shifted; lra)).
    set (n := fun c => INR (length (row_of (ci_weights s) c))) in *.
    assert (NB : forall c, (0 <= c < 4)%Z -> 0 <= n c <= 1). { intros c Hc. destruct (E1 c ltac:(lia)) as [L _]. unfold n. split; [apply pos_INR|]. change 1 with (INR 1). apply le_INR. lia. }
    assert (FS : forall c, (0 <= c < 4)%Z -> fsize 3 fshifted fshifted c = 4).
    { intros c Hc. assert (K : (c = 0 \/ c = 1 \/ c = 2 \/ c = 3)%Z) by lia. unfold fsize. destruct K as [-> |[-> |[-> | ->]]];       change (0 / (3 - 1))%Z with 0%Z; change (0 mod (3 - 1))%Z with 0%Z; change (1 / (3 - 1))%Z with 0%Z; change (1 mod (3 - 1))%Z with 1%Z; change (2 / (3 - 1))%Z with 1%Z; change (2 mod (3 - 1))%Z with 0%Z; change (3 / (3 - 1))%Z with 1%Z; change (3 mod (3 - 1))%Z with 1%Z;
      change (0 + 1)%Z with 1%Z; change (1 + 1)%Z with 2%Z; rewrite ?S0, ?S1, ?S2; unfold shifted; lra. }
    assert (EB : forall c, (0 <= c < 4)%Z -> n c * (weight_err 4 (4 * uround) 4 + 17 * n c * uround) * 5 <= / 10 ^ 9).
    { intros c Hc. destruct (NB c Hc) as [B0 B1]. assert (U0 := u_rng). assert (WP : 0 <= weight_err 4 (4 * uround) 4) by (unfold weight_err, unit_err; lra).
      apply Rle_trans with (1 * (weight_err 4 (4 * uround) 4 + 17 * 1 * uround) * 5).
      - apply Rmult_le_compat_r; [lra|]. assert (17 * n c * uround <= 17 * 1 * uround) by (apply Rmult_le_compat_r; lra). assert (0 <= 17 * n c * uround) by (apply Rmult_le_pos; lra). apply Rmult_le_compat; lra.
      - unfold weight_err, unit_err, uround. lra. }
    destruct out as [|o0 [|o1 [|o2 [|o3 [|]]]]]; try discriminate LN.
    change (range (2 * 2)) with [0; 1; 2; 3]%Z in E2. change (range (1 * 1)) with [0]%Z in E2. cbn [map total] in E2 |- *.
    rewrite !FS in E2 by lia. assert (FW : fsize 2 fwide fwide 0 = 4). { unfold fsize. change (0 / (2 - 1))%Z with 0%Z. change (0 mod (2 - 1))%Z with 0%Z. change (0 + 1)%Z with 1%Z. rewrite F0, F1. unfold wide. lra. }
    rewrite FW in E2. change (Z.to_nat 0) with 0%nat in E2. change (Z.to_nat 1) with 1%nat in E2. change (Z.to_nat 2) with 2%nat in E2. change (Z.to_nat 3) with 3%nat in E2. cbn [nth] in E2.
    destruct (f_ofZ 5 ltac:(lia)) as [_ V5]. rewrite V5 in E2.
    assert (B0 := EB 0%Z ltac:(lia)). assert (B1 := EB 1%Z ltac:(lia)). assert (B2 := EB 2%Z ltac:(lia)). assert (B3 := EB 3%Z ltac:(lia)). unfold n in B0, B1, B2, B3.
    apply Rabs_le_inv in E2. apply Rabs_le. lra.
Qed.
