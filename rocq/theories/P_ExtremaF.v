(** Properties C88 and C90 in IEEE double arithmetic: conservative interpolation between rectilinear grids without common lines. *)
From Coq Require Import ZArith List Bool Reals Lra Lia Permutation Floats.SpecFloat.
From Flocq Require Import Core BinarySingleNaN.
From Verif Require Import Base Num NumR NumF S_LinAlg S_Array S_Geometry S_Quad S_Area S_Overlap S_Sort S_ConserveGrid S_Rectilinear
  M_LinearSolve M_Triangulate M_Quad M_QuadIntersect M_ConserveInterp S_ConserveTable L_LinearSolve
  L_Conserve L_ConserveTable L_ConserveApply L_ConserveAgain L_Area L_ConserveArea L_ConserveRect L_Triangulate L_Float L_FloatOps L_FindPointF
  L_QuadBoxF L_ResidualF L_QuadF L_TriNear L_Packing L_RectF P_Conserve P_RectF.
Import ListNotations.
Open Scope R_scope.

(** Disjoint intervals cover no more than there is. *)
Lemma common_pack : forall (U : Z -> R) a b n, (0 <= n)%Z -> (forall k, (0 <= k < n)%Z -> U k <= U (k + 1)%Z) -> a <= b ->
  0 <= rsum (map (fun k => common a b (U k) (U (k + 1)%Z)) (range n)) <= b - a.
Proof.
  intros U a b n Hn UP AB. assert (E : exists k, n = Z.of_nat k) by (exists (Z.to_nat n); lia). destruct E as (k & ->). clear Hn.
  assert (G : rsum (map (fun k => common a b (U k) (U (k + 1)%Z)) (range (Z.of_nat k))) = Rmax a (Rmin b (U (Z.of_nat k))) - Rmax a (Rmin b (U 0%Z)) /\ U 0%Z <= U (Z.of_nat k)).
  { induction k as [|k IH].
    - change (Z.of_nat 0) with 0%Z. change (range 0) with (@nil Z). cbn [map rsum]. lra.
    - destruct IH as [IH MO]; [intros; apply UP; lia|]. rewrite Nat2Z.inj_succ, <- Z.add_1_r, L_Grids.range_S, map_app, rsum_app, IH by lia. cbn [map rsum]. assert (Q := UP (Z.of_nat k) ltac:(lia)).
      split; [|lra]. unfold common, Rmax, Rmin. repeat destruct (Rle_dec _ _); lra. }
  destruct G as [-> MO]. unfold Rmax, Rmin. repeat destruct (Rle_dec _ _); lra.
Qed.

Section Parts.
Variables M st eta : R.
Variables d0 d1 e0 e1 : Z.
Variables X Y U V : Z -> spec_float.
Hypothesis H0 : (2 <= d0)%Z.
Hypothesis H1 : (2 <= d1)%Z.
Hypothesis H3 : (2 <= e0)%Z.
Hypothesis H4 : (2 <= e1)%Z.
Hypothesis RP : rect_ieee M st eta d0 d1 X Y e0 e1 U V.

Lemma part_pos : forall c k, 0 <= part d1 e1 X Y U V c k.
Proof. intros c k. unfold part, common. apply Rmult_le_pos; apply Rmax_l. Qed.

Lemma part_pack : forall c, (0 <= c < (d0 - 1) * (d1 - 1))%Z -> 0 <= rsum (map (part d1 e1 X Y U V c) (range ((e0 - 1) * (e1 - 1)))) <= fsize d1 X Y c.
Proof.
  intros c Hc. destruct RP as (_ & _ & SP & _ & LX & LY & LU & LV & _ & _). destruct (cell_split d0 d1 c H0 H1 Hc) as [S1 S2].
  assert (B1 := proj2 LX _ S1). assert (B2 := proj2 LY _ S2).
  unfold part, fsize. rewrite (rsum_grid (fun p => common (fval (X (c / (d1 - 1))%Z)) (fval (X (c / (d1 - 1) + 1)%Z)) (fval (U p)) (fval (U (p + 1)%Z)))
    (fun q => common (fval (Y (c mod (d1 - 1))%Z)) (fval (Y (c mod (d1 - 1) + 1)%Z)) (fval (V q)) (fval (V (q + 1)%Z)))) by lia.
  destruct (common_pack (fun k => fval (U k)) (fval (X (c / (d1 - 1))%Z)) (fval (X (c / (d1 - 1) + 1)%Z)) (e0 - 1)) as [P1 P2]; [lia|intros k Hk; assert (Q := proj2 LU k Hk); lra|lra|].
  destruct (common_pack (fun k => fval (V k)) (fval (Y (c mod (d1 - 1))%Z)) (fval (Y (c mod (d1 - 1) + 1)%Z)) (e1 - 1)) as [Q1 Q2]; [lia|intros k Hk; assert (Q := proj2 LV k Hk); lra|lra|].
  split; [apply Rmult_le_pos; lra|apply Rmult_le_compat; lra].
Qed.

Lemma part_pack_src : forall k, (0 <= k < (e0 - 1) * (e1 - 1))%Z -> rsum (map (fun c => part d1 e1 X Y U V c k) (range ((d0 - 1) * (d1 - 1)))) <= fsize e1 U V k.
Proof.
  intros k Hk. destruct RP as (_ & _ & SP & _ & LX & LY & LU & LV & _ & _). destruct (cell_split e0 e1 k H3 H4 Hk) as [S1 S2].
  assert (B1 := proj2 LU _ S1). assert (B2 := proj2 LV _ S2).
  unfold part, fsize. rewrite (rsum_grid (fun p => common (fval (X p)) (fval (X (p + 1)%Z)) (fval (U (k / (e1 - 1))%Z)) (fval (U (k / (e1 - 1) + 1)%Z)))
    (fun q => common (fval (Y q)) (fval (Y (q + 1)%Z)) (fval (V (k mod (e1 - 1))%Z)) (fval (V (k mod (e1 - 1) + 1)%Z)))) by lia.
  rewrite (rsum_ext (fun p => common (fval (X p)) (fval (X (p + 1)%Z)) (fval (U (k / (e1 - 1))%Z)) (fval (U (k / (e1 - 1) + 1)%Z))) (fun p => common (fval (U (k / (e1 - 1))%Z)) (fval (U (k / (e1 - 1) + 1)%Z)) (fval (X p)) (fval (X (p + 1)%Z)))) by (intros; apply common_sym).
  rewrite (rsum_ext (fun q => common (fval (Y q)) (fval (Y (q + 1)%Z)) (fval (V (k mod (e1 - 1))%Z)) (fval (V (k mod (e1 - 1) + 1)%Z))) (fun q => common (fval (V (k mod (e1 - 1))%Z)) (fval (V (k mod (e1 - 1) + 1)%Z)) (fval (Y q)) (fval (Y (q + 1)%Z)))) by (intros; apply common_sym).
  destruct (common_pack (fun k => fval (X k)) (fval (U (k / (e1 - 1))%Z)) (fval (U (k / (e1 - 1) + 1)%Z)) (d0 - 1)) as [P1 P2]; [lia|intros q Hq; assert (Q := proj2 LX q Hq); lra|lra|].
  destruct (common_pack (fun k => fval (Y k)) (fval (V (k mod (e1 - 1))%Z)) (fval (V (k mod (e1 - 1) + 1)%Z)) (d1 - 1)) as [Q1 Q2]; [lia|intros q Hq; assert (Q := proj2 LY q Hq); lra|lra|].
  apply Rmult_le_compat; lra.
Qed.

(** The mean over the covered part of a cell. *)
Lemma mean_rng : forall c (f : Z -> R) lo hi, (0 <= c < (d0 - 1) * (d1 - 1))%Z -> (forall k, (0 <= k < (e0 - 1) * (e1 - 1))%Z -> lo <= f k <= hi) ->
  let A := fsize d1 X Y c in let W := rsum (map (part d1 e1 X Y U V c) (range ((e0 - 1) * (e1 - 1)))) in
  lo * (W / A) <= rsum (map (fun k => part d1 e1 X Y U V c k * f k) (range ((e0 - 1) * (e1 - 1)))) / A <= hi * (W / A).
Proof.
  intros c f lo hi Hc FB A W. assert (AP : 0 < A). { assert (Q := RP). destruct Q as (_ & _ & SP & _ & LX & LY & _). assert (B := fsize_pos M st d0 d1 X Y c SP H0 H1 LX LY Hc). assert (0 < st * st) by (apply Rmult_lt_0_compat; lra). unfold A. lra. }
  assert (I0 : 0 < / A) by (apply Rinv_0_lt_compat; auto).
  replace (lo * (W / A)) with (lo * W * / A) by (unfold Rdiv; ring). replace (hi * (W / A)) with (hi * W * / A) by (unfold Rdiv; ring). unfold Rdiv, W. rewrite <- !rsum_scale.
  split; apply Rmult_le_compat_r; try lra; apply rsum_le; intros k I; apply in_range in I; destruct (FB k I); rewrite (Rmult_comm (part _ _ _ _ _ _ _ _)); apply Rmult_le_compat_r; auto; apply part_pos.
Qed.
End Parts.

(** ** C88 *)
Theorem C88_rectilinear_ieee : forall srt (g : gels spec_float) M st eta d0 d1 X Y xs ys e0 e1 U V us vs m ms S src dst,
  axis2 eta g -> (forall lt l, Permutation (srt lt l) l) ->
  (2 <= d0)%Z -> (2 <= d1)%Z -> (d0 * d1 <= int_max)%Z -> (2 <= e0)%Z -> (2 <= e1)%Z -> (e0 * e1 <= int_max)%Z ->
  stores d0 d1 (fun i _ => X i) xs -> stores d0 d1 (fun _ j => Y j) ys -> stores e0 e1 (fun i _ => U i) us -> stores e0 e1 (fun _ j => V j) vs ->
  rect_ieee M st eta d0 d1 X Y e0 e1 U V ->
  Z.of_nat (length src) = ((e0 - 1) * (e1 - 1))%Z -> Z.of_nat (length dst) = ((d0 - 1) * (d1 - 1))%Z -> (forall x, In x dst -> dbl x /\ fval x = 0) ->
  1 <= S <= bpow radix2 800 -> (forall x, In x src -> dbl x /\ Rabs (fval x) <= S) ->
  exists s out, conserve_run srt g d0 d1 xs ys e0 e1 us vs (m :: ms) = Ret s /\ ci_apply s src dst = Ret out /\
    forall i j lo hi, (0 <= i < d0 - 1)%Z -> (0 <= j < d1 - 1)%Z -> (forall v, In v src -> lo <= fval v <= hi) ->
      fval (U 0%Z) <= fval (X i) -> fval (X (i + 1)%Z) <= fval (U (e0 - 1)%Z) -> fval (V 0%Z) <= fval (Y j) -> fval (Y (j + 1)%Z) <= fval (V (e1 - 1)%Z) ->
      let c := (i * (d1 - 1) + j)%Z in let A := (fval (X (i + 1)%Z) - fval (X i)) * (fval (Y (j + 1)%Z) - fval (Y j)) in
      let n := INR (length (row_of (ci_weights s) c)) in let err := n * (weight_err M eta A + 17 * n * uround) * S in
      (Z.of_nat (length (row_of (ci_weights s) c)) <= (e0 - 1) * (e1 - 1))%Z /\ lo - err <= fval (nth (Z.to_nat c) out n0) <= hi + err.
Proof.
  intros srt g M st eta d0 d1 X Y xs ys e0 e1 U V us vs m ms S src dst G SRT H0 H1 H2 H3 H4 H5 SX SY SU SV RP LS LD DZ SB SR.
  destruct (C39_rectilinear_ieee srt g M st eta d0 d1 X Y xs ys e0 e1 U V us vs m ms S src dst G SRT H0 H1 H2 H3 H4 H5 SX SY SU SV RP LS LD DZ SB SR) as (s & out & RN & AP & _ & W & _).
  exists s, out. split; auto. split; auto. intros i j lo hi Hi Hj FB A1 A2 A3 A4 c A n err.
  assert (Hc : (0 <= c < (d0 - 1) * (d1 - 1))%Z) by (unfold c; nia).
  assert (E1 : (c / (d1 - 1) = i)%Z) by (symmetry; apply (Z.div_unique_pos _ _ i j); unfold c; lia). assert (E2 : (c mod (d1 - 1) = j)%Z) by (symmetry; apply (Z.mod_unique_pos _ _ i j); unfold c; lia).
  destruct (W c Hc) as (LE & _ & E). rewrite total_rsum in E. split; auto.
  assert (EA : fsize d1 X Y c = A) by (unfold fsize; rewrite E1, E2; reflexivity).
  assert (PS := part_sum M st eta d0 d1 e0 e1 X Y U V H0 H1 H3 H4 RP c Hc). rewrite E1, E2 in PS. specialize (PS A1 A2 A3 A4).
  assert (FK : forall k, (0 <= k < (e0 - 1) * (e1 - 1))%Z -> lo <= fval (nth (Z.to_nat k) src n0) <= hi) by (intros k Hk; apply FB, nth_In; lia).
  assert (MR := mean_rng M st eta d0 d1 e0 e1 X Y U V H0 H1 RP c (fun k => fval (nth (Z.to_nat k) src n0)) lo hi Hc FK). cbv zeta in MR. rewrite PS in MR.
  assert (AP' : 0 < A). { destruct RP as (_ & _ & SP & _ & LX & LY & _). assert (B1 := proj2 LX i Hi). assert (B2 := proj2 LY j Hj). apply Rmult_lt_0_compat; lra. }
  unfold part in MR. rewrite EA in *. replace (A / A) with 1 in MR by (field; lra). fold n in E. fold err in E.
  change (lo * 1 <= rsum (map (fun k => part d1 e1 X Y U V c k * fval (nth (Z.to_nat k) src n0)) (range ((e0 - 1) * (e1 - 1)))) / A <= hi * 1) in MR.
  change (Rabs (fval (nth (Z.to_nat c) out n0) - rsum (map (fun k => part d1 e1 X Y U V c k * fval (nth (Z.to_nat k) src n0)) (range ((e0 - 1) * (e1 - 1)))) / A) <= err) in E.
  apply Rabs_le_inv in E. lra.
Qed.
Print Assumptions C88_rectilinear_ieee.

(** ** C90 *)
Theorem C90_rectilinear_ieee : forall srt (g : gels spec_float) M st eta d0 d1 X Y xs ys e0 e1 U V us vs m ms S src dst,
  axis2 eta g -> (forall lt l, Permutation (srt lt l) l) ->
  (2 <= d0)%Z -> (2 <= d1)%Z -> (d0 * d1 <= int_max)%Z -> (2 <= e0)%Z -> (2 <= e1)%Z -> (e0 * e1 <= int_max)%Z ->
  stores d0 d1 (fun i _ => X i) xs -> stores d0 d1 (fun _ j => Y j) ys -> stores e0 e1 (fun i _ => U i) us -> stores e0 e1 (fun _ j => V j) vs ->
  rect_ieee M st eta d0 d1 X Y e0 e1 U V ->
  Z.of_nat (length src) = ((e0 - 1) * (e1 - 1))%Z -> Z.of_nat (length dst) = ((d0 - 1) * (d1 - 1))%Z -> (forall x, In x dst -> dbl x /\ fval x = 0) ->
  1 <= S <= bpow radix2 800 -> (forall x, In x src -> dbl x /\ Rabs (fval x) <= S) ->
  exists s out, conserve_run srt g d0 d1 xs ys e0 e1 us vs (m :: ms) = Ret s /\ ci_apply s src dst = Ret out /\
    let h c := fval (nth (Z.to_nat c) out n0) in
    let err c := let n := INR (length (row_of (ci_weights s) c)) in n * (weight_err M eta (fsize d1 X Y c) + 17 * n * uround) * S in
    (forall c, (0 <= c < (d0 - 1) * (d1 - 1))%Z ->
      (Z.of_nat (length (row_of (ci_weights s) c)) <= (e0 - 1) * (e1 - 1))%Z /\
      total (map snd (vals (row_of (ci_weights s) c))) <= 1 + INR (length (row_of (ci_weights s) c)) * weight_err M eta (fsize d1 X Y c) /\
      forall lo hi, (forall v, In v src -> lo <= fval v <= hi) -> Rmin 0 lo - err c <= h c <= Rmax 0 hi + err c) /\
    ((forall v, In v src -> 0 <= fval v) ->
      total (map (fun c => fsize d1 X Y c * h c) (range ((d0 - 1) * (d1 - 1)))) <=
      total (map (fun k => fsize e1 U V k * fval (nth (Z.to_nat k) src n0)) (range ((e0 - 1) * (e1 - 1)))) + total (map (fun c => fsize d1 X Y c * err c) (range ((d0 - 1) * (d1 - 1))))).
Proof.
  intros srt g M st eta d0 d1 X Y xs ys e0 e1 U V us vs m ms S src dst G SRT H0 H1 H2 H3 H4 H5 SX SY SU SV RP LS LD DZ SB SR.
  destruct (C39_rectilinear_ieee srt g M st eta d0 d1 X Y xs ys e0 e1 U V us vs m ms S src dst G SRT H0 H1 H2 H3 H4 H5 SX SY SU SV RP LS LD DZ SB SR) as (s & out & RN & AP & _ & W & _).
  destruct (table srt g M st eta d0 d1 e0 e1 X Y U V xs ys us vs SRT G H0 H1 H2 H3 H4 H5 SX SY SU SV RP m ms) as (s' & RN' & TB). rewrite RN in RN'. injection RN' as <-.
  exists s, out. split; auto. split; auto. intros h err.
  assert (POS : forall c, (0 <= c < (d0 - 1) * (d1 - 1))%Z -> 0 < fsize d1 X Y c).
  { intros c Hc. assert (Q := RP). destruct Q as (_ & _ & SP & _ & LX & LY & _). assert (B := fsize_pos M st d0 d1 X Y c SP H0 H1 LX LY Hc). assert (0 < st * st) by (apply Rmult_lt_0_compat; lra). lra. }
  assert (FR : forall c, (0 <= c < (d0 - 1) * (d1 - 1))%Z -> 0 <= rsum (map (part d1 e1 X Y U V c) (range ((e0 - 1) * (e1 - 1)))) / fsize d1 X Y c <= 1).
  { intros c Hc. assert (P := POS c Hc). destruct (part_pack M st eta d0 d1 e0 e1 X Y U V H0 H1 H3 H4 RP c Hc) as [P1 P2].
    split; [apply Rmult_le_pos; [lra|left; apply Rinv_0_lt_compat; lra]|]. apply Rmult_le_reg_r with (fsize d1 X Y c); auto. unfold Rdiv. rewrite Rmult_assoc, Rinv_l by lra. lra. }
  set (f := fun k => fval (nth (Z.to_nat k) src n0)).
  assert (ONE : forall c, (0 <= c < (d0 - 1) * (d1 - 1))%Z -> Rabs (h c - rsum (map (fun k => part d1 e1 X Y U V c k * f k) (range ((e0 - 1) * (e1 - 1)))) / fsize d1 X Y c) <= err c).
  { intros c Hc. destruct (W c Hc) as (_ & _ & E). rewrite total_rsum in E. exact E. }
  split.
  - intros c Hc. assert (P := POS c Hc). split; [apply (W c Hc)|]. split.
    + destruct (TB c Hc) as (_ & _ & _ & WT & _). rewrite (rsum_ext _ (fun k => / fsize d1 X Y c * part d1 e1 X Y U V c k)) in WT by (intros; unfold Rdiv; ring). rewrite rsum_scale in WT.
      assert (Q := FR c Hc). unfold Rdiv in Q. rewrite Rmult_comm in Q. apply Rabs_le_inv in WT. lra.
    + intros lo hi FB. assert (E := ONE c Hc). apply Rabs_le_inv in E.
      assert (FK : forall k, (0 <= k < (e0 - 1) * (e1 - 1))%Z -> lo <= f k <= hi) by (intros k Hk; apply FB, nth_In; lia).
      assert (MR := mean_rng M st eta d0 d1 e0 e1 X Y U V H0 H1 RP c f lo hi Hc FK). cbv zeta in MR.
      assert (Q := FR c Hc). set (q := rsum (map (part d1 e1 X Y U V c) _) / fsize d1 X Y c) in *. set (mean := rsum (map (fun k => part d1 e1 X Y U V c k * f k) _) / fsize d1 X Y c) in *.
      assert (Rmin 0 lo <= lo * q) by (unfold Rmin; destruct (Rle_dec 0 lo); nra). assert (hi * q <= Rmax 0 hi) by (unfold Rmax; destruct (Rle_dec 0 hi); nra). lra.
  - intros NN. assert (TR : forall l, total l = rsum l) by apply total_rsum.
    rewrite (TR (map (fun c => fsize d1 X Y c * h c) _)), (TR (map (fun k => fsize e1 U V k * _) _)), (TR (map (fun c => fsize d1 X Y c * err c) _)).
    apply Rle_trans with (rsum (map (fun c => rsum (map (fun k => part d1 e1 X Y U V c k * f k) (range ((e0 - 1) * (e1 - 1)))) + fsize d1 X Y c * err c) (range ((d0 - 1) * (d1 - 1))))).
    { apply rsum_le. intros c I. apply in_range in I. assert (P := POS c I). assert (E := ONE c I). apply Rabs_le_inv in E.
      set (mean := rsum (map (fun k => part d1 e1 X Y U V c k * f k) _)) in *. replace mean with (fsize d1 X Y c * (mean / fsize d1 X Y c)) at 1 by (field; lra). rewrite <- Rmult_plus_distr_l. apply Rmult_le_compat_l; lra. }
    rewrite rsum_add. apply Rplus_le_compat_r. rewrite rsum_swap. apply rsum_le. intros k I. apply in_range in I.
    rewrite (rsum_ext _ (fun c => f k * part d1 e1 X Y U V c k)) by (intros; ring). rewrite rsum_scale, Rmult_comm.
    apply Rmult_le_compat_r; [apply NN; apply nth_In; lia|]. apply (part_pack_src M st eta d0 d1 e0 e1 X Y U V H0 H1 H3 H4 RP k I).
Qed.
Print Assumptions C90_rectilinear_ieee.

(** ** Cases: the grids of C38_ieee_case and C39_ieee_case *)
Lemma small_vals : forall l, Forall (fun z => (0 <= z <= 5)%Z) l -> forall x, In x (map (fun z => nofZ z) l) -> dbl x /\ Rabs (fval x) <= 5 /\ 0 <= fval x <= 5.
Proof.
  intros l F x I. apply in_map_iff in I. destruct I as (z & <- & I). rewrite List.Forall_forall in F. assert (B := F z I). destruct (f_ofZ z ltac:(lia)) as [D V]. split; auto. rewrite V.
  assert (0 <= IZR z <= 5) by (split; apply IZR_le; lia). split; auto. apply Rabs_le. lra.
Qed.
Lemma five_rng : 1 <= 5 <= bpow radix2 800.
Proof. split; [lra|]. apply Rle_trans with (bpow radix2 3); [change (bpow radix2 3) with 8; lra|apply bpow_le; lia]. Qed.

(** Values 1, 2, 3, 5 over the cell [0, 2] x [0, 2]: the result is in [1, 5] up to 1e-8. *)
Example C88_ieee_case : exists s out, conserve_run insertion exact2 2 2 (farray 2 (fun i _ => fwide i)) (farray 2 (fun _ j => fwide j))
    3 3 (farray 3 (fun i _ => fshifted i)) (farray 3 (fun _ j => fshifted j)) [fnoise; fnoise] = Ret s /\
  ci_apply s (map (fun z => nofZ z) [1; 2; 3; 5]%Z) [n0] = Ret out /\ 1 - / 10 ^ 8 <= fval (nth 0 out n0) <= 5 + / 10 ^ 8.
Proof.
  destruct (C88_rectilinear_ieee insertion exact2 4 1 (4 * uround) 2 2 fwide fwide _ _ 3 3 fshifted fshifted _ _ fnoise [fnoise] 5 (map (fun z => nofZ z) [1; 2; 3; 5]%Z) [n0] exact2_axis (fun lt l => proj1 (insertion_sorts nat lt l))
    ltac:(lia) ltac:(lia) ltac:(unfold int_max; lia) ltac:(lia) ltac:(lia) ltac:(unfold int_max; lia)
    (proj1 (farray_stores _)) (proj1 (farray_stores _)) (proj2 (farray_stores _)) (proj2 (farray_stores _)) (proj1 case_rect) eq_refl eq_refl) as (s & out & RN & AP & W).
  - intros x [<- |[]]. split; [split; reflexivity|reflexivity].
  - apply five_rng.
  - intros x I. assert (Q := small_vals [1; 2; 3; 5]%Z ltac:(repeat (constructor; [lia|]); constructor) x I). tauto.
  - exists s, out. split; auto. split; auto. specialize (W 0%Z 0%Z 1 5 ltac:(lia) ltac:(lia)).
    destruct (fwide_val 0 ltac:(lia)) as [_ F0]. destruct (fwide_val 1 ltac:(lia)) as [_ F1]. destruct (fshifted_val 0 ltac:(lia)) as [_ S0]. destruct (fshifted_val 2 ltac:(lia)) as [_ S2].
    change (3 - 1)%Z with 2%Z in *. change (0 + 1)%Z with 1%Z in *. change (0 * (2 - 1) + 0)%Z with 0%Z in *. rewrite F0, F1, S0, S2 in W.
    assert (B : forall v, In v (map (fun z => nofZ z) [1; 2; 3; 5]%Z) -> 1 <= fval v <= 5).
    { intros v I. apply in_map_iff in I. destruct I as (z & <- & I). assert (1 <= z <= 5)%Z by (cbn in I; lia). destruct (f_ofZ z ltac:(lia)) as [_ ->]. split; apply IZR_le; lia. }
    specialize (W B ltac:(unfold wide, shifted; lra) ltac:(unfold wide, shifted; lra) ltac:(unfold wide, shifted; lra) ltac:(unfold wide, shifted; lra)). cbv zeta in W. change (Z.to_nat 0) with 0%nat in W.
    destruct W as [LE W]. set (n := INR (length (row_of (ci_weights s) 0))) in *.
    assert (NB : 0 <= n <= 4) by (split; [apply pos_INR|replace 4 with (INR 4) by (cbn; lra); apply le_INR; lia]).
    assert (AR : (wide 1 - wide 0) * (wide 1 - wide 0) = 4) by (unfold wide; lra). rewrite AR in W.
    assert (EB : n * (weight_err 4 (4 * uround) 4 + 17 * n * uround) * 5 <= / 10 ^ 8).
    { assert (U0 := u_rng). assert (WP : 0 <= weight_err 4 (4 * uround) 4) by (unfold weight_err, unit_err; lra).
      apply Rle_trans with (4 * (weight_err 4 (4 * uround) 4 + 17 * 4 * uround) * 5).
      - apply Rmult_le_compat_r; [lra|]. assert (17 * n * uround <= 17 * 4 * uround) by (apply Rmult_le_compat_r; lra). assert (0 <= 17 * n * uround) by (apply Rmult_le_pos; lra). apply Rmult_le_compat; lra.
      - unfold weight_err, unit_err, uround. lra. }
    lra.
Qed.

(** The source cell [0, 2] x [0, 2] with value 5 and four cells of which it covers a quarter: values in [0, 5] and a total of at most 20, up to 1e-7. *)
Example C90_ieee_case : exists s out, conserve_run insertion exact2 3 3 (farray 3 (fun i _ => fshifted i)) (farray 3 (fun _ j => fshifted j))
    2 2 (farray 2 (fun i _ => fwide i)) (farray 2 (fun _ j => fwide j)) [fnoise] = Ret s /\
  ci_apply s [nofZ 5] [n0; n0; n0; n0] = Ret out /\
  forall c, (0 <= c < 4)%Z -> total (map snd (vals (row_of (ci_weights s) c))) <= 1 + / 10 ^ 8 /\ - / 10 ^ 8 <= fval (nth (Z.to_nat c) out n0) <= 5 + / 10 ^ 8.
Proof.
  destruct (C90_rectilinear_ieee insertion exact2 4 1 (4 * uround) 3 3 fshifted fshifted _ _ 2 2 fwide fwide _ _ fnoise [] 5 [nofZ 5] [n0; n0; n0; n0] exact2_axis (fun lt l => proj1 (insertion_sorts nat lt l))
    ltac:(lia) ltac:(lia) ltac:(unfold int_max; lia) ltac:(lia) ltac:(lia) ltac:(unfold int_max; lia)
    (proj2 (farray_stores _)) (proj2 (farray_stores _)) (proj1 (farray_stores _)) (proj1 (farray_stores _)) (proj2 case_rect) eq_refl eq_refl) as (s & out & RN & AP & E1 & _).
  - intros x [<- |[<- |[<- |[<- |[]]]]]; split; try reflexivity; split; reflexivity.
  - apply five_rng.
  - intros x I. assert (Q := small_vals [5]%Z ltac:(repeat (constructor; [lia|]); constructor) x I). tauto.
  - exists s, out. split; auto. split; auto. intros c Hc. destruct (E1 c ltac:(lia)) as (LE & TW & HV). specialize (HV 5 5).
    destruct (fshifted_val 0 ltac:(lia)) as [_ S0]. destruct (fshifted_val 1 ltac:(lia)) as [_ S1]. destruct (fshifted_val 2 ltac:(lia)) as [_ S2].
    assert (FS : fsize 3 fshifted fshifted c = 4).
    { assert (K : (c = 0 \/ c = 1 \/ c = 2 \/ c = 3)%Z) by lia. unfold fsize. destruct K as [-> |[-> |[-> | ->]]]; change (0 / (3 - 1))%Z with 0%Z; change (0 mod (3 - 1))%Z with 0%Z; change (1 / (3 - 1))%Z with 0%Z; change (1 mod (3 - 1))%Z with 1%Z; change (2 / (3 - 1))%Z with 1%Z; change (2 mod (3 - 1))%Z with 0%Z; change (3 / (3 - 1))%Z with 1%Z; change (3 mod (3 - 1))%Z with 1%Z;
      change (0 + 1)%Z with 1%Z; change (1 + 1)%Z with 2%Z; rewrite ?S0, ?S1, ?S2; unfold shifted; lra. }
    rewrite FS in TW, HV. set (n := INR (length (row_of (ci_weights s) c))) in *.
    assert (NB : 0 <= n <= 1) by (split; [apply pos_INR|change 1 with (INR 1); apply le_INR; lia]).
    assert (U0 := u_rng). assert (WP : 0 <= weight_err 4 (4 * uround) 4 <= / 10 ^ 9) by (unfold weight_err, unit_err, uround; lra).
    assert (E0 : 0 <= n * weight_err 4 (4 * uround) 4 <= 1 * / 10 ^ 9) by (split; [apply Rmult_le_pos|apply Rmult_le_compat]; lra).
    assert (E2 : 0 <= n * (17 * n * uround) <= 1 * (17 * 1 * uround)).
    { assert (0 <= 17 * n * uround <= 17 * 1 * uround) by (split; [apply Rmult_le_pos; lra|apply Rmult_le_compat_r; lra]). split; [apply Rmult_le_pos|apply Rmult_le_compat]; lra. }
    assert (UU : uround <= / 10 ^ 12) by (unfold uround; lra).
    destruct HV as [HV1 HV2].
    { intros v [<- |[]]. destruct (f_ofZ 5 ltac:(lia)) as [_ ->]. lra. }
    unfold Rmin, Rmax in HV1, HV2. destruct (Rle_dec 0 5); lra.
Qed.
