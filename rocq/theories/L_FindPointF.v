(** Point search in IEEE double arithmetic. *)
From Coq Require Import ZArith List Bool Reals Lra Lia Floats.SpecFloat.
From Flocq Require Import Core BinarySingleNaN.
From Verif Require Import Base Num NumR NumF M_LinearSolve M_FindPoint S_Grid L_LinearSolve L_Interp L_FindPoint L_FindPointR L_FindPointB L_FindPointG L_Float L_FloatOps.
Import ListNotations.
Open Scope R_scope.

Lemma Forall2_length : forall {A B} (P : A -> B -> Prop) l r, Forall2 P l r -> length l = length r.
Proof. induction 1; simpl; auto. Qed.

(** A finite double whose value is an index of an axis with [d] nodes. *)
Definition on_axis (d : Z) (x : spec_float) : Prop := dbl x /\ 0 <= fval x <= IZR (d - 1).

Lemma half_val : dbl nhalf /\ fval nhalf = 1 / 2.
Proof.
  assert (E : (nhalf : spec_float) = S754_finite false 4503599627370496 (-53)) by (vm_compute; reflexivity). rewrite E.
  split; [split; reflexivity|]. unfold fval. cbn [SF2R cond_Zopp]. unfold F2R. simpl Fnum. simpl Fexp.
  change (bpow radix2 (-53)) with (/ IZR (2 ^ 53)). change (2 ^ 53)%Z with 9007199254740992%Z. lra.
Qed.

Lemma zero_val : dbl (n0 : spec_float) /\ fval n0 = 0.
Proof. split; [split; reflexivity|reflexivity]. Qed.

Lemma one_val : dbl (n1 : spec_float) /\ fval n1 = 1.
Proof. exact (f_ofZ 1 ltac:(lia)). Qed.

Lemma dim_val : forall d, (2 <= d <= 2 ^ 31 - 1)%Z -> dbl (nofZ (wrap64 (d - 1)) : spec_float) /\ fval (nofZ (wrap64 (d - 1))) = IZR (d - 1).
Proof. intros d H. rewrite wrap64_small by lia. apply f_ofZ. lia. Qed.

Lemma dim_R : forall d, (2 <= d <= 2 ^ 31 - 1)%Z -> 1 <= IZR (d - 1) <= 2147483646.
Proof. intros d H. split; apply IZR_le; lia. Qed.

Lemma small_R : forall x, Rabs x <= 4294967296 -> Rabs x <= bpow radix2 1000.
Proof. intros x H. eapply Rle_trans; [exact H|]. change 4294967296 with (bpow radix2 32). apply bpow_le. lia. Qed.

Lemma axis_castable : forall d x, (2 <= d <= 2 ^ 31 - 1)%Z -> on_axis d x -> castable x.
Proof. intros d x Hd [D P]. assert (B := dim_R d Hd). exists (Zfloor (fval x)). apply to_int_floor; auto. lra. Qed.

Lemma axis_hi : forall d x, (2 <= d <= 2 ^ 31 - 1)%Z -> on_axis d x -> on_axis d (fd_hi d x).
Proof.
  intros d x Hd [D P]. assert (B := dim_R d Hd). destruct half_val as [HD HV].
  destruct (dim_val d Hd) as [DD DV]. rewrite wrap64_small in DD, DV by lia.
  destruct (f_add x nhalf D HD) as [SD SV]; [apply small_R; rewrite HV; rewrite Rabs_pos_eq; lra|].
  unfold fd_hi. cbv zeta. rewrite f_le by auto. rewrite DV. unfold Rleb. destruct (Rle_dec (fval (nadd x nhalf)) (IZR (d - 1))) as [L|L].
  - split; auto. split; auto. rewrite SV, HV. rewrite <- (rnd_Z 0) by lia. apply rnd_le. simpl. lra.
  - split; auto. rewrite DV. lra.
Qed.

Lemma axis_lo : forall d x, (2 <= d <= 2 ^ 31 - 1)%Z -> on_axis d x -> on_axis d (fd_lo x).
Proof.
  intros d x Hd [D P]. assert (B := dim_R d Hd). destruct half_val as [HD HV]. destruct zero_val as [ZD ZV].
  destruct (f_sub x nhalf D HD) as [SD SV]; [apply small_R; rewrite HV; apply Rabs_le; lra|].
  unfold fd_lo. cbv zeta. rewrite f_le by auto. rewrite ZV. unfold Rleb. destruct (Rle_dec 0 (fval (nsub x nhalf))) as [L|L].
  - split; auto. split; auto. apply Rle_trans with (fval x); [|lra]. rewrite SV, HV. rewrite <- (rnd_id x D) at 2. apply rnd_le. lra.
  - split; auto. rewrite ZV. lra.
Qed.

(** fmod of finite doubles is smaller than the divisor. *)
Lemma f_fmod : forall x y, dbl x -> dbl y -> 0 < fval y <= 4294967296 -> dbl (nfmod x y) /\ Rabs (fval (nfmod x y)) <= fval y.
Proof.
  intros x y Dx Dy P. assert (Dx' := Dx). assert (Dy' := Dy). destruct Dx' as [Vx Fx], Dy' as [Vy Fy].
  destruct y as [sy|sy| |sy my ey]; try discriminate; [unfold fval in P; simpl in P; lra|].
  assert (Sy : sy = false).
  { destruct sy; auto. exfalso. assert (fval (S754_finite true my ey) < 0) by (apply F2R_lt_0; simpl; lia). lra. }
  subst sy. destruct x as [sx|sx| |sx mx ex]; try discriminate.
  - cbn [nfmod NumF F_fmod]. split; auto. unfold fval at 1. cbn [SF2R]. rewrite Rabs_R0. lra.
  - cbn [nfmod NumF F_fmod]. set (e := Z.min ex ey). set (b := (Z.pos my * 2 ^ (ey - e))%Z). set (r := (Z.pos mx * 2 ^ (ex - e) mod b)%Z).
    assert (Hb : (0 < b)%Z) by (unfold b; apply Z.mul_pos_pos; [lia|apply Z.pow_pos_nonneg; unfold e; lia]).
    assert (Hr : (0 <= r < b)%Z) by (apply Z.mod_pos_bound; auto).
    destruct (Z.eqb_spec r 0) as [E|E]; [split; [split; reflexivity|]; unfold fval at 1; cbn [SF2R]; rewrite Rabs_R0; lra|].
    assert (VB : F2R (Float radix2 b e) = fval (S754_finite false my ey)).
    { unfold fval. cbn [SF2R cond_Zopp]. unfold b. rewrite (F2R_change_exp radix2 e (Z.pos my) ey) by (unfold e; lia). reflexivity. }
    set (z := (if sx then (- r)%Z else r)).
    assert (AB : Rabs (F2R (Float radix2 z e)) <= fval (S754_finite false my ey)).
    { rewrite <- VB. rewrite <- F2R_Zabs. apply F2R_le. unfold z. destruct sx; lia. }
    rewrite normalize_equiv.
    match goal with |- context [B2SF ?t] => set (bb := t) end.
    assert (C := binary_normalize_correct fprec femax eq_refl eq_refl mode_NE z e sx). cbv zeta in C. fold (rnd (F2R (Float radix2 z e))) in C.
    rewrite Rlt_bool_true in C.
    2:{ apply max_exp. apply small_R. lra. }
    destruct C as (C1 & C2 & _). destruct (B_dbl _ C2) as [D V]. split; [exact D|].
    apply Rle_trans with (Rabs (rnd (F2R (Float radix2 z e)))); [right; f_equal; rewrite <- C1; exact V|].
    unfold rnd. apply abs_round_le_generic; auto with typeclass_instances. apply dbl_format; auto.
Qed.

(** The new index is on the axis as soon as the sum is finite. *)
Lemma truncate_axis : forall d per x, (2 <= d <= 2 ^ 31 - 1)%Z -> dbl per -> (fval per = 0 \/ 0 < fval per <= 2147483648) -> dbl x ->
  on_axis d (fp_truncate1 per d x).
Proof.
  intros d per x Hd Dp Hp Dx. assert (B := dim_R d Hd). destruct (dim_val d Hd) as [DD DV]. destruct zero_val as [ZD ZV].
  unfold fp_truncate1. cbv zeta.
  assert (W : dbl (if neq per n0 then x else nfmod (nadd (nfmod x per) per) per)).
  { assert (Q : neq per n0 = true <-> fval per = 0).
    { cbn [neq NumF]. destruct Dp as [Vp Fp]. assert (A := Beqb_correct fprec femax (SF2B per Vp) (B754_zero false) (SF2B_finite per Vp Fp) eq_refl).
      unfold Beqb in A. rewrite B2SF_SF2B, B2R_SF2B in A. change (B2SF (B754_zero false)) with (n0 : spec_float) in A. rewrite A. simpl. unfold fval.
      destruct (Req_dec (SF2R radix2 per) 0) as [E|E]; [rewrite Req_bool_true by auto; tauto|rewrite Req_bool_false by auto; split; [discriminate|tauto]]. }
    destruct (neq per n0) eqn:E; auto. destruct Hp as [Hp|Hp]; [apply Q in Hp; discriminate|].
    destruct (f_fmod x per Dx Dp) as [M1 M2]; [lra|].
    destruct (f_add (nfmod x per) per M1 Dp) as [S1 S2]; [apply small_R; eapply Rle_trans; [apply Rabs_triang|]; rewrite (Rabs_pos_eq (fval per)); lra|].
    apply f_fmod; auto. lra. }
  set (y := if neq per n0 then x else nfmod (nadd (nfmod x per) per) per) in *. clearbody y.
  assert (W2 : dbl (if nlt y n0 then n0 else y) /\ 0 <= fval (if nlt y n0 then n0 else y)).
  { rewrite f_lt by auto. rewrite ZV. unfold Rltb. destruct (Rlt_dec (fval y) 0); split; auto; rewrite ?ZV; lra. }
  set (v := if nlt y n0 then n0 else y) in *. clearbody v. destruct W2 as [W2 W3].
  rewrite f_lt by auto. rewrite DV. unfold Rltb. destruct (Rlt_dec (IZR (d - 1)) (fval v)); split; auto; rewrite ?DV; lra.
Qed.

Definition in_gridF (dims : list Z) (xs : list spec_float) : Prop := Forall2 on_axis dims xs.

(** A period: zero for an axis without, else the number of nodes. *)
Definition period_ok (p : spec_float) : Prop := dbl p /\ (fval p = 0 \/ 0 < fval p <= 2147483648).

Definition goodF (dims : list Z) (coords : list (list spec_float)) (s : fp (T:=spec_float)) : Prop :=
  grid_data dims coords /\ fp_holds dims s /\ fp_coords s = coords /\
  length (fp_period s) = length dims /\ Forall period_ok (fp_period s) /\ length (fp_target s) = length dims /\ solver_ok s /\
  in_gridF dims (fp_dIndices s).

Lemma dims_range : forall dims, grid_ok dims -> Forall (fun d => 2 <= d <= 2 ^ 31 - 1)%Z dims.
Proof.
  induction dims as [|d ds IH]; intros H; constructor; [apply grid_ok_cons in H; tauto|]. apply IH. apply grid_ok_cons in H. tauto.
Qed.

Lemma goodF_safe : forall dims coords s, goodF dims coords s -> fp_safe dims coords s.
Proof.
  intros dims coords s (HD & Hh & Hc & Lp & _ & Lt & So & G).
  assert (R := dims_range dims (proj1 (proj2 HD))).
  assert (L := Forall2_length _ _ _ G).
  repeat split; auto; try apply HD; try apply Hh.
  - clear - R G. induction G as [|d x ds xs Hx G IH]; [constructor|]. apply Forall_cons_iff in R. destruct R as [R1 R2].
    constructor; auto. eapply axis_castable; eauto.
  - clear - R G. induction G as [|d x ds xs Hx G IH]; [constructor|]. apply Forall_cons_iff in R. destruct R as [R1 R2].
    constructor; auto. split; eapply axis_castable; eauto; [apply axis_hi|apply axis_lo with (d := d)]; auto.
Qed.

Lemma truncate_grid : forall dims pers xs, Forall (fun d => 2 <= d <= 2 ^ 31 - 1)%Z dims -> length pers = length dims -> Forall period_ok pers ->
  length xs = length dims -> Forall dbl xs -> in_gridF dims (fp_truncate pers dims xs).
Proof.
  induction dims as [|d ds IH]; intros [|p pers] [|x xs] R L1 P L2 X; try discriminate; [constructor|].
  apply Forall_cons_iff in R, P, X. destruct R as [R1 R2], P as [[P1 P2] P3], X as [X1 X2]. cbn [fp_truncate].
  constructor; [apply truncate_axis; auto|apply IH; auto].
Qed.

(** The result of the linear solver in the step taken from [s] is finite. *)
Definition finite_step (g : gels spec_float) (s : fp (T:=spec_float)) : Prop :=
  forall jr sv info sv', fp_jacobianAndRHS s = Ret jr -> fp_slvr s = Some sv ->
  ls_run g sv (fst jr) (snd jr) = Ret (info, sv') -> Forall dbl (ls_getSolution sv').

(** An index plus a finite step is finite. *)
Lemma add_finite : forall x dx, dbl x -> 0 <= fval x <= 2147483647 -> dbl dx -> dbl (nadd x dx).
Proof.
  intros x dx D P Dx.
  destruct (dbl_B x D) as (a & Ea & Fa & Va). destruct (dbl_B dx Dx) as (b & Eb & Fb & Vb).
  assert (C := Bplus_correct fprec femax eq_refl eq_refl mode_NE a b Fa Fb). rewrite Va, Vb in C. fold (rnd (fval x + fval dx)) in C.
  rewrite Rlt_bool_true in C.
  - destruct C as (_ & C2 & _). destruct (B_dbl _ C2) as [D1 _]. rewrite Ea, Eb, add_B. exact D1.
  - (* between -max and max *)
    assert (M := abs_B2R_le_emax_minus_prec fprec femax eq_refl b). rewrite Vb in M.
    assert (EQ : bpow radix2 femax - bpow radix2 (femax - fprec) = fval nmax).
    { assert (E : (nmax : spec_float) = S754_finite false 9007199254740991 971) by (vm_compute; reflexivity). rewrite E.
      unfold fval. cbn [SF2R cond_Zopp]. unfold F2R. simpl Fnum. simpl Fexp. change femax with (53 + 971)%Z. change (53 + 971 - fprec)%Z with 971%Z.
      rewrite bpow_plus. change (bpow radix2 53) with (IZR (2 ^ 53)). change (2 ^ 53)%Z with (9007199254740991 + 1)%Z. rewrite plus_IZR. ring. }
    assert (DM : dbl (nmax : spec_float)) by (split; vm_compute; reflexivity).
    rewrite EQ in M. assert (MX := rnd_id nmax DM).
    assert (BM : fval nmax < bpow radix2 femax) by (rewrite <- EQ; assert (0 < bpow radix2 (femax - fprec)) by apply bpow_gt_0; lra).
    assert (UL : bpow radix2 948 <= ulp radix2 (SpecFloat.fexp fprec femax) (fval nmax)).
    { change 948%Z with (SpecFloat.fexp fprec femax (1000 + 1)). rewrite <- ulp_bpow. apply ulp_le_pos; auto with typeclass_instances; [apply bpow_ge_0|].
      rewrite <- EQ. assert (bpow radix2 femax = 2 * bpow radix2 1023) by (change femax with (1 + 1023)%Z; rewrite bpow_plus; reflexivity).
      assert (bpow radix2 (femax - fprec) <= bpow radix2 1022) by (apply bpow_le; unfold femax, fprec; lia).
      assert (bpow radix2 1000 <= bpow radix2 1022) by (apply bpow_le; lia).
      assert (bpow radix2 1022 <= bpow radix2 1023) by (apply bpow_le; lia). lra. }
    assert (U2 : 4294967296 * 2 <= bpow radix2 948) by (change (4294967296 * 2) with (bpow radix2 32 * bpow radix2 1); rewrite <- bpow_plus; apply bpow_le; lia).
    assert (P0 : 0 <= fval nmax) by (rewrite <- EQ; assert (bpow radix2 (femax - fprec) <= bpow radix2 femax) by (apply bpow_le; unfold femax, fprec; lia); lra).
    apply Rabs_le_inv in M.
    assert (HI : rnd (fval x + fval dx) <= fval nmax).
    { unfold rnd. apply round_N_le_midp; auto with typeclass_instances; [apply dbl_format; auto|]. rewrite succ_eq_pos by auto. lra. }
    assert (LO : - fval nmax <= rnd (fval x + fval dx)).
    { apply Rle_trans with (rnd (- fval nmax)); [|apply rnd_le; lra]. right. symmetry. apply round_generic; [auto with typeclass_instances|].
      apply generic_format_opp, dbl_format; auto. }
    apply Rle_lt_trans with (fval nmax); auto. apply Rabs_le. lra.
Qed.

Lemma step_finite : forall d x dx, (2 <= d <= 2 ^ 31 - 1)%Z -> on_axis d x -> dbl dx -> dbl (nadd x dx).
Proof. intros d x dx Hd [D P] Dx. assert (B := dim_R d Hd). apply add_finite; auto. lra. Qed.

Lemma nth_error_Forall : forall {A} (P : A -> Prop) l, (forall k x, nth_error l k = Some x -> P x) -> Forall P l.
Proof.
  induction l as [|a l IH]; intros H; constructor; [apply (H 0%nat); reflexivity|]. apply IH. intros k x K. apply (H (S k)). exact K.
Qed.

(** One step from a position on the grid. *)
Theorem next_F : forall g dims coords s, goodF dims coords s -> (0 <= fp_iter s < int_max)%Z -> finite_step g s ->
  exists code s', fp_next g s = Ret (code, s') /\ goodF dims coords s' /\ (fp_iter s <= fp_iter s' <= fp_iter s + 1)%Z.
Proof.
  intros g dims coords s G It FS. assert (G' := G). destruct G' as (HD & Hh & Hc & Lp & Pp & Lt & So & GI).
  assert (R := dims_range dims (proj1 (proj2 HD))). assert (LI := Forall2_length _ _ _ GI).
  destruct (next_steps g dims coords s (goodF_safe _ _ _ G) It) as [H|(jr & sv & info & sv' & steps & new & EJ & ES & ER & L & EN & S & H)].
  { exists (-3)%Z, s. split; auto. split; auto. lia. }
  assert (FD := FS jr sv info sv' EJ ES ER).
  assert (DS : Forall dbl steps).
  { apply nth_error_Forall. intros k z K.
    assert (Hk : (k < length steps)%nat) by (apply nth_error_Some; congruence).
    destruct (nth_error (fp_dIndices s) k) as [x|] eqn:EX; [|apply nth_error_None in EX; lia].
    destruct (S k x EX) as (dx & K1 & K2). rewrite K in K2. injection K2 as ->.
    assert (OX : on_axis (nth k dims 0%Z) x).
    { rewrite <- (nth_error_nth _ _ x EX). apply (Forall2_nth' _ _ _ k 0%Z x GI). lia. }
    eapply step_finite; [|exact OX|]; [rewrite Forall_forall in R; apply R; apply nth_In; lia|].
    rewrite Forall_forall in FD. apply FD. eapply nth_error_In; eauto. }
  assert (GN : in_gridF dims new) by (subst new; apply truncate_grid; auto).
  assert (CN : Forall castable new).
  { clear - R GN. induction GN as [|d x ds xs Hx G IH]; [constructor|]. apply Forall_cons_iff in R. destruct R as [R1 R2]. constructor; auto. eapply axis_castable; eauto. }
  destruct H as [(u & _ & NC)|(code & s' & E & ED & _ & SG & ET & SO & EI & _)]; [contradiction|].
  exists code, s'. split; auto. split; [|lia].
  unfold same_grid in SG. decompose [and] SG. destruct Hh as (H1' & H2' & H3').
  repeat split; try apply HD; try congruence; auto.
Qed.

Lemma periods_ok : forall old dims per, Forall period_ok old -> Forall (fun d => 2 <= d <= 2 ^ 31 - 1)%Z dims -> Forall period_ok (fp_periods old dims per).
Proof.
  induction old as [|o old IH]; intros dims per H D; [exact H|]. destruct dims as [|d ds]; [exact H|]. destruct per as [|p per]; [exact H|].
  apply Forall_cons_iff in H, D. destruct H as [H1 H2], D as [D1 D2]. cbn [fp_periods]. constructor; [|apply IH; auto].
  destruct (Z.eqb p 0); auto. destruct (f_ofZ d) as [F1 F2]; [lia|]. split; auto. right. rewrite F2. split; [apply IZR_lt; lia|apply IZR_le; lia].
Qed.

Lemma zero_period : period_ok n0.
Proof. destruct zero_val. split; auto. Qed.

Lemma resize_periods : forall old n, Forall period_ok old -> Forall period_ok (resize old n n0).
Proof.
  intros old n H. unfold resize. apply Forall_app. split.
  - revert n. induction H; intros [|n]; cbn [firstn]; constructor; auto.
  - apply Forall_forall. intros x Hx. apply repeat_spec in Hx. subst. apply zero_period.
Qed.

(** After setGrid and reset, whatever grids the object held before. *)
Lemma reset_F : forall s0 s dims per coords guess target, grid_data dims coords -> Forall period_ok (fp_period s0) ->
  fp_setGrid s0 dims per coords = Ret s -> in_gridF dims guess -> length target = length dims ->
  Forall period_ok (fp_period s) /\ exists s', fp_reset s guess target = Ret s' /\ goodF dims coords s' /\ fp_iter s' = 0%Z /\ fp_target s' = target /\ fp_nitermax s' = fp_nitermax s0.
Proof.
  intros s0 s dims per coords guess target HD HP HS HG HT.
  destruct (setGrid_ok s0 dims per coords HD) as (s1 & E & Hh & Hc & Hsv & Hp & Ht & _ & _ & Pe & Hn & Htol & _).
  rewrite HS in E. injection E as <-.
  assert (R := dims_range dims (proj1 (proj2 HD))).
  assert (PO : Forall period_ok (fp_period s)) by (rewrite Pe; apply periods_ok; auto; apply resize_periods; auto).
  split; auto. assert (Hd : fp_dims s = dims) by apply Hh. assert (L := Forall2_length _ _ _ HG).
  unfold fp_reset. rewrite Hd. rewrite !mapM_vget_prefix by auto. cbn [bind]. eexists. split; [reflexivity|]. cbn [fp_iter fp_target fp_nitermax]. split; [|auto].
  destruct Hh as (H1 & H2 & H3). repeat split; try apply HD; auto. unfold solver_ok in *. cbn. rewrite <- Hd. exact Hsv.
Qed.

Lemma steps_F : forall g k dims coords s, goodF dims coords s -> (0 <= fp_iter s)%Z -> (fp_iter s + Z.of_nat k <= int_max)%Z ->
  (forall j codes s', (j < k)%nat -> fp_steps g j s = Ret (codes, s') -> finite_step g s') ->
  exists codes s', fp_steps g k s = Ret (codes, s') /\ goodF dims coords s'.
Proof.
  intros g. induction k as [|k IH]; intros dims coords s G H0 H1 F; [exists [], s; auto|].
  destruct (next_F g dims coords s G ltac:(lia)) as (code & s' & E & G' & I).
  { apply (F 0%nat [] s); [lia|reflexivity]. }
  cbn [fp_steps]. rewrite E. cbn [bind snd fst].
  destruct (IH dims coords s' G' ltac:(lia) ltac:(lia)) as (codes & s'' & E' & G'').
  { intros j codes s1 Hj ES. apply (F (S j) (code :: codes) s1); [lia|]. cbn [fp_steps]. rewrite E. cbn [bind snd fst]. rewrite ES. reflexivity. }
  rewrite E'. cbn [bind fst snd]. eexists _, _. split; [reflexivity|]. auto.
Qed.

Theorem indices_F : forall g s0 s dims per coords guess target s1 k, grid_data dims coords -> Forall period_ok (fp_period s0) ->
  fp_setGrid s0 dims per coords = Ret s -> in_gridF dims guess -> length target = length dims ->
  fp_reset s guess target = Ret s1 -> (Z.of_nat k <= int_max)%Z ->
  (forall j codes s', (j < k)%nat -> fp_steps g j s1 = Ret (codes, s') -> finite_step g s') ->
  exists codes s', fp_steps g k s1 = Ret (codes, s') /\ in_gridF dims (fp_dIndices s').
Proof.
  intros g s0 s dims per coords guess target s1 k HD HP HS Hg Ht HR Hk F.
  destruct (reset_F s0 s dims per coords guess target HD HP HS Hg Ht) as (_ & s2 & E & G & I & _).
  rewrite HR in E. injection E as <-.
  destruct (steps_F g k dims coords s1 G ltac:(lia) ltac:(lia) F) as (codes & s' & E & G').
  exists codes, s'. split; auto. apply G'.
Qed.

(** ** Weights *)
Notation fmt := (generic_format radix2 (SpecFloat.fexp fprec femax)).

Lemma fmt_frac : forall k, (0 <= k <= 2 ^ 53)%Z -> fmt (IZR k * bpow radix2 (-53)).
Proof.
  intros k H. destruct (Z.eq_dec k (2 ^ 53)) as [->|E].
  - change (IZR (2 ^ 53)) with (bpow radix2 53). rewrite <- bpow_plus. apply generic_format_bpow. unfold SpecFloat.fexp, fprec, femax, SpecFloat.emin. simpl. lia.
  - replace (IZR k * bpow radix2 (-53)) with (F2R (Float radix2 k (-53))) by reflexivity.
    apply generic_format_FLT. exists (Float radix2 k (-53)); [reflexivity| |unfold fprec, femax, SpecFloat.emin; simpl; lia].
    simpl Fnum. change (radix2 ^ fprec)%Z with (2 ^ 53)%Z. lia.
Qed.

Lemma fmt_mult : forall v, fmt v -> 1 / 2 <= v -> exists k, v = IZR k * bpow radix2 (-53).
Proof.
  intros v F H. rewrite F. unfold F2R. simpl Fnum. simpl Fexp. unfold cexp.
  set (e := SpecFloat.fexp fprec femax (mag radix2 v)).
  assert (He : (-53 <= e)%Z).
  { assert (M : (0 <= mag radix2 v)%Z).
    { apply mag_ge_bpow. change (bpow radix2 (0 - 1)) with (/ 2). rewrite Rabs_pos_eq; lra. }
    unfold e, SpecFloat.fexp, fprec. lia. }
  exists (Ztrunc (scaled_mantissa radix2 (SpecFloat.fexp fprec femax) v) * 2 ^ (e + 53))%Z.
  rewrite mult_IZR. change (IZR (2 ^ (e + 53))) with (IZR (radix2 ^ (e + 53))). rewrite IZR_Zpower by lia.
  rewrite Rmult_assoc, <- bpow_plus. do 2 f_equal. lia.
Qed.

Lemma rnd_opp : forall x, rnd (- x) = - rnd x.
Proof. intros. unfold rnd. apply round_NE_opp. Qed.

(** The two weights along an axis, exactly: [t] and [1 - t] with [t] the rounded distance to the upper node. *)
Lemma frac_split : forall a x, fmt x -> (0 <= a)%Z -> IZR a <= x <= IZR a + 1 ->
  exists t, t = rnd (IZR a + 1 - x) /\ 0 <= t <= 1 /\ rnd (1 - t) = 1 - t.
Proof.
  intros a x F Ha H. set (t := rnd (IZR a + 1 - x)).
  assert (T0 : 0 <= t) by (rewrite <- (rnd_Z 0) by lia; apply rnd_le; simpl; lra).
  assert (T1 : t <= 1) by (rewrite <- (rnd_Z 1) by lia; apply rnd_le; lra).
  exists t. split; auto. split; auto.
  assert (K : exists k, t = IZR k * bpow radix2 (-53)).
  { destruct (Rle_dec (1 / 2) x) as [L|L].
    - destruct (fmt_mult x F L) as (k & Ek).
      assert (E1 : IZR a + 1 - x = IZR ((a + 1) * 2 ^ 53 - k) * bpow radix2 (-53)).
      { rewrite minus_IZR, mult_IZR, plus_IZR. rewrite Rmult_minus_distr_r, <- Ek. rewrite Rmult_assoc.
        change (IZR (2 ^ 53)) with (bpow radix2 53). rewrite <- bpow_plus. simpl. ring. }
      exists ((a + 1) * 2 ^ 53 - k)%Z. unfold t. rewrite E1. apply round_generic; [auto with typeclass_instances|]. apply fmt_frac.
      assert (P : 0 < bpow radix2 (-53)) by apply bpow_gt_0.
      assert (Q : bpow radix2 53 * bpow radix2 (-53) = 1) by (rewrite <- bpow_plus; reflexivity).
      split; apply le_IZR; apply Rmult_le_reg_r with (bpow radix2 (-53)); auto; rewrite <- E1; [lra|].
      change (IZR (2 ^ 53)) with (bpow radix2 53). rewrite Q. lra.
    - assert (a = 0)%Z. { destruct (Z.eq_dec a 0); auto. assert (1 <= IZR a) by (apply IZR_le; lia). lra. }
      subst a. apply fmt_mult; [apply generic_format_round; auto with typeclass_instances|].
      replace (1 / 2) with (rnd (1 / 2)); [apply rnd_le; lra|]. apply round_generic; [auto with typeclass_instances|].
      replace (1 / 2) with (bpow radix2 (-1)) by (simpl; lra). apply generic_format_bpow. unfold SpecFloat.fexp, fprec, femax, SpecFloat.emin. lia. }
  destruct K as (k & Ek). apply round_generic; [auto with typeclass_instances|].
  assert (P : 0 < bpow radix2 (-53)) by apply bpow_gt_0.
  assert (Q : bpow radix2 53 * bpow radix2 (-53) = 1) by (rewrite <- bpow_plus; reflexivity).
  replace (1 - t) with (IZR (2 ^ 53 - k) * bpow radix2 (-53)).
  2:{ rewrite minus_IZR, Ek. change (IZR (2 ^ 53)) with (bpow radix2 53). rewrite Rmult_minus_distr_r, Q. reflexivity. }
  apply fmt_frac. rewrite Ek in T0, T1. split.
  - assert (IZR k <= IZR (2 ^ 53)). { apply Rmult_le_reg_r with (bpow radix2 (-53)); auto. change (IZR (2 ^ 53)) with (bpow radix2 53). rewrite Q. lra. } apply le_IZR in H0. lia.
  - assert (IZR 0 <= IZR k). { apply Rmult_le_reg_r with (bpow radix2 (-53)); auto. rewrite Rmult_0_l. lra. } apply le_IZR in H0. lia.
Qed.

(** cpp/SgFindPointInCell.h:320-324, the factor of one axis. *)
Definition axis_weight (v : Z) (x : spec_float) : spec_float :=
  let dindx := nofZ v in if nle dindx x then nsub (nadd dindx n1) x else nadd (nsub x dindx) n1.

Lemma axis_weights : forall a x, dbl x -> (0 <= a <= 2 ^ 31)%Z -> IZR a <= fval x <= IZR a + 1 ->
  dbl (axis_weight a x) /\ dbl (axis_weight (a + 1) x) /\ 0 <= fval (axis_weight a x) <= 1 /\ 0 <= fval (axis_weight (a + 1) x) <= 1 /\
  fval (axis_weight a x) + fval (axis_weight (a + 1) x) = 1 /\ fval (axis_weight a x) = rnd (IZR a + 1 - fval x).
Proof.
  intros a x D Ha H. destruct (frac_split a (fval x) (dbl_format x D) ltac:(lia) H) as (t & Et & T & Ht).
  assert (A0 : 0 <= IZR a <= 2147483648) by (split; apply IZR_le; lia).
  destruct (f_ofZ a ltac:(lia)) as [AD AV]. destruct (f_ofZ (a + 1) ltac:(lia)) as [BD BV]. destruct one_val as [OD OV].
  rewrite plus_IZR in BV.
  assert (W0 : dbl (axis_weight a x) /\ fval (axis_weight a x) = t).
  { unfold axis_weight. cbv zeta. rewrite f_le by auto. rewrite AV. unfold Rleb. destruct (Rle_dec (IZR a) (fval x)) as [L|L]; [|lra].
    destruct (f_add (nofZ a) n1 AD OD) as [SD SV]; [apply small_R; rewrite AV, OV, Rabs_pos_eq; lra|].
    rewrite AV, OV in SV. rewrite <- plus_IZR, rnd_Z, plus_IZR in SV by lia.
    destruct (f_sub (nadd (nofZ a) n1) x SD D) as [UD UV]; [apply small_R; rewrite SV; apply Rabs_le; lra|].
    split; auto. rewrite UV, SV. auto. }
  assert (W1 : dbl (axis_weight (a + 1) x) /\ fval (axis_weight (a + 1) x) = 1 - t).
  { unfold axis_weight. cbv zeta. rewrite f_le by auto. rewrite BV. unfold Rleb. destruct (Rle_dec (IZR a + 1) (fval x)) as [L|L].
    - assert (EX : fval x = IZR a + 1) by lra.
      destruct (f_add (nofZ (a + 1)) n1 BD OD) as [SD SV]; [apply small_R; rewrite BV, OV, Rabs_pos_eq; lra|].
      rewrite BV, OV in SV. replace (IZR a + 1 + 1) with (IZR (a + 2)) in SV by (rewrite plus_IZR; lra). rewrite rnd_Z in SV by lia. rewrite plus_IZR in SV.
      destruct (f_sub (nadd (nofZ (a + 1)) n1) x SD D) as [UD UV]; [apply small_R; rewrite SV; apply Rabs_le; lra|].
      split; auto. rewrite UV, SV, EX. replace (IZR a + 2 - (IZR a + 1)) with (IZR 1) by lra. rewrite rnd_Z by lia.
      assert (t = 0). { rewrite Et, EX. replace (IZR a + 1 - (IZR a + 1)) with (IZR 0) by lra. rewrite rnd_Z by lia. reflexivity. } lra.
    - destruct (f_sub x (nofZ (a + 1)) D BD) as [SD SV]; [apply small_R; rewrite BV; apply Rabs_le; lra|].
      rewrite BV in SV. replace (fval x - (IZR a + 1)) with (- (IZR a + 1 - fval x)) in SV by lra. rewrite rnd_opp, <- Et in SV.
      destruct (f_add (nsub x (nofZ (a + 1))) n1 SD OD) as [UD UV]; [apply small_R; rewrite SV, OV; apply Rabs_le; lra|].
      split; auto. rewrite UV, SV, OV. replace (- t + 1) with (1 - t) by lra. exact Ht. }
  destruct W0 as [W0 V0], W1 as [W1 V1]. rewrite V0, V1. split; [auto|]. split; [auto|]. split; [lra|]. split; [lra|]. split; [lra|auto].
Qed.

Lemma loCorner_F : forall d x, (2 <= d <= 2 ^ 31 - 1)%Z -> on_axis d x -> fp_loCorner d x = Ret (cell d (fval x)).
Proof.
  intros d x Hd [D P]. assert (B := dim_R d Hd). unfold fp_loCorner. rewrite to_int_floor by (auto; lra). cbn [bind].
  change (Zfloor (fval x)) with (Int_part (fval x)).
  assert (I := Int_part_bounds (fval x)).
  assert (0 <= Int_part (fval x))%Z by (apply Z.lt_succ_r; apply lt_IZR; rewrite succ_IZR; lra).
  rewrite to_int32_small by lia. rewrite chk_ok by (unfold int_min, int_max; lia). cbn [bind].
  rewrite wrap64_small, to_int32_small by lia. unfold cell.
  destruct (Z.leb_spec 0 (Int_part (fval x))); [|lia]. destruct (Z.leb_spec (Int_part (fval x)) (d - 2)); f_equal; lia.
Qed.

(** The product of the factors, from left to right. *)
Fixpoint pw (acc : spec_float) (xs : list spec_float) (vs : list Z) : spec_float :=
  match xs, vs with
  | x :: xs', v :: vs' => pw (nmul acc (axis_weight v x)) xs' vs'
  | _, _ => acc
  end.

Notation fcells dims xs := (cells dims (map fval xs)).

Lemma grid_values : forall dims xs, in_gridF dims xs -> in_grid dims (map fval xs).
Proof. induction 1 as [|d x ds xs [D P] H IH]; constructor; auto. Qed.

Lemma nodeWeight_F : forall dims xs j acc w, grid_ok dims -> in_gridF dims xs ->
  (0 <= acc)%Z -> (acc + grid_size dims <= 2 ^ 62)%Z ->
  fp_nodeWeight dims (fp_mkProd dims) (fp_mkNodeProd (length dims)) xs j acc w =
  Ret ((acc + flat dims (zadd (fcells dims xs) (bits (length dims) j)))%Z, pw w xs (zadd (fcells dims xs) (bits (length dims) j))).
Proof.
  induction dims as [|d ds IH]; intros xs j acc w Hok Hx Hacc Hs; inversion Hx; subst.
  - simpl. rewrite Z.add_0_r. reflexivity.
  - assert (HL := grid_ok_length _ Hok). cbn [length] in *.
    assert (Hok' := Hok). apply grid_ok_cons in Hok'. destruct Hok' as (Hd & Hok' & P & Q).
    rewrite mkProd_spec by auto. rewrite mkNodeProd_spec by lia. cbn [fp_nodeWeight].
    rewrite loCorner_F by (auto; lia). cbn [bind].
    assert (P2 : (0 < 2 ^ Z.of_nat (length ds))%Z) by (apply Z.pow_pos_nonneg; lia).
    destruct (2 ^ Z.of_nat (length ds) =? 0)%Z eqn:E; [apply Z.eqb_eq in E; lia|].
    destruct (cell_spec d (fval y) ltac:(lia) (proj2 H1)) as [C1 C2].
    set (b := (j / 2 ^ Z.of_nat (length ds) mod 2)%Z).
    assert (B : (0 <= b < 2)%Z) by (apply Z.mod_pos_bound; lia).
    set (c := cell d (fval y)) in *.
    rewrite (wrap64_small (c + b)) by lia. rewrite (to_int32_small (c + b)) by lia.
    cbn [grid_size] in Hs.
    assert (N0 : (0 <= grid_size ds * (c + b))%Z) by (apply Z.mul_nonneg_nonneg; lia).
    assert (N1 : (grid_size ds * (c + b) <= grid_size ds * (d - 1))%Z) by (apply Z.mul_le_mono_nonneg_l; lia).
    assert (N2 : (grid_size ds * (d - 1) + grid_size ds = d * grid_size ds)%Z) by ring.
    rewrite wrap64_small by (change (2 ^ 64)%Z with (4 * 2 ^ 62)%Z; lia).
    rewrite IH by (auto; lia).
    cbn [map cells bits zadd flat pw]. fold b c. f_equal. f_equal. ring.
Qed.

Lemma weights_F : forall dims (s : fp (T:=spec_float)) xs, grid_ok dims -> fp_holds dims s -> in_gridF dims xs ->
  fp_getSrcIndicesAndWeights s xs =
  Ret (map (fun b => (flat dims (zadd (fcells dims xs) b), pw n1 xs (zadd (fcells dims xs) b))) (allbits (length dims))).
Proof.
  intros dims s xs Hok (H1 & H2 & H3) Hx. unfold fp_getSrcIndicesAndWeights.
  rewrite H1, H2, H3. unfold allbits. rewrite map_map. apply mapM_pure.
  intros j _. rewrite nodeWeight_F by (auto; try lia; destruct Hok; lia). reflexivity.
Qed.

Definition unit_dbl (w : spec_float) : Prop := dbl w /\ 0 <= fval w <= 1.

Lemma unit_mul : forall a w, unit_dbl a -> unit_dbl w -> unit_dbl (nmul a w) /\ fval (nmul a w) = rnd (fval a * fval w).
Proof.
  intros a w [Da Pa] [Dw Pw]. assert (B : 0 <= fval a * fval w <= 1) by nra.
  destruct (f_mul a w Da Dw) as [D V]; [apply small_R; rewrite Rabs_pos_eq; lra|]. split; auto. split; auto. rewrite V. split.
  - rewrite <- (rnd_Z 0) by lia. apply rnd_le. simpl. lra.
  - rewrite <- (rnd_Z 1) by lia. apply rnd_le. simpl. lra.
Qed.

Lemma etiny_pos : 0 < etiny. Proof. apply bpow_gt_0. Qed.
Lemma etiny_small : etiny * 1152921504606846976 <= uround.
Proof.
  unfold etiny, uround. replace 1152921504606846976 with (bpow radix2 60) by reflexivity. replace (/ 9007199254740992) with (bpow radix2 (-53)) by reflexivity.
  rewrite <- bpow_plus. apply bpow_le. lia.
Qed.

(** Exact weight of one node along an axis. *)
Lemma axis_close : forall d v x, (2 <= d <= 2 ^ 31 - 1)%Z -> on_axis d x -> (v = cell d (fval x) \/ v = cell d (fval x) + 1)%Z ->
  unit_dbl (axis_weight v x) /\ Rabs (fval (axis_weight v x) - (1 - Rabs (fval x - IZR v))) <= uround + etiny.
Proof.
  intros d v x Hd [D P] Hv. destruct (cell_spec d (fval x) ltac:(lia) P) as [C1 C2].
  destruct (axis_weights (cell d (fval x)) x D ltac:(lia) C2) as (D0 & D1 & U0 & U1 & S & E).
  set (c := cell d (fval x)) in *.
  assert (K : Rabs (fval (axis_weight c x) - (IZR c + 1 - fval x)) <= uround + etiny).
  { rewrite E. eapply Rle_trans; [apply rnd_error|]. apply Rplus_le_compat_r. rewrite Rabs_pos_eq by lra. unfold uround. lra. }
  destruct Hv as [-> | ->].
  - split; [split; auto|]. rewrite (Rabs_pos_eq (fval x - IZR c)) by lra. replace (1 - (fval x - IZR c)) with (IZR c + 1 - fval x) by lra. exact K.
  - split; [split; auto|]. rewrite plus_IZR. rewrite (Rabs_left1 (fval x - (IZR c + 1))) by lra.
    replace (fval (axis_weight (c + 1) x) - (1 - - (fval x - (IZR c + 1)))) with (- (fval (axis_weight c x) - (IZR c + 1 - fval x))) by lra.
    rewrite Rabs_Ropp. exact K.
Qed.

Lemma hat_unit : forall dims xs b, Forall (fun d => 2 <= d)%Z dims -> in_grid dims xs -> length b = length dims -> Forall (fun x => x = 0 \/ x = 1)%Z b ->
  0 <= hat xs (zadd (cells dims xs) b) <= 1.
Proof.
  intros dims xs b Hd. revert xs b. induction Hd as [|d ds Hd H IH]; intros xs b Hx L F; inversion Hx; subst; [simpl; lra|].
  destruct b as [|e b]; [discriminate|]. apply Forall_cons_iff in F. destruct F as [F1 F2]. cbn [cells zadd hat].
  destruct (cell_spec d y Hd H2) as [C1 C2]. assert (Q := IH l' b H4 ltac:(simpl in L; lia) F2).
  assert (0 <= 1 - Rabs (y - IZR (cell d y + e)) <= 1).
  { destruct F1 as [-> | ->]; rewrite plus_IZR; [rewrite Rabs_pos_eq by lra|rewrite Rabs_left1 by lra]; lra. }
  nra.
Qed.

(** Every computed weight is a double between 0 and 1, close to the exact weight. *)
Lemma pw_close : forall dims xs b acc A ea, Forall (fun d => 2 <= d <= 2 ^ 31 - 1)%Z dims -> in_gridF dims xs -> length b = length dims ->
  Forall (fun x => x = 0 \/ x = 1)%Z b -> unit_dbl acc -> 0 <= A <= 1 -> Rabs (fval acc - A) <= ea ->
  unit_dbl (pw acc xs (zadd (fcells dims xs) b)) /\
  Rabs (fval (pw acc xs (zadd (fcells dims xs) b)) - A * hat (map fval xs) (zadd (fcells dims xs) b)) <= ea + INR (length dims) * (2 * (uround + etiny)).
Proof.
  intros dims xs b acc A ea Hd. revert xs b acc A ea. induction Hd as [|d ds Hd H IH]; intros xs b acc A ea Hx L F U HA HE; inversion Hx; subst.
  - cbn [pw map cells zadd hat length INR]. split; auto. rewrite Rmult_1_r. lra.
  - destruct b as [|e b]; [discriminate|]. apply Forall_cons_iff in F. destruct F as [F1 F2]. cbn [map cells zadd hat pw].
    destruct (axis_close d (cell d (fval y) + e) y Hd H2) as [UW CW]; [destruct F1; subst; lia|].
    set (w := axis_weight (cell d (fval y) + e) y) in *. set (h := 1 - Rabs (fval y - IZR (cell d (fval y) + e))) in *.
    destruct (unit_mul acc w U UW) as [UM VM].
    assert (Hh : 0 <= h <= 1).
    { destruct (cell_spec d (fval y) ltac:(lia) (proj2 H2)) as [C1 C2]. unfold h.
      destruct F1 as [-> | ->]; rewrite plus_IZR; [rewrite Rabs_pos_eq by lra|rewrite Rabs_left1 by lra]; lra. }
    destruct (IH l' b (nmul acc w) (A * h) (ea + 2 * (uround + etiny))) as [R1 R2]; auto.
    + nra.
    + rewrite VM. replace (rnd (fval acc * fval w) - A * h) with ((rnd (fval acc * fval w) - fval acc * fval w) + (fval w * (fval acc - A) + A * (fval w - h))) by ring.
      destruct U as [_ U], UW as [_ UW'].
      assert (E1 := rnd_error (fval acc * fval w)). rewrite (Rabs_pos_eq (fval acc * fval w)) in E1 by nra.
      assert (E2 : Rabs (fval w * (fval acc - A)) <= ea). { rewrite Rabs_mult, (Rabs_pos_eq (fval w)) by lra. assert (0 <= Rabs (fval acc - A)) by apply Rabs_pos. nra. }
      assert (E3 : Rabs (A * (fval w - h)) <= uround + etiny). { rewrite Rabs_mult, (Rabs_pos_eq A) by lra. assert (0 <= Rabs (fval w - h)) by apply Rabs_pos. nra. }
      assert (E4 : uround * (fval acc * fval w) <= uround).
      { assert (Pu : 0 < uround) by (unfold uround; lra). assert (fval acc * fval w <= 1) by nra.
        rewrite <- (Rmult_1_r uround) at 2. apply Rmult_le_compat_l; lra. }
      eapply Rle_trans; [apply Rabs_triang|]. eapply Rle_trans; [apply Rplus_le_compat_l, Rabs_triang|]. lra.
    + split; auto. rewrite <- Rmult_assoc. change (length (d :: ds)) with (S (length ds)). rewrite S_INR. lra.
Qed.

(** The sum of the computed weights. *)
Fixpoint grow (n : nat) : R := match n with O => 0 | S k => grow k * (1 + uround) + uround end.
Fixpoint tiny (n : nat) : R := match n with O => 0 | S k => 2 * tiny k + 4 * etiny end.

Lemma grow_bound : forall n, (n <= 31)%nat -> 0 <= grow n <= INR n * (3 / 2 * uround) /\ grow n <= 1.
Proof.
  assert (Pu : 0 < uround) by (unfold uround; lra). assert (Su : uround * 1000 <= 1) by (unfold uround; lra).
  induction n as [|n IH]; intros Hn; [simpl; lra|]. destruct (IH ltac:(lia)) as [[I1 I2] I3].
  rewrite S_INR. cbn [grow]. assert (N : INR n <= 30) by (replace 30 with (INR 30) by (simpl; lra); apply le_INR; lia). assert (0 <= INR n) by apply pos_INR.
  assert (INR n * (3 / 2 * uround) <= 1 / 10) by nra.
  assert (grow n * uround <= 1 / 10 * uround) by nra.
  split; [split|]; nra.
Qed.

Lemma tiny_bound : forall n, (n <= 31)%nat -> 0 <= tiny n <= INR n * (uround / 2).
Proof.
  assert (Pe := etiny_pos). assert (Se := etiny_small).
  assert (K : forall n, tiny n = (2 ^ n - 1) * (4 * etiny)) by (induction n; cbn [tiny pow]; [ring|rewrite IHn; ring]).
  intros n Hn. rewrite K. assert (P2 : 1 <= 2 ^ n <= 2 ^ 31) by (split; [apply pow_R1_Rle; lra|apply Rle_pow; [lra|auto]]).
  split; [nra|]. destruct n as [|n]; [simpl; lra|]. assert (1 <= INR (S n)) by (rewrite S_INR; assert (0 <= INR n) by apply pos_INR; lra).
  assert (4 * etiny * 2 ^ 31 <= uround / 2). { replace (2 ^ 31) with 2147483648 by (simpl; lra). lra. } 
  assert (0 < uround) by (unfold uround; lra). nra.
Qed.

Lemma pw_sum : forall dims xs acc, Forall (fun d => 2 <= d <= 2 ^ 31 - 1)%Z dims -> (length dims <= 31)%nat -> in_gridF dims xs -> unit_dbl acc ->
  Rabs (lsum (map (fun b => fval (pw acc xs (zadd (fcells dims xs) b))) (allbits (length dims))) - fval acc) <= grow (length dims) * fval acc + tiny (length dims).
Proof.
  assert (Pu : 0 < uround) by (unfold uround; lra). assert (Pe := etiny_pos).
  intros dims xs acc Hd. revert xs acc. induction Hd as [|d ds Hd H IH]; intros xs acc Hn Hx U; inversion Hx; subst.
  - simpl. rewrite Rplus_0_r. unfold Rminus. rewrite Rplus_opp_r, Rabs_R0. lra.
  - cbn [length] in *. rewrite allbits_S, map_app, !map_map, lsum_app. cbn [map cells zadd pw].
    destruct H2 as [D P]. destruct (cell_spec d (fval y) ltac:(lia) P) as [C1 C2]. set (c := cell d (fval y)) in *.
    destruct (axis_weights c y D ltac:(lia) C2) as (D0 & D1 & U0 & U1 & S & _).
    rewrite Z.add_0_r.
    set (w0 := axis_weight c y) in *. set (w1 := axis_weight (c + 1) y) in *.
    destruct (unit_mul acc w0 U (conj D0 U0)) as [M0 V0]. destruct (unit_mul acc w1 U (conj D1 U1)) as [M1 V1].
    assert (I0 := IH l' _ ltac:(lia) H4 M0). assert (I1 := IH l' _ ltac:(lia) H4 M1).
    match type of I0 with Rabs (?s - _) <= _ => set (s0 := s) in * end.
    match type of I1 with Rabs (?s - _) <= _ => set (s1 := s) in * end.
    change (Rabs (s0 + s1 - fval acc) <= grow (Datatypes.S (length ds)) * fval acc + tiny (Datatypes.S (length ds))).
    destruct U as [_ U].
    assert (E0 := rnd_error (fval acc * fval w0)). assert (E1 := rnd_error (fval acc * fval w1)).
    rewrite (Rabs_pos_eq (fval acc * fval w0)) in E0 by nra. rewrite (Rabs_pos_eq (fval acc * fval w1)) in E1 by nra.
    rewrite <- V0 in E0. rewrite <- V1 in E1.
    destruct (grow_bound (length ds) ltac:(lia)) as [[G0 _] G1]. cbn [grow tiny].
    set (G := grow (length ds)) in *. set (t := tiny (length ds)) in *. clearbody G t s0 s1.
    set (m0 := fval (nmul acc w0)) in *. set (m1 := fval (nmul acc w1)) in *. clearbody m0 m1.
    set (a := fval acc) in *. set (p0 := fval w0) in *. set (p1 := fval w1) in *. clearbody a p0 p1. clear - I0 I1 E0 E1 G0 G1 U U0 U1 S Pu Pe.
    assert (Q : a * p0 + a * p1 = a) by (rewrite <- Rmult_plus_distr_l, S; ring).
    apply Rabs_le_inv in I0, I1, E0, E1.
    assert (QU : uround * (a * p0) + uround * (a * p1) = uround * a) by (rewrite <- Rmult_plus_distr_l, Q; ring).
    assert (SM : a - uround * a - 2 * etiny <= m0 + m1 <= a + uround * a + 2 * etiny) by lra.
    assert (GM : G * (m0 + m1) <= G * (a + uround * a + 2 * etiny)) by (apply Rmult_le_compat_l; lra).
    assert (GE : G * (2 * etiny) <= 2 * etiny) by nra.
    apply Rabs_le. split; nra.
Qed.

Theorem weights_held : forall dims (s : fp (T:=spec_float)) xs, grid_ok dims -> fp_holds dims s -> in_gridF dims xs ->
  exists c iw, fp_getSrcIndicesAndWeights s xs = Ret iw /\ is_cell dims c (map fval xs) /\
    NoDup (map fst iw) /\ Z.of_nat (length iw) = (2 ^ Z.of_nat (length dims))%Z /\
    (forall k w, In (k, w) iw -> (0 <= k < grid_size dims)%Z /\ dbl w /\ 0 <= fval w <= 1 /\
       exists v, is_corner c v /\ k = flat dims v /\ Rabs (fval w - hat (map fval xs) v) <= INR (length dims) * bpow radix2 (-51)) /\
    (forall v, is_corner c v -> In (flat dims v) (map fst iw)) /\
    Rabs (lsum (map (fun kw => fval (snd kw)) iw) - 1) <= INR (length dims) * bpow radix2 (-52).
Proof.
  intros dims s xs Hok Hh Hx.
  assert (R := dims_range dims Hok). assert (GV := grid_values dims xs Hx).
  assert (CS := cells_spec dims (map fval xs) (proj1 Hok) GV).
  assert (LC : length (fcells dims xs) = length dims) by (destruct CS as [CS _]; apply Forall2_length in CS; auto).
  exists (fcells dims xs). eexists. split; [apply (weights_F dims); auto|]. split; auto.
  assert (CN : forall b, In b (allbits (length dims)) -> is_corner (fcells dims xs) (zadd (fcells dims xs) b)).
  { intros b Hb. apply allbits_in in Hb. destruct Hb as [Lb Fb]. apply zadd_corner; auto. congruence. }
  assert (ND : forall b, In b (allbits (length dims)) -> is_node dims (zadd (fcells dims xs) b)).
  { intros b Hb. eapply is_corner_node; eauto. }
  assert (U1 : unit_dbl n1). { destruct one_val as [A B]. split; auto. rewrite B. lra. }
  assert (HL := grid_ok_length _ Hok). assert (HL' : (length dims <= 31)%nat) by lia.
  assert (Pe := etiny_pos). assert (Se := etiny_small). assert (Pu : 0 < uround) by (unfold uround; lra).
  split; [|split; [|split; [|split]]].
  - rewrite map_map. cbn [fst]. apply NoDup_map_inj_in; [|apply allbits_NoDup].
    intros b b' Hb Hb' E. apply flat_inj in E; auto. apply allbits_in in Hb. apply allbits_in in Hb'. apply zadd_inj in E; auto; lia.
  - rewrite map_length. unfold allbits, range. rewrite map_length, zseq_length. apply Z2Nat.id. apply Z.pow_nonneg. lia.
  - intros k w Hkw. apply in_map_iff in Hkw. destruct Hkw as (b & Eb & Hb). injection Eb as <- <-.
    split; [apply flat_bounds; auto|].
    assert (Hb' := Hb). apply allbits_in in Hb'. destruct Hb' as [Lb Fb].
    destruct (pw_close dims xs b n1 1 0 R Hx Lb Fb U1 ltac:(lra)) as [[D P] C].
    { destruct one_val as [_ ->]. unfold Rminus. rewrite Rplus_opp_r, Rabs_R0. lra. }
    split; [exact D|]. split; [exact P|]. exists (zadd (fcells dims xs) b). split; [exact (CN b Hb)|]. split; [reflexivity|].
    rewrite Rmult_1_l, Rplus_0_l in C. eapply Rle_trans; [exact C|]. apply Rmult_le_compat_l; [apply pos_INR|].
    replace (bpow radix2 (-51)) with (4 * uround) by (unfold uround; simpl; lra). lra.
  - intros v Hv. rewrite map_map. cbn [fst]. apply corner_zadd in Hv. destruct Hv as (b & Lb & Fb & ->).
    apply (in_map (fun x => flat dims (zadd (fcells dims xs) x))). apply allbits_in. split; auto. congruence.
  - rewrite map_map. cbn [snd]. assert (SS := pw_sum dims xs n1 R HL' Hx U1). destruct one_val as [_ OV]. rewrite OV in SS.
    eapply Rle_trans; [exact SS|]. destruct (grow_bound (length dims) HL') as [[_ G] _]. assert (T := tiny_bound (length dims) HL').
    replace (bpow radix2 (-52)) with (2 * uround) by (unfold uround; simpl; lra). lra.
Qed.

Theorem weights_ieee : forall s0 s dims per coords, grid_data dims coords -> fp_setGrid s0 dims per coords = Ret s ->
  forall xs, in_gridF dims xs ->
  exists c iw, fp_getSrcIndicesAndWeights s xs = Ret iw /\ is_cell dims c (map fval xs) /\
    NoDup (map fst iw) /\ Z.of_nat (length iw) = (2 ^ Z.of_nat (length dims))%Z /\
    (forall k w, In (k, w) iw -> (0 <= k < grid_size dims)%Z /\ dbl w /\ 0 <= fval w <= 1 /\
       exists v, is_corner c v /\ k = flat dims v /\ Rabs (fval w - hat (map fval xs) v) <= INR (length dims) * bpow radix2 (-51)) /\
    (forall v, is_corner c v -> In (flat dims v) (map fst iw)) /\
    Rabs (lsum (map (fun kw => fval (snd kw)) iw) - 1) <= INR (length dims) * bpow radix2 (-52).
Proof.
  intros s0 s dims per coords HD HS xs Hx.
  destruct (setGrid_ok s0 dims per coords HD) as (s' & E & Hh & _). rewrite HS in E. injection E as <-.
  apply weights_held; auto. apply HD.
Qed.

(** ** At the nodes nothing is rounded *)
Definition bit_dbl (w : spec_float) (p : bool) : Prop := dbl w /\ fval w = if p then 1 else 0.

Lemma axis_node : forall d u v x, (2 <= d <= 2 ^ 31 - 1)%Z -> on_axis d x -> fval x = IZR v ->
  (u = cell d (fval x) \/ u = cell d (fval x) + 1)%Z -> bit_dbl (axis_weight u x) (u =? v)%Z.
Proof.
  intros d u v x Hd [D P] Hx Hu. destruct (cell_spec d (fval x) ltac:(lia) P) as [C1 C2].
  destruct (axis_weights (cell d (fval x)) x D ltac:(lia) C2) as (D0 & D1 & U0 & U1 & S & E).
  set (c := cell d (fval x)) in *. rewrite Hx in *.
  assert (Q : (c <= v <= c + 1)%Z) by (split; apply le_IZR; rewrite ?plus_IZR; lra).
  replace (IZR c + 1 - IZR v) with (IZR (c + 1 - v)) in E by (rewrite minus_IZR, plus_IZR; ring). rewrite rnd_Z in E by lia.
  assert (V : v = c \/ v = (c + 1)%Z) by lia.
  destruct Hu as [-> | ->]; split; auto; destruct V as [-> | ->].
  - rewrite Z.eqb_refl. rewrite E. f_equal. lia.
  - destruct (Z.eqb_spec c (c + 1)); [lia|]. rewrite E. f_equal. lia.
  - destruct (Z.eqb_spec (c + 1) c); [lia|]. replace (c + 1 - c)%Z with 1%Z in E by lia. lra.
  - rewrite Z.eqb_refl. replace (c + 1 - (c + 1))%Z with 0%Z in E by lia. lra.
Qed.

Lemma bit_mul : forall a w p q, bit_dbl a p -> bit_dbl w q -> bit_dbl (nmul a w) (p && q).
Proof.
  intros a w p q [Da Va] [Dw Vw].
  assert (K : exists z, dbl z /\ fval z = fval a * fval w).
  { rewrite Va, Vw. destruct p, q; [exists n1|exists n0..]; destruct one_val, zero_val; split; auto; lra. }
  destruct K as (z & Dz & Vz). destruct (f_mul_exact a w z Da Dw Dz (eq_sym Vz)) as [D V]. split; auto.
  rewrite V, Vz, Va, Vw. destruct p, q; simpl; lra.
Qed.

Fixpoint veqb (a b : list Z) : bool :=
  match a, b with
  | [], [] => true
  | x :: a', y :: b' => (x =? y)%Z && veqb a' b'
  | _, _ => false
  end.

Lemma veqb_eq : forall a b, veqb a b = true <-> a = b.
Proof.
  induction a as [|x a IH]; intros [|y b]; simpl; try (split; [discriminate|discriminate]); [tauto|].
  rewrite andb_true_iff, IH, Z.eqb_eq. split; [intros [-> ->]; auto|intros E; injection E; auto].
Qed.

Lemma pw_node : forall dims xs v b acc p, Forall (fun d => 2 <= d <= 2 ^ 31 - 1)%Z dims -> in_gridF dims xs -> map fval xs = map IZR v ->
  length b = length dims -> Forall (fun x => x = 0 \/ x = 1)%Z b -> bit_dbl acc p ->
  bit_dbl (pw acc xs (zadd (fcells dims xs) b)) (p && veqb (zadd (fcells dims xs) b) v).
Proof.
  intros dims xs v b acc p Hd. revert xs v b acc p. induction Hd as [|d ds Hd H IH]; intros xs v b acc p Hx Hv L F U; inversion Hx; subst.
  - destruct v; [|discriminate]. cbn [pw map cells zadd veqb]. rewrite andb_true_r. exact U.
  - destruct b as [|e b]; [discriminate|]. destruct v as [|v0 v]; [discriminate|]. injection Hv as Hv0 Hv.
    apply Forall_cons_iff in F. destruct F as [F1 F2]. cbn [map cells zadd pw veqb]. rewrite andb_assoc. apply IH; auto.
    apply bit_mul; auto. apply (axis_node d); auto. destruct F1; subst; lia.
Qed.

Lemma fold_zero : forall field (l : list (Z * spec_float)) r, dbl r -> Forall dbl field ->
  (forall kw, In kw l -> (0 <= fst kw < Z.of_nat (length field))%Z /\ bit_dbl (snd kw) false) ->
  exists r', foldM (fun res kw => let! f := vget field (fst kw) in Ret (nadd res (nmul (snd kw) f))) l r = Ret r' /\ dbl r' /\ fval r' = fval r.
Proof.
  intros field. induction l as [|[k w] l IH]; intros r Dr Df H; [exists r; auto|].
  destruct (H (k, w) (or_introl eq_refl)) as [Hk [Dw Vw]]. cbn [fst snd] in *.
  cbn [foldM fst snd]. rewrite (vget_nth field k n0) by lia. cbn [bind]. set (f := nth (Z.to_nat k) field n0).
  assert (Dz : dbl f) by (rewrite Forall_forall in Df; apply Df, nth_In; lia).
  destruct zero_val as [Z1 Z2]. destruct (f_mul_exact w f n0 Dw Dz Z1) as [D1 V1]; [rewrite Vw, Z2; ring|].
  destruct (f_add_exact r (nmul w f) r Dr D1 Dr) as [D2 V2]; [rewrite V1, Z2; ring|].
  destruct (IH (nadd r (nmul w f)) D2 Df) as (r' & E' & D' & V'); [intros; apply H; right; auto|].
  exists r'. split; [exact E'|]. split; auto. congruence.
Qed.

Theorem nodes_ieee : forall s0 s dims per coords, grid_data dims coords -> fp_setGrid s0 dims per coords = Ret s ->
  forall field, Z.of_nat (length field) = grid_size dims -> Forall dbl field ->
  forall v xs, is_node dims v -> Forall dbl xs -> map fval xs = map IZR v ->
  exists r, fp_interp s xs field = Ret r /\ dbl r /\ fval r = fval (nth (Z.to_nat (flat dims v)) field n0).
Proof.
  intros s0 s dims per coords HD HS field HF Df v xs Hv Dx Hx. assert (Hok : grid_ok dims) by exact (proj1 (proj2 HD)).
  destruct (setGrid_ok s0 dims per coords HD) as (s' & E & Hh & _). rewrite HS in E. injection E as <-.
  assert (R := dims_range dims Hok).
  assert (GX : in_gridF dims xs).
  { clear - Hv Dx Hx. revert xs Dx Hx. induction Hv as [|d z ds v H Hv IH]; intros [|x xs] Dx Hx; try discriminate; constructor.
    - injection Hx as Hx _. apply Forall_inv in Dx. split; auto. rewrite Hx. split; apply IZR_le; lia.
    - apply IH; [apply Forall_inv_tail in Dx; auto|injection Hx; auto]. }
  assert (GV := grid_values dims xs GX). assert (CS := cells_spec dims (map fval xs) (proj1 Hok) GV).
  assert (LC : length (fcells dims xs) = length dims) by (destruct CS as [CS _]; apply Forall2_length in CS; auto).
  assert (CB : is_corner (fcells dims xs) v).
  { destruct CS as [_ CS]. rewrite Hx in *. clear - CS. remember (map IZR v) as ys eqn:Ey. revert v Ey.
    induction CS as [|a x c l Hax CS IH]; intros [|z v] Ey; try discriminate; constructor.
    - injection Ey as -> _. assert (a <= z <= a + 1)%Z by (split; apply le_IZR; rewrite ?plus_IZR; lra). lia.
    - apply IH. injection Ey; auto. }
  apply corner_zadd in CB. destruct CB as (b0 & Lb0 & Fb0 & Ev).
  assert (I0 : In b0 (allbits (length dims))) by (apply allbits_in; split; auto; congruence).
  destruct (in_split _ _ I0) as (l1 & l2 & El). assert (ND := allbits_NoDup (length dims)). rewrite El in ND. apply NoDup_remove_2 in ND. rewrite in_app_iff in ND.
  assert (U1 : bit_dbl n1 true). { destruct one_val as [A B]. split; auto. }
  assert (K : forall b, In b (allbits (length dims)) ->
     (0 <= flat dims (zadd (fcells dims xs) b) < Z.of_nat (length field))%Z /\ bit_dbl (pw n1 xs (zadd (fcells dims xs) b)) (veqb (zadd (fcells dims xs) b) v)).
  { intros b Hb. apply allbits_in in Hb. destruct Hb as [Lb Fb]. split.
    - rewrite HF. apply flat_bounds. eapply is_corner_node; [exact CS|]. apply zadd_corner; auto. congruence.
    - apply (pw_node dims xs v b n1 true); auto. }
  assert (K0 : forall b, In b l1 \/ In b l2 -> veqb (zadd (fcells dims xs) b) v = false).
  { intros b Hb. destruct (veqb (zadd (fcells dims xs) b) v) eqn:Q; auto. exfalso. apply veqb_eq in Q. rewrite Ev in Q.
    assert (Ib : In b (allbits (length dims))) by (rewrite El; apply in_app_iff; simpl; tauto).
    apply allbits_in in Ib. apply zadd_inj in Q; [|lia|lia]. subst b. tauto. }
  unfold fp_interp. rewrite (weights_F dims) by auto. cbn [bind]. rewrite El, map_app. cbn [map]. rewrite foldM_app.
  destruct zero_val as [Z1 Z2].
  match goal with |- context [foldM ?f ?l n0] => destruct (fold_zero field l n0 Z1 Df) as (r1 & E1 & D1 & V1) end.
  { intros kw Hkw. apply in_map_iff in Hkw. destruct Hkw as (b & <- & Hb). cbn [fst snd].
    destruct (K b) as [K1 K2]; [rewrite El; apply in_app_iff; tauto|]. rewrite K0 in K2 by auto. auto. }
  rewrite E1. cbn [bind foldM fst snd]. destruct (K b0 I0) as [K1 K2]. rewrite <- Ev in *.
  rewrite (vget_nth field _ n0) by lia. cbn [bind]. replace (veqb v v) with true in K2 by (symmetry; apply veqb_eq; auto).
  destruct K2 as [Dw Vw]. set (f := nth (Z.to_nat (flat dims v)) field n0) in *.
  assert (Dz : dbl f) by (rewrite Forall_forall in Df; apply Df, nth_In; lia).
  destruct (f_mul_exact (pw n1 xs v) f f Dw Dz Dz) as [D2 V2]; [rewrite Vw; ring|].
  destruct (f_add_exact r1 (nmul (pw n1 xs v) f) f D1 D2 Dz) as [D3 V3]; [rewrite V1, V2, Z2; ring|].
  match goal with |- exists r, foldM ?g ?l ?x = Ret r /\ _ => destruct (fold_zero field l x D3 Df) as (r2 & E2 & D4 & V4) end.
  { intros kw Hkw. apply in_map_iff in Hkw. destruct Hkw as (b & <- & Hb). cbn [fst snd].
    destruct (K b) as [K1' K2]; [rewrite El; apply in_app_iff; simpl; tauto|]. rewrite K0 in K2 by auto. auto. }
  exists r2. split; [exact E2|]. split; auto. congruence.
Qed.
