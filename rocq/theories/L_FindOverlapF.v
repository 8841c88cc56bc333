(** Search for the cells under a polygon in IEEE double arithmetic. *)
From Coq Require Import ZArith List Bool Reals Lra Lia Floats.SpecFloat.
From Flocq Require Import Core BinarySingleNaN.
From Verif Require Import Base Num NumR NumF M_LinearSolve M_BoxIterator M_FindPoint M_NodeInterp M_FindOverlap S_Grid S_Box
  L_LinearSolve L_Interp L_FindPoint L_FindPointR L_FindPointB L_FindPointG L_NodeInterp L_NodeInterpR L_Box L_Float L_FloatOps L_FindPointF L_TriangulateF L_FindOverlap.
Import ListNotations.
Open Scope R_scope.

(** ** Quotient, ceiling *)
Lemma to_int_ceil : forall x, dbl x -> 0 < fval x <= 2147483647 -> to_int (nceil x) = Ret (Zceil (fval x)).
Proof.
  intros x D P. assert (D' := D). destruct D' as [V F]. destruct x as [s|s| |s m e]; try discriminate; [unfold fval in P; simpl in P; lra|].
  assert (CB : (0 < Zceil (fval (S754_finite s m e)) <= 2147483647)%Z).
  { split; [apply lt_IZR; eapply Rlt_le_trans; [|apply Zceil_ub]; lra|]. apply Zceil_glb. lra. }
  assert (FIN : forall c, dbl c -> fval c = IZR (Zceil (fval (S754_finite s m e))) -> to_int c = Ret (Zceil (fval (S754_finite s m e)))).
  { intros c Dc Vc. unfold to_int. rewrite toZ_val by (auto; rewrite Vc; apply IZR_le; lia). rewrite Vc, Zfloor_IZR.
    unfold in_int, int_min, int_max. destruct (Z.leb_spec (- 2 ^ 31) (Zceil (fval (S754_finite s m e)))); [|lia].
    destruct (Z.leb_spec (Zceil (fval (S754_finite s m e))) (2 ^ 31 - 1)); [reflexivity|lia]. }
  assert (Sy : s = false).
  { destruct s; auto. exfalso. assert (fval (S754_finite true m e) < 0) by (apply F2R_lt_0; simpl; lia). lra. }
  subst s. apply FIN; clear FIN; unfold nceil; cbn [nfloor nopp NumF SFopp negb F_floor]; destruct (Z.leb_spec 0 e) as [He|He].
  - cbn [nopp NumF SFopp negb]. exact D.
  - assert (K : (Z.neg m / 2 ^ (- e) = - Zceil (fval (S754_finite false m e)))%Z).
    { unfold Zceil. rewrite Z.opp_involutive. unfold fval. cbn [SF2R cond_Zopp]. rewrite <- F2R_Zopp. change (- Z.pos m)%Z with (Z.neg m).
      unfold F2R. simpl Fnum. simpl Fexp. replace e with (- (- e))%Z at 2 by lia. rewrite bpow_opp, <- IZR_Zpower by lia.
      change (IZR (Z.neg m) * / IZR (radix2 ^ (- e))) with (IZR (Z.neg m) / IZR (radix2 ^ (- e))). rewrite Zfloor_div; [reflexivity|].
      change (radix2 ^ (- e))%Z with (2 ^ (- e))%Z. apply Z.pow_nonzero; lia. }
    rewrite K. destruct (f_ofZ (- Zceil (fval (S754_finite false m e))) ltac:(lia)) as [Z1 Z2]. cbn [nofZ NumF] in Z1, Z2.
    destruct (- Zceil (fval (S754_finite false m e)))%Z eqn:EZ; [lia|lia|]. apply opp_val. exact Z1.
  - cbn [nopp NumF SFopp negb]. unfold fval. cbn [SF2R cond_Zopp]. unfold F2R. simpl Fnum. simpl Fexp.
    rewrite <- IZR_Zpower by auto. rewrite <- mult_IZR, Zceil_IZR. reflexivity.
  - assert (K : (Z.neg m / 2 ^ (- e) = - Zceil (fval (S754_finite false m e)))%Z).
    { unfold Zceil. rewrite Z.opp_involutive. unfold fval. cbn [SF2R cond_Zopp]. rewrite <- F2R_Zopp. change (- Z.pos m)%Z with (Z.neg m).
      unfold F2R. simpl Fnum. simpl Fexp. replace e with (- (- e))%Z at 2 by lia. rewrite bpow_opp, <- IZR_Zpower by lia.
      change (IZR (Z.neg m) * / IZR (radix2 ^ (- e))) with (IZR (Z.neg m) / IZR (radix2 ^ (- e))). rewrite Zfloor_div; [reflexivity|].
      change (radix2 ^ (- e))%Z with (2 ^ (- e))%Z. apply Z.pow_nonzero; lia. }
    rewrite K. destruct (f_ofZ (- Zceil (fval (S754_finite false m e))) ltac:(lia)) as [Z1 Z2]. cbn [nofZ NumF] in Z1, Z2.
    set (c := Zceil (fval (S754_finite false m e))) in *. clearbody c.
    destruct (- c)%Z eqn:EZ; [lia|lia|]. destruct (opp_val _ Z1) as [_ O]. etransitivity; [exact O|]. rewrite Z2, <- EZ, opp_IZR. ring.
Qed.

(** ** One search *)
(** An index that can be the start of a step, inside the grid or not. *)
Definition nearF (x : spec_float) : Prop := dbl x /\ 0 <= fval x <= 2147483647.

Lemma axis_near : forall d x, (2 <= d <= 2 ^ 31 - 1)%Z -> on_axis d x -> nearF x.
Proof. intros d x Hd [D P]. assert (B := dim_R d Hd). split; auto. lra. Qed.

Lemma near_castable : forall x, nearF x -> castable x.
Proof. intros x [D P]. exists (Zfloor (fval x)). apply L_FloatOps.to_int_floor; auto. lra. Qed.

Lemma near_hi : forall d x, (2 <= d <= 2 ^ 31 - 1)%Z -> nearF x -> nearF (fd_hi d x).
Proof.
  intros d x Hd [D P]. assert (B := dim_R d Hd). destruct half_val as [HD HV].
  destruct (dim_val d Hd) as [DD DV]. rewrite wrap64_small in DD, DV by lia.
  destruct (f_add x nhalf D HD) as [SD SV]; [apply small_R; rewrite HV; rewrite Rabs_pos_eq; lra|].
  unfold fd_hi. cbv zeta. rewrite f_le by auto. rewrite DV. unfold Rleb. destruct (Rle_dec (fval (nadd x nhalf)) (IZR (d - 1))) as [L|L].
  - split; auto. split; [|lra]. rewrite SV, HV. rewrite <- (rnd_Z 0) by lia. apply rnd_le. simpl. lra.
  - split; auto. rewrite DV. lra.
Qed.

Lemma near_lo : forall x, nearF x -> nearF (fd_lo x).
Proof.
  intros x [D P]. destruct half_val as [HD HV]. destruct zero_val as [ZD ZV].
  destruct (f_sub x nhalf D HD) as [SD SV]; [apply small_R; rewrite HV; apply Rabs_le; lra|].
  unfold fd_lo. cbv zeta. rewrite f_le by auto. rewrite ZV. unfold Rleb. destruct (Rle_dec 0 (fval (nsub x nhalf))) as [L|L].
  - split; auto. split; auto. apply Rle_trans with (fval x); [|lra]. rewrite SV, HV. rewrite <- (rnd_id x D) at 2. apply rnd_le. lra.
  - split; auto. rewrite ZV. lra.
Qed.

(** The new index is on the axis, or is not a number. *)
Lemma truncate_fok : forall d per x, (2 <= d <= 2 ^ 31 - 1)%Z -> period_ok per -> fok x -> castable (fp_truncate1 per d x) ->
  on_axis d (fp_truncate1 per d x).
Proof.
  intros d per x Hd [Dp Pp] Fx C. destruct x as [s|s| |s m e]; try (apply truncate_axis; auto; split; [exact Fx|reflexivity]).
  - destruct (dim_val d Hd) as [DD DV]. assert (B := dim_R d Hd). destruct zero_val as [ZD ZV].
    unfold fp_truncate1 in *. cbv zeta in *. destruct (neq per n0) eqn:EP.
    + destruct s.
      * assert (E : nlt (S754_infinity true) (n0 : spec_float) = true) by reflexivity. rewrite E in *.
        rewrite f_lt by auto. rewrite ZV, DV. unfold Rltb. destruct (Rlt_dec (IZR (d - 1)) 0); [lra|]. split; auto. rewrite ZV. lra.
      * assert (E : nlt (S754_infinity false) (n0 : spec_float) = false) by reflexivity. rewrite E in *.
        assert (E2 : nlt (nofZ (wrap64 (d - 1))) (S754_infinity false) = true).
        { destruct DD as [_ FD]. destruct (nofZ (wrap64 (d - 1)) : spec_float) as [?|?| |[|] ? ?]; try discriminate FD; reflexivity. }
        rewrite E2. split; auto. rewrite DV. lra.
    + exfalso. destruct C as (z & C).
      assert (E : nfmod (nadd (nfmod (S754_infinity s) per) per) per = S754_nan) by (destruct per as [?|?| |? ? ?]; reflexivity).
      rewrite E in C. assert (E1 : nlt S754_nan (n0 : spec_float) = false) by reflexivity. rewrite E1 in C.
      assert (E2 : nlt (nofZ (wrap64 (d - 1))) (S754_nan) = false) by (destruct (nofZ (wrap64 (d - 1)) : spec_float) as [?|?| |[|] ? ?]; reflexivity).
      rewrite E2 in C. discriminate C.
  - exfalso. destruct C as (z & C). unfold fp_truncate1 in *. cbv zeta in *.
    assert (E : (if neq per n0 then S754_nan else nfmod (nadd (nfmod S754_nan per) per) per) = S754_nan) by (destruct (neq per n0); auto; destruct per as [?|?| |? ? ?]; reflexivity).
    rewrite E in C. assert (E1 : nlt S754_nan (n0 : spec_float) = false) by reflexivity. rewrite E1 in C.
    assert (E2 : nlt (nofZ (wrap64 (d - 1))) (S754_nan) = false) by (destruct (nofZ (wrap64 (d - 1)) : spec_float) as [?|?| |[|] ? ?]; reflexivity).
    rewrite E2 in C. discriminate C.
Qed.

Lemma truncate_grid_fok : forall dims pers xs, List.Forall (fun d => 2 <= d <= 2 ^ 31 - 1)%Z dims -> length pers = length dims -> List.Forall period_ok pers ->
  length xs = length dims -> List.Forall fok xs -> List.Forall castable (fp_truncate pers dims xs) -> in_gridF dims (fp_truncate pers dims xs).
Proof.
  induction dims as [|d ds IH]; intros [|p pers] [|x xs] R L1 P L2 X C; try discriminate; [constructor|].
  apply Forall_cons_iff in R, P, X. destruct R as [R1 R2], P as [P1 P2], X as [X1 X2]. cbn [fp_truncate] in *.
  apply Forall_cons_iff in C. destruct C as [C1 C2].
  constructor; [apply truncate_fok; auto|apply IH; auto].
Qed.

(** The solver gives back doubles (among them infinities and NaN). *)
Definition gives_doubles (g : gels spec_float) : Prop :=
  forall m n a lda b ldb lw k, SpecFloat.valid_binary fprec femax (g_rhs (g m n a lda b ldb lw) k) = true.

Lemma run_doubles : forall g sv a b info sv', gives_doubles g -> ls_run g sv a b = Ret (info, sv') -> List.Forall fok (ls_getSolution sv').
Proof.
  intros g sv a b info sv' G H. unfold ls_run in H. apply bind_ret_inv in H. destruct H as (s1 & _ & H). apply bind_ret_inv in H. destruct H as (s2 & _ & H).
  unfold ls_solve in H. destruct (ls_mat s2); [discriminate|]. destruct (ls_x s2); [discriminate|]. injection H as <- <-. unfold ls_getSolution. cbn [ls_x].
  apply Forall_forall. intros x [<-|I]; [apply G|]. apply in_map_iff in I. destruct I as (k & <- & _). apply G.
Qed.

Definition nearG (dims : list Z) (coords : list (list spec_float)) (s : fp (T:=spec_float)) : Prop :=
  fp_ready dims coords s /\ List.Forall period_ok (fp_period s) /\ length (fp_target s) = length dims /\
  length (fp_dIndices s) = length dims /\ List.Forall nearF (fp_dIndices s).

Lemma nearG_safe : forall dims coords s, nearG dims coords s -> fp_safe dims coords s.
Proof.
  intros dims coords s ((HD & Hh & Hc & Lp & So & _) & _ & Lt & Li & NF).
  assert (R := dims_range dims (proj1 (proj2 HD))).
  repeat (split; [assumption|]). split; [eapply Forall_impl; [|exact NF]; apply near_castable|].
  clear - R Li NF. revert Li NF. generalize (fp_dIndices s). induction R as [|d ds Hd R IH]; intros [|x xs] L NF; try discriminate; constructor.
  - apply Forall_cons_iff in NF. destruct NF as [N1 _]. split; apply near_castable; [apply near_hi|apply near_lo]; auto.
  - apply Forall_cons_iff in NF. apply IH; [simpl in L; lia|apply NF].
Qed.

Lemma grid_near : forall dims xs, grid_ok dims -> in_gridF dims xs -> List.Forall nearF xs.
Proof.
  intros dims xs Hok H. assert (R := dims_range dims Hok). clear Hok. induction H as [|d x ds xs Hx H IH]; constructor; apply Forall_cons_iff in R; [eapply axis_near; eauto; apply R|apply IH; apply R].
Qed.

Lemma next_near : forall g dims coords s code s', gives_doubles g -> nearG dims coords s -> (0 <= fp_iter s < int_max)%Z ->
  fp_next g s = Ret (code, s') -> nearG dims coords s' /\ (fp_iter s <= fp_iter s' <= fp_iter s + 1)%Z /\
    (fp_dIndices s' = fp_dIndices s \/ in_gridF dims (fp_dIndices s')).
Proof.
  intros g dims coords s code s' GD G It E. assert (G' := G). destruct G' as (RD & Pp & Lt & Li & NF).
  assert (RD' := RD). destruct RD' as (HD & Hh & Hc & Lp & So & Ni).
  assert (R := dims_range dims (proj1 (proj2 HD))).
  destruct (next_steps g dims coords s (nearG_safe _ _ _ G) It) as [H|(jr & sv & info & sv' & steps & new & EJ & ES & ER & L & EN & S & H)].
  { rewrite E in H. injection H as -> ->. split; auto. split; [lia|auto]. }
  destruct H as [(u & X & _)|(code' & s2 & X & ED & CN & SG & ET & SO & EI & _)]; rewrite E in X; [discriminate|]. injection X as <- <-.
  assert (FD := run_doubles _ _ _ _ _ _ GD ER).
  assert (DS : List.Forall fok steps).
  { apply nth_error_Forall. intros k z K.
    assert (Hk : (k < length steps)%nat) by (apply nth_error_Some; congruence).
    destruct (nth_error (fp_dIndices s) k) as [x|] eqn:EX; [|apply nth_error_None in EX; lia].
    destruct (S k x EX) as (dx & K1 & K2). rewrite K in K2. injection K2 as ->.
    apply fok_add; [|rewrite Forall_forall in FD; apply FD; eapply nth_error_In; eauto].
    rewrite Forall_forall in NF. destruct (NF x) as [[V _] _]; [eapply nth_error_In; eauto|]. exact V. }
  assert (GN : in_gridF dims new) by (subst new; apply truncate_grid_fok; auto).
  assert (RD2 : fp_ready dims coords s').
  { unfold same_grid in SG. decompose [and] SG. destruct Hh as (H1' & H2' & H3').
    unfold fp_ready, fp_holds. repeat split; try apply HD; try congruence; auto. }
  split; [|split; [lia|right; rewrite ED; exact GN]].
  split; [exact RD2|]. split; [destruct SG as (_ & _ & _ & _ & _ & EP & _); rewrite <- EP; exact Pp|]. split; [rewrite ET; exact Lt|].
  rewrite ED. split; [symmetry; apply (Forall2_length _ _ _ GN)|]. apply (grid_near dims); auto. apply HD.
Qed.

Lemma loop_near : forall g dims coords fuel s code s', gives_doubles g -> nearG dims coords s -> (0 <= fp_iter s)%Z -> (fp_iter s + Z.of_nat fuel <= int_max)%Z ->
  fp_loop g fuel s = Ret (Some (code, s')) -> nearG dims coords s' /\ (fp_dIndices s' = fp_dIndices s \/ in_gridF dims (fp_dIndices s')).
Proof.
  intros g dims coords. induction fuel as [|fuel IH]; intros s code s' GD G I0 I1 E; [discriminate|].
  cbn [fp_loop] in E. apply bind_ret_inv in E. destruct E as ([c s1] & EN & E). cbn [fst snd] in E.
  destruct (next_near g dims coords s c s1 GD G ltac:(lia) EN) as (G1 & I & Q).
  destruct (c =? 0)%Z.
  - destruct (IH s1 code s' GD G1 ltac:(lia) ltac:(lia) E) as (G2 & Q2). split; auto. destruct Q2 as [Q2|Q2]; [|auto]. rewrite Q2. exact Q.
  - injection E as <- <-. auto.
Qed.

(** A search that is defined ends on the grid or where it began. *)
Lemma search_F : forall g dims coords (f : fp (T:=spec_float)) guess target f1 code f2, gives_doubles g -> fp_ready dims coords f -> List.Forall period_ok (fp_period f) ->
  List.Forall nearF guess -> length guess = length dims -> length target = length dims -> (1 <= fp_nitermax f < int_max)%Z ->
  fp_reset f guess target = Ret f1 -> fp_search g f1 = Ret (code, f2) ->
  twin f f2 /\ (in_gridF dims (fp_dIndices f2) \/ fp_dIndices f2 = guess) /\ List.Forall nearF (fp_dIndices f2) /\ length (fp_dIndices f2) = length dims.
Proof.
  intros g dims coords f guess target f1 code f2 GD F PO NG LG LT NI ER ES. assert (F' := F). destruct F' as (A1 & A2 & A3 & A4 & A5 & A6).
  assert (Hd : fp_dims f = dims) by apply A2. assert (D : fp_dims f <> []) by (rewrite Hd; apply A1). subst dims.
  unfold fp_reset in ER. rewrite !mapM_vget_prefix in ER by auto. cbn [bind] in ER. injection ER as <-.
  set (s := mkFp _ _ _ _ _ _ _ _ _ _ _ _ _ _ _) in *.
  assert (TW0 : twin f s) by (split; [exact D|]; split; [repeat split; unfold s; cbn; congruence|]; split; [exact A5|exact A5]).
  assert (G : nearG (fp_dims f) coords s).
  { split; [apply (ready_twin _ _ f); auto|]. repeat split; auto. }
  unfold fp_search in ES. apply bind_ret_inv in ES. destruct ES as (r & EL & ES). destruct r as [[c s']|].
  - injection ES as <- <-. destruct (fun A B => loop_near g (fp_dims f) coords _ s c s' GD G A B EL) as (G' & Q); [cbn; lia|cbn [fp_iter s]; change (fp_nitermax s) with (fp_nitermax f); unfold int_max in *; lia|].
    assert (TW : twin s s') by (apply (loop_result g _ s (c, s')) in EL; [apply EL|exact D|exact A5]).
    split; [exact (twin_trans f s s' TW0 TW)|]. split; [destruct Q as [Q|Q]; [right; exact Q|left; exact Q]|]. split; apply G'.
  - injection ES as <- <-. split; [exact TW0|]. split; [right; reflexivity|]. split; [exact NG|exact LG].
Qed.

(** ** The index box *)
Definition box_val (b : spec_float * spec_float) : R * R := (fval (fst b), fval (snd b)).

Lemma widen_F : forall m x b, dbl m -> dbl x -> dbl (fst b) -> dbl (snd b) ->
  dbl (fst (fo_widen m x b)) /\ dbl (snd (fo_widen m x b)) /\ box_val (fo_widen m x b) = fo_widen (T := R) (fval m) (fval x) (box_val b).
Proof.
  intros m x [lo hi] Dm Dx D1 D2. cbn [fst snd] in *. destruct zero_val as [ZD ZV]. unfold fo_widen, box_val. cbn [fst snd].
  rewrite !(f_lt x lo), !(f_lt hi x) by auto. cbn [nlt nle NumR]. change (@n0 R _) with 0.
  assert (A : forall v, dbl v -> dbl (if nle n0 v then v else n0) /\ fval (if nle n0 v then v else n0) = if Rleb 0 (fval v) then fval v else 0).
  { intros v Dv. rewrite f_le by auto. rewrite ZV. destruct (Rleb 0 (fval v)); auto. }
  assert (B : forall v, dbl v -> dbl (if nle v m then v else m) /\ fval (if nle v m then v else m) = if Rleb (fval v) (fval m) then fval v else fval m).
  { intros v Dv. rewrite f_le by auto. destruct (Rleb (fval v) (fval m)); auto. }
  destruct (Rltb (fval x) (fval lo)), (Rltb (fval hi) (fval x)).
  - destruct (A x Dx) as [A1 A2], (B x Dx) as [B1 B2]. rewrite A2, B2. auto.
  - destruct (A x Dx) as [A1 A2], (B hi D2) as [B1 B2]. rewrite A2, B2. auto.
  - destruct (A lo D1) as [A1 A2], (B x Dx) as [B1 B2]. rewrite A2, B2. auto.
  - destruct (A lo D1) as [A1 A2], (B hi D2) as [B1 B2]. rewrite A2, B2. auto.
Qed.

Definition positionsF (qs : list (list spec_float)) (j : nat) : list R := map (fun q => fval (nth j q n0)) qs.

Definition axis_boxF (m : R) (qs : list R) (b : spec_float * spec_float) : Prop := dbl (fst b) /\ dbl (snd b) /\ axis_box m qs (box_val b).

Lemma axis_widenF : forall m qs b x, dbl m -> 0 <= fval m -> nearF x -> axis_boxF (fval m) qs b -> axis_boxF (fval m) (qs ++ [fval x]) (fo_widen m x b).
Proof.
  intros m qs b x Dm Pm [Dx Px] (D1 & D2 & A). destruct (widen_F m x b Dm Dx D1 D2) as (W1 & W2 & W3).
  split; auto. split; auto. rewrite W3. apply axis_widen; auto. apply Px.
Qed.

Lemma cent_val : dbl (lit 1 100 : spec_float) /\ 0 < fval (lit 1 100) < 1.
Proof.
  assert (E : (lit 1 100 : spec_float) = S754_finite false 5764607523034235 (-59)) by (vm_compute; reflexivity). rewrite E.
  split; [split; reflexivity|]. unfold fval. cbn [SF2R cond_Zopp]. unfold F2R. simpl Fnum. simpl Fexp.
  change (bpow radix2 (-59)) with (/ IZR (2 ^ 59)). change (2 ^ 59)%Z with 576460752303423488%Z. lra.
Qed.

Lemma floor_ltF : forall x a, (Zfloor x <= a)%Z <-> x < IZR a + 1.
Proof.
  intros x a. split; intros H.
  - apply IZR_le in H. assert (U := Zfloor_ub x). lra.
  - assert (U := Zfloor_lb x). apply Z.lt_succ_r. apply lt_IZR. rewrite succ_IZR. lra.
Qed.

Lemma ceil_gtF : forall x a, (a < Zceil x)%Z <-> IZR a < x.
Proof.
  intros x a. split; intros H.
  - destruct (Rlt_dec (IZR a) x) as [|N]; auto. assert (C := Zceil_glb a x ltac:(lra)). lia.
  - apply lt_IZR. eapply Rlt_le_trans; [exact H|apply Zceil_ub].
Qed.

Lemma add_cent : forall x, dbl x -> 0 <= fval x <= 2147483647 -> dbl (nadd x (lit 1 100)) /\ fval (nadd x (lit 1 100)) = rnd (fval x + fval (lit 1 100)).
Proof. intros x D P. destruct cent_val as [CD CV]. apply f_add; auto. apply small_R. rewrite Rabs_pos_eq; lra. Qed.

Lemma intBoxF : forall d qs b, (2 <= d <= 2 ^ 31 - 1)%Z -> qs <> [] -> List.Forall nearF qs -> axis_boxF (IZR (d - 1)) (map fval qs) b ->
  exists lo hi, fo_intBox d b = Ret (lo, hi) /\ (0 <= lo /\ lo <= hi <= d - 1)%Z /\
  forall a, (0 <= a <= d - 2)%Z -> ((lo <= a < hi)%Z <-> (exists q, In q qs /\ fval q < IZR a + 1) /\ (exists q, In q qs /\ IZR a < fval (nadd q (lit 1 100)))).
Proof.
  intros d qs [lo hi] Hd NE NR (DL & DH & (A1 & A2) & A3 & A4 & A5 & A6). cbn [fst snd box_val] in *. rewrite Forall_forall in NR.
  assert (M := dim_R d Hd). destruct cent_val as [CD CV]. set (c := fval (lit 1 100)) in *.
  assert (IQ : forall q, In q qs -> In (fval q) (map fval qs)) by (intros; apply in_map; auto).
  destruct (add_cent hi DH ltac:(lra)) as [SD SV]. fold c in SV.
  assert (RP : 0 < rnd (fval hi + c)).
  { apply Rlt_le_trans with c; [lra|]. apply Rle_trans with (rnd c); [right; symmetry; apply (rnd_id _ CD)|apply rnd_le; lra]. }
  assert (RU : rnd (fval hi + c) <= IZR d).
  { assert (E1 : IZR d = IZR (d - 1) + 1) by (rewrite minus_IZR; ring). rewrite <- (rnd_Z d) by lia. apply rnd_le. rewrite E1. lra. }
  assert (DU : IZR d <= 2147483647) by (apply IZR_le; lia).
  set (L := Zfloor (fval lo)). set (H := Zceil (rnd (fval hi + c))).
  assert (L0 : (0 <= L)%Z) by (apply Zfloor_lub; lra).
  assert (L1 : (L <= d - 1)%Z) by (apply floor_ltF; lra).
  assert (H0 : (0 < H)%Z) by (apply ceil_gtF; lra).
  assert (H1 : (H <= d)%Z) by (apply Zceil_glb; auto).
  assert (LH : (L <= H)%Z).
  { destruct qs as [|q0 qs']; [congruence|]. assert (Q1 := A3 (fval q0) (or_introl eq_refl)). assert (Q2 := A5 (fval q0) (or_introl eq_refl)).
    assert (fval lo <= fval hi) by (unfold Rmin in Q2; destruct (Rle_dec (fval q0) (IZR (d - 1))); lra).
    apply le_IZR. apply Rle_trans with (fval lo); [apply Zfloor_lb|]. apply Rle_trans with (rnd (fval hi + c)); [|apply Zceil_ub].
    rewrite <- (rnd_id lo DL). apply rnd_le. lra. }
  unfold fo_intBox. cbn [fst snd]. rewrite L_FloatOps.to_int_floor by (auto; lra). cbn [bind]. fold L.
  rewrite to_int_ceil by (auto; rewrite SV; lra). rewrite SV. fold H. cbn [bind].
  rewrite chk_ok by (unfold int_min, int_max; lia). cbn [bind].
  exists L, (Z.min H (d - 1)). split.
  - f_equal. f_equal; [destruct (Z.leb_spec 0 L); lia|destruct (Z.ltb_spec H (d - 1)); lia].
  - split; [lia|]. intros a Ha. assert (AM : IZR a + 1 <= IZR (d - 1)) by (rewrite <- plus_IZR; apply IZR_le; lia).
    assert (A0 : 0 <= IZR a) by (apply IZR_le; lia).
    assert (EL : (L <= a)%Z <-> exists q, In q qs /\ fval q < IZR a + 1).
    { unfold L. rewrite floor_ltF. split; intros X.
      - destruct A4 as [A4|A4]; [lra|]. apply in_map_iff in A4. destruct A4 as (q & E & Iq). exists q. split; auto. rewrite E. lra.
      - destruct X as (q & Iq & Q). specialize (A3 (fval q) (IQ q Iq)). lra. }
    assert (AQ : forall q, In q qs -> fval (nadd q (lit 1 100)) = rnd (fval q + c)).
    { intros q Iq. destruct (NR q Iq) as [D P]. apply add_cent; auto. }
    assert (BIG : forall q, In q qs -> IZR (d - 1) < fval q -> IZR a < fval (nadd q (lit 1 100))).
    { intros q Iq Q. rewrite AQ by auto. apply Rlt_le_trans with (IZR (d - 1)); [lra|]. rewrite <- (rnd_Z (d - 1)) by lia. apply rnd_le. lra. }
    assert (EH : (a < H)%Z <-> exists q, In q qs /\ IZR a < fval (nadd q (lit 1 100))).
    { unfold H. rewrite ceil_gtF. split; intros X.
      - destruct A6 as [A6|(v & Iv & Q)].
        + destruct qs as [|q0 qs']; [congruence|]. exists q0. split; [left; reflexivity|]. rewrite AQ by (left; reflexivity).
          eapply Rlt_le_trans; [exact X|]. apply rnd_le. destruct (NR q0 (or_introl eq_refl)). lra.
        + apply in_map_iff in Iv. destruct Iv as (q & E & Iq). subst v. exists q. split; auto. unfold Rmin in Q. destruct (Rle_dec (fval q) (IZR (d - 1))) as [N|N].
          * rewrite AQ by auto. rewrite <- Q. exact X.
          * apply BIG; auto. lra.
      - destruct X as (q & Iq & Q). specialize (A5 (fval q) (IQ q Iq)). unfold Rmin in A5. destruct (Rle_dec (fval q) (IZR (d - 1))).
        + rewrite AQ in Q by auto. eapply Rlt_le_trans; [exact Q|]. apply rnd_le. lra.
        + apply Rlt_le_trans with (IZR (d - 1)); [lra|]. rewrite <- (rnd_Z (d - 1)) by lia. apply rnd_le. lra. }
    rewrite <- EL, <- EH. lia.
Qed.

(** ** All points *)
Lemma guessF : forall d0 d1, (2 <= d0 <= 2 ^ 31 - 1)%Z -> (2 <= d1 <= 2 ^ 31 - 1)%Z -> List.Forall nearF (fo_guess d0 d1).
Proof.
  assert (K : forall d c, (2 <= d <= 2 ^ 31 - 1)%Z -> dbl c -> 1 <= fval c -> nearF (ndiv (nofZ d) c)).
  { intros d c Hd Dc Pc. destruct (f_ofZ d ltac:(lia)) as [DD DV]. assert (B : 2 <= IZR d <= 2147483647) by (split; apply IZR_le; lia).
    assert (Q : 0 <= IZR d / fval c <= IZR d).
    { assert (I : 0 < / fval c <= 1) by (split; [apply Rinv_0_lt_compat; lra|rewrite <- Rinv_1; apply Rinv_le; lra]). unfold Rdiv. split; nra. }
    destruct (f_div (nofZ d) c DD Dc ltac:(lra)) as [E1 E2]; [rewrite DV; apply small_R; rewrite Rabs_pos_eq; lra|].
    split; auto. rewrite E2, DV. split.
    - rewrite <- (rnd_Z 0) by lia. apply rnd_le. apply Q.
    - apply Rle_trans with (rnd (IZR d)); [apply rnd_le; apply Q|rewrite rnd_Z by lia; lra]. }
  intros d0 d1 H0 H1. unfold fo_guess. constructor; [|constructor; [|constructor]]; apply K; auto.
  - assert (E : (lit 2123353 (10 ^ 6) : spec_float) = S754_finite false 4781365889788012 (-51)) by (vm_compute; reflexivity). rewrite E. split; reflexivity.
  - assert (E : (lit 2123353 (10 ^ 6) : spec_float) = S754_finite false 4781365889788012 (-51)) by (vm_compute; reflexivity). rewrite E. unfold fval. cbn [SF2R cond_Zopp]. unfold F2R. simpl Fnum. simpl Fexp.
    change (bpow radix2 (-51)) with (/ IZR (2 ^ 51)). change (2 ^ 51)%Z with 2251799813685248%Z. lra.
  - assert (E : (lit 19647354 (10 ^ 7) : spec_float) = S754_finite false 8848381615321622 (-52)) by (vm_compute; reflexivity). rewrite E. split; reflexivity.
  - assert (E : (lit 19647354 (10 ^ 7) : spec_float) = S754_finite false 8848381615321622 (-52)) by (vm_compute; reflexivity). rewrite E. unfold fval. cbn [SF2R cond_Zopp]. unfold F2R. simpl Fnum. simpl Fexp.
    change (bpow radix2 (-52)) with (/ IZR (2 ^ 52)). change (2 ^ 52)%Z with 4503599627370496%Z. lra.
Qed.

Lemma points_F : forall g d0 d1 coords (f0 : fp (T:=spec_float)) poly, gives_doubles g -> fp_ready [d0; d1] coords f0 -> List.Forall period_ok (fp_period f0) -> (1 <= fp_nitermax f0 < int_max)%Z ->
  forall rest k f b0 b1 qs f' b0' b1', skipn k poly = rest -> twin f0 f ->
  axis_boxF (IZR (d0 - 1)) (positionsF qs 0) b0 -> axis_boxF (IZR (d1 - 1)) (positionsF qs 1) b1 ->
  foldM (fo_point g d0 d1 (nofZ (d0 - 1)) (nofZ (d1 - 1)) (flat_points poly)) (map Z.of_nat (seq k (length rest))) (f, (b0, b1)) = Ret (f', (b0', b1')) ->
  exists qs', twin f0 f' /\
    Forall2 (found g f0 (fo_guess d0 d1)) rest qs' /\ List.Forall (fun q => (in_gridF [d0; d1] q \/ q = fo_guess d0 d1) /\ List.Forall nearF q /\ length q = 2%nat) qs' /\
    axis_boxF (IZR (d0 - 1)) (positionsF (qs ++ qs') 0) b0' /\ axis_boxF (IZR (d1 - 1)) (positionsF (qs ++ qs') 1) b1'.
Proof.
  intros g d0 d1 coords f0 poly GD F0 PO NI. induction rest as [|[x y] rest IH]; intros k f b0 b1 qs f' b0' b1' SK TW B0 B1 E.
  - injection E as <- <- <-. exists []. rewrite app_nil_r. split; [exact TW|]. split; [constructor|]. split; [constructor|]. split; assumption.
  - assert (F := ready_twin _ _ _ _ F0 TW). assert (HD := F). destruct HD as (HD & HH & _). assert (Hok : grid_ok [d0; d1]) by apply HD.
    assert (D0 := dims_ge2 [d0; d1] 0 Hok ltac:(simpl; lia)). assert (D1 := dims_ge2 [d0; d1] 1 Hok ltac:(simpl; lia)). cbn [nth] in D0, D1.
    assert (NIf : fp_nitermax f = fp_nitermax f0) by (destruct TW as (_ & G & _); symmetry; apply G).
    assert (POf : List.Forall period_ok (fp_period f)) by (destruct TW as (_ & G & _); destruct G as (_ & _ & _ & _ & _ & EP & _); rewrite <- EP; exact PO).
    cbn [length seq map foldM] in E. apply bind_ret_inv in E. destruct E as ([f2 [c0 c1]] & E1 & E).
    unfold fo_point in E1 at 1. cbn [fst snd] in E1.
    replace (Z.to_nat (Z.of_nat k * 2)) with (2 * k)%nat in E1 by lia. rewrite flat_skip, SK in E1. cbn [flat_points flat_map app fst snd] in E1.
    assert (LD : length (fp_dims f) = 2%nat) by (destruct HH as (-> & _); reflexivity).
    rewrite reset_prefix in E1 by auto. apply bind_ret_inv in E1. destruct E1 as (f1 & ER & E1). apply bind_ret_inv in E1. destruct E1 as ([code f2'] & ES & E1). cbn [snd] in E1.
    destruct (search_F g [d0; d1] coords f (fo_guess d0 d1) [x; y] f1 code f2' GD F POf (guessF d0 d1 D0 D1) eq_refl eq_refl ltac:(lia) ER ES) as (TW2 & IG & NR & L2).
    remember (fp_dIndices f2') as q eqn:EQ. destruct q as [|qx [|qy [|]]]; try discriminate L2. rewrite vget2_0, vget2_1 in E1. cbn [bind] in E1. injection E1 as <- <- <-.
    destruct (dim_val d0 ltac:(lia)) as [DD0 DV0]. destruct (dim_val d1 ltac:(lia)) as [DD1 DV1]. rewrite wrap64_small in DD0, DV0, DD1, DV1 by lia.
    assert (M0 : 0 <= IZR (d0 - 1)) by (apply IZR_le; lia). assert (M1 : 0 <= IZR (d1 - 1)) by (apply IZR_le; lia).
    assert (NR' := NR). apply Forall_cons_iff in NR'. destruct NR' as [NX NY]. apply Forall_cons_iff in NY. destruct NY as [NY _].
    destruct (IH (S k) f2' (fo_widen (nofZ (d0 - 1)) qx b0) (fo_widen (nofZ (d1 - 1)) qy b1) (qs ++ [[qx; qy]]) f' b0' b1') as (qs' & A2 & A4 & A5 & A6 & A7).
    + clear - SK. revert poly SK. induction k as [|k IHk]; intros poly SK; [cbn [skipn] in *; rewrite SK; reflexivity|]. destruct poly as [|p poly]; [discriminate|]. apply IHk. exact SK.
    + exact (twin_trans _ _ _ TW TW2).
    + unfold positionsF. rewrite map_app. cbn [map nth]. rewrite <- DV0 in *. apply axis_widenF; auto.
    + unfold positionsF. rewrite map_app. cbn [map nth]. rewrite <- DV1 in *. apply axis_widenF; auto.
    + exact E.
    + exists ([qx; qy] :: qs'). split; auto. split.
      { constructor; auto. apply (twin_search g f f0); [apply twin_sym; exact TW|]. exists f1, code, f2'. auto. }
      split; [constructor; auto|]. rewrite <- app_assoc in A6, A7. auto.
Qed.

(** The whole search on an object that has searched before. *)
Theorem find_cells_F : forall g d0 d1 coords poly (s s' : fo spec_float) f0, gives_doubles g -> fp_ready [d0; d1] coords f0 -> List.Forall period_ok (fp_period f0) -> (1 <= fp_nitermax f0 < int_max)%Z ->
  fo_nodeDims s = [d0; d1] -> fo_prodDims s = [d1; 1%Z] -> twin f0 (fo_finder s) -> (d0 * d1 <= int_max)%Z ->
  fo_points s = flat_points poly -> fo_numPoints s = Some (Z.of_nat (length poly)) -> poly <> [] ->
  fo_findSrcCellIndices g s = Ret s' ->
  exists qs, fo_nodeDims s' = [d0; d1] /\ fo_prodDims s' = [d1; 1%Z] /\ twin f0 (fo_finder s') /\
    Forall2 (found g f0 (fo_guess d0 d1)) poly qs /\ List.Forall (fun q => (in_gridF [d0; d1] q \/ q = fo_guess d0 d1) /\ List.Forall nearF q /\ length q = 2%nat) qs /\
    NoDup (fo_cells s') /\
    (forall k, In k (fo_cells s') <-> exists a b, k = (a * d1 + b)%Z /\ (0 <= a <= d0 - 2)%Z /\ (0 <= b <= d1 - 2)%Z /\
       ((exists q, In q qs /\ fval (nth 0 q n0) < IZR a + 1) /\ (exists q, In q qs /\ IZR a < fval (nadd (nth 0 q n0) (lit 1 100)))) /\
       ((exists q, In q qs /\ fval (nth 1 q n0) < IZR b + 1) /\ (exists q, In q qs /\ IZR b < fval (nadd (nth 1 q n0) (lit 1 100))))).
Proof.
  intros g d0 d1 coords poly s s' f0 GD F0 PO NI ED EP TW DM EPT EN NE RUN.
  assert (HD : grid_data [d0; d1] coords) by apply F0. assert (Hok : grid_ok [d0; d1]) by apply HD.
  assert (D0 := dims_ge2 [d0; d1] 0 Hok ltac:(simpl; lia)). assert (D1 := dims_ge2 [d0; d1] 1 Hok ltac:(simpl; lia)). cbn [nth] in D0, D1.
  unfold fo_findSrcCellIndices, fo_indexBox in RUN. rewrite ED, EN, EPT, EP in RUN.
  rewrite !vget2_0, !vget2_1 in RUN. cbn [bind] in RUN.
  rewrite (chk_ok (d0 - 1)) in RUN by (unfold int_min, int_max; lia). cbn [bind] in RUN. rewrite (chk_ok (d1 - 1)) in RUN by (unfold int_min, int_max; lia). cbn [bind] in RUN.
  assert (M0 : 0 <= IZR (d0 - 1)) by (apply IZR_le; lia). assert (M1 : 0 <= IZR (d1 - 1)) by (apply IZR_le; lia).
  assert (AB : forall d, (2 <= d <= 2 ^ 31 - 1)%Z -> axis_boxF (IZR (d - 1)) [] (nofZ (d - 1), n0)).
  { intros d Hd. assert (B := dim_R d Hd). destruct (f_ofZ (d - 1) ltac:(lia)) as [DD DV]. destruct zero_val as [ZD ZV]. split; [exact DD|]. split; [exact ZD|].
    unfold axis_box, box_val. cbn [fst snd]. rewrite DV, ZV. split; [lra|]. split; [intros q []|]. split; [auto|]. split; [intros q []|auto]. }
  assert (RG : range (Z.of_nat (length poly)) = map Z.of_nat (seq 0 (length poly))) by (unfold range, zseq; rewrite Nat2Z.id; reflexivity).
  rewrite RG in RUN. apply bind_ret_inv in RUN. destruct RUN as ([f' [b0 b1]] & E & RUN). cbn [fst snd] in RUN.
  destruct (points_F g d0 d1 coords f0 poly GD F0 PO NI poly 0 (fo_finder s) _ _ [] f' b0 b1 eq_refl TW (AB d0 D0) (AB d1 D1) E)
    as (qs & TW' & FO & IG & B0 & B1).
  cbn [app] in B0, B1.
  assert (QN : qs <> []) by (inversion FO; subst; congruence).
  assert (NRJ : forall j, (j < 2)%nat -> List.Forall nearF (map (fun q => nth j q n0) qs)).
  { intros j Hj. apply Forall_forall. intros x Hx. apply in_map_iff in Hx. destruct Hx as (q & <- & Iq). rewrite Forall_forall in IG. destruct (IG q Iq) as (_ & NQ & LQ).
    rewrite Forall_forall in NQ. apply NQ. apply nth_In. lia. }
  assert (NE' : forall j : nat, map (fun q => nth j q n0) qs <> []) by (intros j C; destruct qs; [congruence|discriminate]).
  assert (PM : forall j, positionsF qs j = map fval (map (fun q => nth j q n0) qs)) by (intros j; unfold positionsF; rewrite map_map; reflexivity).
  rewrite PM in B0, B1.
  destruct (intBoxF d0 _ b0 D0 (NE' 0%nat) (NRJ 0%nat ltac:(lia)) B0) as (a0 & h0 & E0 & R0 & I0).
  destruct (intBoxF d1 _ b1 D1 (NE' 1%nat) (NRJ 1%nat ltac:(lia)) B1) as (a1 & h1 & E1 & R1 & I1).
  rewrite E0, E1 in RUN. cbn [bind fst snd] in RUN.
  destruct (fo_cells_ok d0 d1 a0 a1 h0 h1) as (it & EB & EM); auto; try lia. rewrite EB in RUN. cbn [bind] in RUN. rewrite EM in RUN. cbn [bind] in RUN. injection RUN as <-.
  exists qs. cbn [fo_nodeDims fo_prodDims fo_finder fo_cells]. split; [reflexivity|]. split; [reflexivity|]. split; [exact TW'|]. split; [exact FO|]. split; [exact IG|].
  split; [apply box_cells_NoDup; lia|]. intros k. rewrite box_cells_in by lia.
  assert (PQ : forall j (P : spec_float -> Prop), (exists q, In q (map (fun q => nth j q n0) qs) /\ P q) <-> exists q, In q qs /\ P (nth j q n0)).
  { intros j P. split.
    - intros (x & I & Px). apply in_map_iff in I. destruct I as (q & <- & Iq). eauto.
    - intros (q & Iq & Pq). exists (nth j q n0). split; auto. apply in_map_iff. eauto. }
  assert (J : forall j lo hi a, ((lo <= a < hi)%Z <-> (exists q, In q (map (fun q => nth j q n0) qs) /\ fval q < IZR a + 1) /\ (exists q, In q (map (fun q => nth j q n0) qs) /\ IZR a < fval (nadd q (lit 1 100)))) ->
    ((lo <= a < hi)%Z <-> (exists q, In q qs /\ fval (nth j q n0) < IZR a + 1) /\ (exists q, In q qs /\ IZR a < fval (nadd (nth j q n0) (lit 1 100))))).
  { intros j lo hi a Q. rewrite Q. rewrite (PQ j (fun q => fval q < IZR a + 1)), (PQ j (fun q => IZR a < fval (nadd q (lit 1 100)))). reflexivity. }
  split; intros (a & b & -> & X).
  - exists a, b. split; [lia|]. split; [lia|]. split; [lia|]. split; [apply (J _ _ _ _ (I0 a ltac:(lia)))|apply (J _ _ _ _ (I1 b ltac:(lia)))]; lia.
  - exists a, b. split; [lia|]. destruct X as (Xa & Xb & X0 & X1). apply (J _ _ _ _ (I0 a ltac:(lia))) in X0. apply (J _ _ _ _ (I1 b ltac:(lia))) in X1. lia.
Qed.
