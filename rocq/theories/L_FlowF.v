(** Projections and flow interpolation in IEEE double arithmetic. *)
From Coq Require Import ZArith List Bool Reals Lra Lia Floats.SpecFloat.
From Flocq Require Import Core BinarySingleNaN.
From Verif Require Import Base Num NumR NumF M_BoxIterator M_LinearSolve M_FindPoint M_Triangulate M_Quad M_QuadLine M_FlowInterp S_LinAlg S_Geometry S_Quad S_Grid S_Flow S_Interp
  L_LinearSolve L_Interp L_FindPoint L_FindPointB L_FindPointR L_NodeInterp L_NodeInterpR L_Float L_FloatOps L_FindPointF L_FindOverlapF L_NodeInterpF L_Defined L_FlowInterp L_FlowTwin.
Import ListNotations.
Open Scope R_scope.

(** ** Searches *)
Definition unitF (x : spec_float) : Prop := dbl x /\ 0 <= fval x <= 1.

Lemma find_unit : forall g q (f : fp (T:=spec_float)) p, gives_finite g -> readyP [2; 2]%Z (quad_grid q) f ->
  exists code x y f', qf_find g f p = Ret (code, [x; y], f') /\ readyP [2; 2]%Z (quad_grid q) f' /\ twin f f' /\ unitF x /\ unitF y.
Proof.
  intros g q f p GF [F PO]. destruct half_val as [HD HV].
  assert (NH : nearF nhalf) by (split; [exact HD|rewrite HV; lra]).
  assert (NG : List.Forall nearF [nhalf; nhalf]) by (constructor; [exact NH|constructor; [exact NH|constructor]]).
  destruct (search_def g [2; 2]%Z (quad_grid q) f [nhalf; nhalf] [fst p; snd p] GF F PO NG eq_refl eq_refl) as (f1 & code & f2 & E1 & E2 & TW & G).
  assert (GI : in_gridF [2; 2]%Z [nhalf; nhalf]).
  { assert (K : on_axis 2 (nhalf : spec_float)) by (split; [exact HD|rewrite HV; change (IZR (2 - 1)) with 1; lra]). constructor; [exact K|]. constructor; [exact K|constructor]. }
  assert (IG : in_gridF [2; 2]%Z (fp_dIndices f2)).
  { assert (E1' := E1). unfold fp_reset in E1. assert (F' := F). destruct F' as (A1 & A2 & A3 & A4 & A5 & A6). assert (Hd : fp_dims f = [2; 2]%Z) by apply A2.
    rewrite !mapM_vget_prefix in E1 by (rewrite Hd; reflexivity). cbn [bind] in E1. injection E1 as E1.
    assert (G1 : nearG [2; 2]%Z (quad_grid q) f1).
    { rewrite <- E1. split; [apply (ready_twin _ _ f); auto; split; [rewrite Hd; discriminate|]; split; [repeat split|]; split; exact A5|]. repeat split; auto. }
    unfold fp_search in E2. apply bind_ret_inv in E2. destruct E2 as (r & E2 & E3).
    destruct r as [r|]; [injection E3 as ->|injection E3 as _ E3; rewrite <- E3, <- E1; exact GI].
    assert (I0 : fp_iter f1 = 0%Z) by (rewrite <- E1; reflexivity). assert (NI : fp_nitermax f1 = fp_nitermax f) by (rewrite <- E1; reflexivity).
    assert (EI : fp_dIndices f1 = [nhalf; nhalf]) by (rewrite <- E1; reflexivity).
    destruct (Z_le_gt_dec (fp_nitermax f) (int_max - 1)) as [L|L].
    - destruct (loop_near g [2; 2]%Z (quad_grid q) (S (Z.to_nat (fp_nitermax f1))) f1 code f2 (finite_doubles g GF) G1 ltac:(lia) ltac:(rewrite NI; unfold int_max in *; lia) E2) as (_ & [Q|Q]); [rewrite Q, EI; exact GI|exact Q].
    - set (m := Z.to_nat (Z.max 1 (fp_nitermax f))).
      destruct (loop_def g m [2; 2]%Z (quad_grid q) f1 GF G1 ltac:(lia) ltac:(unfold m, int_max in *; lia)) as (r & E).
      destruct r as [r|].
      + assert (E4 := loop_mono g m f1 r E (S (Z.to_nat (fp_nitermax f1))) ltac:(rewrite NI; unfold m, int_max in *; lia)). rewrite E2 in E4. injection E4 as <-.
        destruct (loop_near g [2; 2]%Z (quad_grid q) m f1 code f2 (finite_doubles g GF) G1 ltac:(lia) ltac:(unfold m, int_max in *; lia) E) as (_ & [Q|Q]); [rewrite Q, EI; exact GI|exact Q].
      + exfalso. revert E. apply loop_terminates; unfold m; [lia|]. rewrite NI, I0. lia. }
  inversion IG as [|d x ds xs Hx IG' Q1 Q2]; subst. inversion IG' as [|d y ds ys Hy IG'' Q3 Q4]; subst. inversion IG''; subst.
  exists code, x, y, f2. unfold qf_find. rewrite E1. cbn [bind]. rewrite E2. cbn [bind fst snd]. rewrite <- Q2. split; [reflexivity|].
  split; [apply (readyP_twin _ _ f); auto; split; auto|]. split; [exact TW|].
  destruct Hx as [Dx Px], Hy as [Dy Py]. split; split; auto.
Qed.

(** What every finder of SgQuadLineFlows satisfies. *)
Definition finderF (f : fp (T:=spec_float)) : Prop := List.Forall period_ok (fp_period f) /\ fp_nitermax f = 10%Z /\ fp_tolpos f = lit 1 (10 ^ 10).

Lemma newF : finderF (qf_finder (qf_new (T := spec_float))).
Proof. repeat split. constructor. Qed.

Lemma setF : forall f q, finderF f -> exists f', fp_setGrid f [2; 2]%Z [0; 0]%Z (quad_grid q) = Ret f' /\ readyP [2; 2]%Z (quad_grid q) f' /\ finderF f'.
Proof.
  intros f q (I1 & I2 & I3).
  destruct (setGrid_ok f [2; 2]%Z [0; 0]%Z (quad_grid q) (quad_data q)) as (f' & E & H1 & H2 & H3 & H4 & H5 & H6 & H7 & H8 & H9 & H10 & _).
  assert (P : List.Forall period_ok (fp_period f')) by (rewrite H8; apply periods_ok; [apply resize_periods; auto|repeat constructor; lia]).
  exists f'. split; auto. split; [|unfold finderF; rewrite H9, H10; auto]. split; [|exact P].
  unfold fp_ready. split; [apply quad_data|]. repeat (split; [assumption|]). rewrite H9, I2. unfold int_max. lia.
Qed.

Lemma finderF_twin : forall f f', twin f f' -> finderF f -> finderF f'.
Proof.
  intros f f' (_ & G & _) (A & B & C). assert (E1 : fp_period f = fp_period f') by apply G. assert (E2 : fp_nitermax f = fp_nitermax f') by apply G. assert (E3 : fp_tolpos f = fp_tolpos f') by apply G.
  unfold finderF. rewrite <- E1, <- E2, <- E3. auto.
Qed.

(** ** The projections *)
Lemma rnd_in : forall a b x, (Z.abs a <= 2 ^ 53)%Z -> (Z.abs b <= 2 ^ 53)%Z -> IZR a <= x <= IZR b -> IZR a <= rnd x <= IZR b.
Proof. intros a b x Ha Hb [H1 H2]. rewrite <- (rnd_Z a Ha) at 1. rewrite <- (rnd_Z b Hb) at 1. split; apply rnd_le; auto. Qed.

Lemma sub_unit : forall a b, unitF a -> unitF b -> dbl (nsub a b) /\ fval (nsub a b) = rnd (fval a - fval b) /\ Rabs (fval (nsub a b)) <= 1.
Proof.
  intros a b [Da Pa] [Db Pb]. destruct (f_sub a b Da Db) as [D V]; [apply small_R; apply Rabs_le; lra|]. split; auto. split; auto. rewrite V.
  apply Rabs_le. apply (rnd_in (-1) 1); try lia. lra.
Qed.

Lemma mid_unit : forall a b, unitF a -> unitF b -> unitF (nmul nhalf (nadd a b)) /\ fval (nmul nhalf (nadd a b)) = rnd (1 / 2 * rnd (fval a + fval b)).
Proof.
  intros a b [Da Pa] [Db Pb]. destruct half_val as [HD HV].
  destruct (f_add a b Da Db) as [D V]; [apply small_R; apply Rabs_le; lra|].
  assert (B : 0 <= rnd (fval a + fval b) <= 2) by (apply (rnd_in 0 2); try lia; lra).
  destruct (f_mul nhalf (nadd a b) HD D) as [D2 V2]; [apply small_R; rewrite HV, V; apply Rabs_le; lra|].
  rewrite HV, V in V2. split; [|exact V2]. split; auto. rewrite V2. apply (rnd_in 0 1); try lia. lra.
Qed.

Lemma co_unit : forall a, unitF a -> unitF (nsub n1 a) /\ fval (nsub n1 a) = rnd (1 - fval a).
Proof.
  intros a [Da Pa]. destruct one_val as [OD OV]. destruct (f_sub n1 a OD Da) as [D V]; [apply small_R; rewrite OV; apply Rabs_le; lra|].
  rewrite OV in V. split; [|exact V]. split; auto. rewrite V. apply (rnd_in 0 1); try lia. lra.
Qed.

Lemma mul_unit : forall d m, dbl d -> Rabs (fval d) <= 1 -> unitF m -> dbl (nmul d m) /\ fval (nmul d m) = rnd (fval d * fval m) /\ Rabs (fval (nmul d m)) <= 1 /\
  (0 <= fval d -> 0 <= fval (nmul d m)) /\ (fval d <= 0 -> fval (nmul d m) <= 0).
Proof.
  intros d m Dd Bd [Dm Pm]. assert (B : Rabs (fval d * fval m) <= 1) by (rewrite Rabs_mult, (Rabs_pos_eq (fval m)) by lra; assert (0 <= Rabs (fval d)) by apply Rabs_pos; nra).
  destruct (f_mul d m Dd Dm) as [D V]; [apply small_R; lra|]. split; auto. split; auto. rewrite V. apply Rabs_le_inv in B.
  assert (R0 := rnd_Z 0 ltac:(lia)). split; [|split].
  - apply Rabs_le. apply (rnd_in (-1) 1); try lia. lra.
  - intros P. rewrite <- R0. apply rnd_le. nra.
  - intros P. rewrite <- R0. apply rnd_le. nra.
Qed.

Lemma rnd_near : forall x, Rabs x <= 2 -> Rabs (rnd x - x) <= uround * Rabs x + / 1152921504606846976.
Proof. intros x H. assert (E := rnd_error x). assert (T := etiny_lt). lra. Qed.

(** One projection: bounded by 1, within 6 roundings of the exact product. *)
Lemma proj_near : forall d d0 m m0 e, Rabs (d - d0) <= uround + / 1152921504606846976 -> Rabs d <= 1 -> Rabs d0 <= 1 -> 0 <= m <= 1 -> 0 <= m0 <= 1 ->
  Rabs (m - m0) <= e -> Rabs (rnd (d * m) - d0 * m0) <= e + 2 * uround + 2 * / 1152921504606846976.
Proof.
  intros d d0 m m0 e E1 B1 B2 B3 B4 E2.
  assert (B : Rabs (d * m) <= 1) by (rewrite Rabs_mult, (Rabs_pos_eq m) by lra; assert (0 <= Rabs d) by apply Rabs_pos; nra).
  assert (E := rnd_near (d * m) ltac:(lra)).
  replace (rnd (d * m) - d0 * m0) with ((rnd (d * m) - d * m) + ((d - d0) * m + d0 * (m - m0))) by ring.
  eapply Rle_trans; [apply Rabs_triang|]. assert (F : Rabs ((d - d0) * m + d0 * (m - m0)) <= uround + / 1152921504606846976 + e).
  { eapply Rle_trans; [apply Rabs_triang|]. rewrite !Rabs_mult, (Rabs_pos_eq m) by lra. assert (0 <= Rabs (d - d0)) by apply Rabs_pos. assert (0 <= Rabs d0) by apply Rabs_pos. assert (0 <= Rabs (m - m0)) by apply Rabs_pos. nra. }
  assert (U : uround * Rabs (d * m) <= uround) by (unfold uround; lra). lra.
Qed.

Lemma diff_near : forall a b, unitF a -> unitF b -> Rabs (rnd (fval a - fval b) - (fval a - fval b)) <= uround + / 1152921504606846976.
Proof.
  intros a b [_ Pa] [_ Pb]. assert (B : Rabs (fval a - fval b) <= 1) by (apply Rabs_le; lra). assert (E := rnd_near (fval a - fval b) ltac:(lra)).
  assert (U : uround * Rabs (fval a - fval b) <= uround) by (unfold uround; lra). lra.
Qed.

Lemma mid_near : forall a b, unitF a -> unitF b -> Rabs (rnd (1 / 2 * rnd (fval a + fval b)) - (fval a + fval b) / 2) <= 2 * uround + 2 * / 1152921504606846976.
Proof.
  intros a b [_ Pa] [_ Pb]. set (s := fval a + fval b) in *.
  assert (S1 : 0 <= s <= 2) by (unfold s; lra).
  assert (B : 0 <= rnd s <= 2) by (apply (rnd_in 0 2); try lia; lra).
  assert (E1 := rnd_near s ltac:(rewrite Rabs_pos_eq; lra)). assert (E2 := rnd_near (1 / 2 * rnd s) ltac:(rewrite Rabs_pos_eq; lra)).
  rewrite (Rabs_pos_eq s) in E1 by lra. rewrite (Rabs_pos_eq (1 / 2 * rnd s)) in E2 by lra. apply Rabs_le_inv in E1, E2. unfold uround in *. apply Rabs_le. lra.
Qed.

(** The four projections. *)
Theorem projections_F : forall xa ya xb yb w0 w1 w2 w3, unitF xa -> unitF ya -> unitF xb -> unitF yb -> projections xa ya xb yb = (w0, w1, w2, w3) ->
  (forall w, In w [w0; w1; w2; w3] -> dbl w /\ Rabs (fval w) <= 1) /\ 0 <= fval w0 * fval w1 /\ 0 <= fval w2 * fval w3 /\
  Rabs (fval w0 - (fval xb - fval xa) * (1 - (fval ya + fval yb) / 2)) <= 6 * uround /\
  Rabs (fval w1 - (fval xb - fval xa) * ((fval ya + fval yb) / 2)) <= 6 * uround /\
  Rabs (fval w2 - (fval yb - fval ya) * (1 - (fval xa + fval xb) / 2)) <= 6 * uround /\
  Rabs (fval w3 - (fval yb - fval ya) * ((fval xa + fval xb) / 2)) <= 6 * uround.
Proof.
  assert (K : forall a b d, unitF a -> unitF b -> dbl d -> Rabs (fval d) <= 1 -> forall d0, Rabs (fval d - d0) <= uround + / 1152921504606846976 -> Rabs d0 <= 1 ->
    let m := nmul nhalf (nadd a b) in let w := nmul d (nsub n1 m) in let w' := nmul d m in
    (dbl w /\ Rabs (fval w) <= 1) /\ (dbl w' /\ Rabs (fval w') <= 1) /\ 0 <= fval w * fval w' /\
    Rabs (fval w - d0 * (1 - (fval a + fval b) / 2)) <= 6 * uround /\ Rabs (fval w' - d0 * ((fval a + fval b) / 2)) <= 6 * uround).
  { intros a b d Ua Ub Dd Bd d0 E0 B0 m w w'. destruct (mid_unit a b Ua Ub) as [Um Vm]. fold m in Um, Vm. destruct (co_unit m Um) as [Uc Vc].
    destruct (mul_unit d (nsub n1 m) Dd Bd Uc) as (D1 & V1 & B1 & P1 & Q1). destruct (mul_unit d m Dd Bd Um) as (D2 & V2 & B2 & P2 & Q2).
    fold w in D1, V1, B1, P1, Q1. fold w' in D2, V2, B2, P2, Q2. split; auto. split; auto.
    assert (E := mid_near a b Ua Ub). rewrite <- Vm in E. assert (Pa := proj2 Ua). assert (Pb := proj2 Ub). assert (Pm := proj2 Um). assert (Pc := proj2 Uc).
    split; [destruct (Rle_dec 0 (fval d)) as [L|L]; [specialize (P1 L); specialize (P2 L); nra|assert (L' : fval d <= 0) by lra; specialize (Q1 L'); specialize (Q2 L'); nra]|].
    assert (EC : Rabs (fval (nsub n1 m) - (1 - (fval a + fval b) / 2)) <= 3 * uround + 3 * / 1152921504606846976).
    { assert (E1 := rnd_near (1 - fval m) ltac:(rewrite Rabs_pos_eq; lra)). rewrite <- Vc, (Rabs_pos_eq (1 - fval m)) in E1 by lra. apply Rabs_le_inv in E1, E. apply Rabs_le. unfold uround in *. lra. }
    rewrite V1, V2. split.
    - eapply Rle_trans; [apply (proj_near (fval d) d0 _ (1 - (fval a + fval b) / 2) _ E0 Bd B0 Pc ltac:(lra) EC)|]. unfold uround. lra.
    - eapply Rle_trans; [apply (proj_near (fval d) d0 _ ((fval a + fval b) / 2) _ E0 Bd B0 Pm ltac:(lra) E)|]. unfold uround. lra. }
  intros xa ya xb yb w0 w1 w2 w3 Ua Va Ub Vb H. unfold projections in H. injection H as <- <- <- <-.
  destruct (sub_unit xb xa Ub Ua) as (D1 & V1 & B1). destruct (sub_unit yb ya Vb Va) as (D2 & V2 & B2).
  assert (E1 := diff_near xb xa Ub Ua). assert (E2 := diff_near yb ya Vb Va). rewrite <- V1 in E1. rewrite <- V2 in E2.
  assert (S1 : Rabs (fval xb - fval xa) <= 1) by (destruct Ua, Ub; apply Rabs_le; lra). assert (S2 : Rabs (fval yb - fval ya) <= 1) by (destruct Va, Vb; apply Rabs_le; lra).
  destruct (K ya yb (nsub xb xa) Va Vb D1 B1 (fval xb - fval xa) E1 S1) as (X1 & X2 & X3 & X4 & X5).
  destruct (K xa xb (nsub yb ya) Ua Ub D2 B2 (fval yb - fval ya) E2 S2) as (Y1 & Y2 & Y3 & Y4 & Y5).
  split; [intros w [<-|[<-|[<-|[<-|[]]]]]; auto|]. repeat (split; [assumption|]). assumption.
Qed.

(** Exchanging the ends changes the sign and nothing else. *)
Theorem projections_rev : forall xa ya xb yb w0 w1 w2 w3 v0 v1 v2 v3, unitF xa -> unitF ya -> unitF xb -> unitF yb ->
  projections xa ya xb yb = (w0, w1, w2, w3) -> projections xb yb xa ya = (v0, v1, v2, v3) ->
  fval v0 = - fval w0 /\ fval v1 = - fval w1 /\ fval v2 = - fval w2 /\ fval v3 = - fval w3.
Proof.
  intros xa ya xb yb w0 w1 w2 w3 v0 v1 v2 v3 Ua Va Ub Vb H H'. unfold projections in H, H'. injection H as <- <- <- <-. injection H' as <- <- <- <-.
  assert (K : forall a b d d', unitF a -> unitF b -> dbl d -> dbl d' -> Rabs (fval d) <= 1 -> Rabs (fval d') <= 1 -> fval d' = - fval d ->
    fval (nmul d' (nsub n1 (nmul nhalf (nadd b a)))) = - fval (nmul d (nsub n1 (nmul nhalf (nadd a b)))) /\ fval (nmul d' (nmul nhalf (nadd b a))) = - fval (nmul d (nmul nhalf (nadd a b)))).
  { intros a b d d' A B D D' B1 B2 E. destruct (mid_unit a b A B) as [U V]. destruct (mid_unit b a B A) as [U' V'].
    assert (EM : fval (nmul nhalf (nadd b a)) = fval (nmul nhalf (nadd a b))) by (rewrite V, V'; f_equal; f_equal; f_equal; ring).
    destruct (co_unit _ U) as [UC VC]. destruct (co_unit _ U') as [UC' VC'].
    assert (EC : fval (nsub n1 (nmul nhalf (nadd b a))) = fval (nsub n1 (nmul nhalf (nadd a b)))) by (rewrite VC, VC', EM; reflexivity).
    destruct (mul_unit d _ D B1 UC) as (_ & -> & _). destruct (mul_unit d _ D B1 U) as (_ & -> & _).
    destruct (mul_unit d' _ D' B2 UC') as (_ & -> & _). destruct (mul_unit d' _ D' B2 U') as (_ & -> & _).
    rewrite EC, EM, E, <- !rnd_opp. split; f_equal; ring. }
  assert (S : forall a b, unitF a -> unitF b -> fval (nsub a b) = - fval (nsub b a)).
  { intros a b A B. destruct (sub_unit a b A B) as (_ & -> & _). destruct (sub_unit b a B A) as (_ & -> & _). rewrite <- rnd_opp. f_equal. ring. }
  destruct (sub_unit xb xa Ub Ua) as (D1 & _ & B1). destruct (sub_unit yb ya Vb Va) as (D2 & _ & B2).
  destruct (sub_unit xa xb Ua Ub) as (D3 & _ & B3). destruct (sub_unit ya yb Va Vb) as (D4 & _ & B4).
  destruct (K ya yb _ _ Va Vb D1 D3 B1 B3 (S xa xb Ua Ub)) as [X1 X2]. destruct (K xa xb _ _ Ua Ub D2 D4 B2 B4 (S ya yb Va Vb)) as [X3 X4]. auto.
Qed.

(** ** Distances *)
Definition pv (p : pt spec_float) : point := (fval (fst p), fval (snd p)).

Lemma interp_quad : forall (a b c d : spec_float) x y, 0 <= x <= 1 -> 0 <= y <= 1 ->
  exact_interp [2; 2]%Z [x; y] [a; d; b; c] = bilinear (fval a) (fval b) (fval d) (fval c) x y.
Proof.
  intros a b c d x y Hx Hy. unfold exact_interp. cbn [multilin].
  destruct (cell_spec 2 x ltac:(lia) ltac:(change (IZR (2-1)) with 1; lra)) as (C1 & _).
  destruct (cell_spec 2 y ltac:(lia) ltac:(change (IZR (2-1)) with 1; lra)) as (C2 & _).
  assert (E1 : cell 2 x = 0%Z) by lia. assert (E2 : cell 2 y = 0%Z) by lia. rewrite E1, E2. change (0 + 1)%Z with 1%Z.
  repeat match goal with |- context [Z.to_nat (flat ?d ?v)] =>
      let n := eval vm_compute in (Z.to_nat (flat d v)) in change (Z.to_nat (flat d v)) with n end.
  unfold bilinear. cbn [nth]. ring.
Qed.

Lemma bilinear_bound : forall a b c d u v M, Rabs a <= M -> Rabs b <= M -> Rabs c <= M -> Rabs d <= M -> 0 <= u <= 1 -> 0 <= v <= 1 -> Rabs (bilinear a b c d u v) <= M.
Proof.
  assert (K : forall a b u M, - M <= a <= M -> - M <= b <= M -> 0 <= u <= 1 -> - M <= a * (1 - u) + b * u <= M) by (intros; split; nra).
  intros a b c d u v M Ha Hb Hc Hd Pu Pv. apply Rabs_le_inv in Ha, Hb, Hc, Hd. apply Rabs_le.
  replace (bilinear a b c d u v) with ((a * (1 - u) + b * u) * (1 - v) + (c * (1 - u) + d * u) * v) by (unfold bilinear; ring). auto.
Qed.

Lemma find_distance : forall g q (f f' : fp (T:=spec_float)) p x y M, readyP [2; 2]%Z (quad_grid q) f -> finderF f ->
  qf_find g f p = Ret (1%Z, [x; y], f') -> unitF x -> unitF y ->
  (forall v, In v (fst p :: snd p :: concat (quad_grid q)) -> dbl v /\ Rabs (fval v) <= M) -> M <= bpow radix2 400 ->
  sqrt (sqdist (pv p) (bilinear_map (pv (q0 q)) (pv (q1 q)) (pv (q2 q)) (pv (q3 q)) (fval x) (fval y))) <=
    fval (lit 1 (10 ^ 10)) * (1 + bpow radix2 (-50)) + bpow radix2 (-46) * M + bpow radix2 (-534).
Proof.
  intros g q f f' p x y M [F PO] FF H Ux Uy B HM.
  assert (F' := F). destruct F' as (A1 & A2 & A3 & A4 & A5 & A6). assert (Hd : fp_dims f = [2; 2]%Z) by apply A2.
  assert (TW : twin f f') by (apply (qf_find_twin g f p 1%Z [x; y]); auto; rewrite Hd; discriminate).
  assert (ERR : exists e, fp_getError f' = Ret e /\ nlt e (fp_tolpos f') = true /\ fp_dIndices f' = [x; y] /\ fp_target f' = [fst p; snd p]).
  { unfold qf_find, fp_reset in H. rewrite !mapM_vget_prefix in H by (rewrite Hd; reflexivity). cbn [bind] in H. apply bind_ret_inv in H. destruct H as ([c f2] & E2 & H). cbn [fst snd] in H.
    injection H as -> EI ->. set (s := mkFp _ _ _ _ _ _ _ _ _ _ _ _ _ _ _) in E2.
    unfold fp_search in E2. apply bind_ret_inv in E2. destruct E2 as (r & E2 & E3). destruct r as [r|]; [injection E3 as ->|discriminate].
    apply (loop_result g _ s (1%Z, f')) in E2; [|unfold s; cbn; rewrite Hd; discriminate|exact A5].
    destruct E2 as (_ & ET & _ & s0 & EN & _). cbn [snd] in ET. destruct (next_converged _ _ _ EN) as (e & EE & LE & _). exists e. auto. }
  destruct ERR as (e & EE & LE & EI & ET).
  assert (F2 := ready_twin _ _ _ _ F TW). destruct F2 as (_ & Hh & Hc & _).
  assert (Hd' : fp_dims f' = [2; 2]%Z) by apply Hh.
  destruct (finderF_twin _ _ TW FF) as (_ & _ & T10). rewrite T10 in LE.
  assert (IG : in_gridF [2; 2]%Z [x; y]) by (constructor; [exact Ux|constructor; [exact Uy|constructor]]).
  assert (M9 : M <= bpow radix2 900) by (eapply Rle_trans; [exact HM|apply bpow_le; lia]).
  unfold fp_getError, fp_getPosition in EE. rewrite Hc, EI, ET, Hd' in EE.
  set (c0 := [fst (q0 q); fst (q3 q); fst (q1 q); fst (q2 q)]) in *. set (c1 := [snd (q0 q); snd (q3 q); snd (q1 q); snd (q2 q)]) in *.
  assert (I0 : forall v, In v c0 -> dbl v /\ Rabs (fval v) <= M) by (intros v I; apply B; right; right; unfold quad_grid; fold c0 c1; cbn [concat]; apply in_or_app; auto).
  assert (I1 : forall v, In v c1 -> dbl v /\ Rabs (fval v) <= M) by (intros v I; apply B; right; right; unfold quad_grid; fold c0 c1; cbn [concat]; apply in_or_app; right; apply in_or_app; auto).
  destruct (interp_F [2; 2]%Z f' [x; y] c0 M ltac:(apply A1) Hh IG eq_refl) as (r0 & R0 & D0 & E0); auto; [apply Forall_forall; intros v I; apply I0; auto|intros v I; apply I0; auto|].
  destruct (interp_F [2; 2]%Z f' [x; y] c1 M ltac:(apply A1) Hh IG eq_refl) as (r1 & R1 & D1 & E1); auto; [apply Forall_forall; intros v I; apply I1; auto|intros v I; apply I1; auto|].
  unfold quad_grid in EE. fold c0 c1 in EE. cbn [mapM bind] in EE. rewrite R0 in EE. cbn [bind] in EE. rewrite R1 in EE. cbn [bind length zseq] in EE.
  change (zseq 2) with [0; 1]%Z in EE. cbn [foldM] in EE.
  change (vget [r0; r1] 0) with (Ret r0) in EE. change (vget [r0; r1] 1) with (Ret r1) in EE.
  change (vget [fst p; snd p] 0) with (Ret (fst p)) in EE. change (vget [fst p; snd p] 1) with (Ret (snd p)) in EE. cbn [bind] in EE. injection EE as <-.
  cbn [map] in E0, E1. unfold c0 in E0. unfold c1 in E1. rewrite interp_quad in E0, E1 by (apply Ux || apply Uy).
  set (b0 := bilinear _ _ _ _ _ _) in E0. set (b1 := bilinear _ _ _ _ _ _) in E1.
  assert (EB : bilinear_map (pv (q0 q)) (pv (q1 q)) (pv (q2 q)) (pv (q3 q)) (fval x) (fval y) = (b0, b1)) by reflexivity. rewrite EB.
  assert (BB : Rabs b0 <= M /\ Rabs b1 <= M).
  { assert (K : forall a b c d, Rabs a <= M -> Rabs b <= M -> Rabs c <= M -> Rabs d <= M -> Rabs (bilinear a b c d (fval x) (fval y)) <= M).
    { intros. apply bilinear_bound; auto; apply Ux || apply Uy. }
    split; apply K; ((apply I0; simpl; tauto) || (apply I1; simpl; tauto)). }
  destruct BB as [BB0 BB1].
  destruct (B (fst p) ltac:(left; auto)) as [Dp0 Bp0]. destruct (B (snd p) ltac:(right; left; auto)) as [Dp1 Bp1].
  assert (M0 : 0 <= M) by (apply Rle_trans with (Rabs (fval (fst p))); [apply Rabs_pos|auto]).
  unfold interp_error in E0, E1. cbn [length] in E0, E1. change (IZR (2 ^ Z.of_nat 2)) with 4 in E0, E1. simpl (INR (2 + 1)) in E0, E1.
  set (U51 := bpow radix2 (-51)) in *. assert (U51v : U51 = 4 * uround) by (unfold U51, uround; simpl; lra). assert (Pe := etiny_pos). assert (Te := etiny_lt).
  assert (U46 : bpow radix2 (-46) = 32 * U51) by (unfold U51; change 32 with (bpow radix2 5); rewrite <- bpow_plus; reflexivity).
  assert (P404 : 3 * M + 1 <= bpow radix2 404).
  { assert (G : bpow radix2 404 = 16 * bpow radix2 400) by (change 16 with (bpow radix2 4); rewrite <- bpow_plus; reflexivity).
    assert (G1 : 1 <= bpow radix2 400) by (change 1 with (bpow radix2 0); apply bpow_le; lia). rewrite G. lra. }
  assert (S0 : Rabs (fval r0 - b0) <= M + 1) by (eapply Rle_trans; [exact E0|]; rewrite U51v; unfold uround; lra).
  assert (S1 : Rabs (fval r1 - b1) <= M + 1) by (eapply Rle_trans; [exact E1|]; rewrite U51v; unfold uround; lra).
  assert (TX : Rabs (fval r0 - fval (fst p)) <= bpow radix2 404) by (apply Rabs_le_inv in S0, Bp0, BB0; apply Rabs_le; lra).
  assert (TY : Rabs (fval r1 - fval (snd p)) <= bpow radix2 404) by (apply Rabs_le_inv in S1, Bp1, BB1; apply Rabs_le; lra).
  assert (D10 : dbl (lit 1 (10 ^ 10))) by (split; vm_compute; reflexivity).
  assert (DD := dist_F r0 r1 (fst p) (snd p) _ D0 D1 Dp0 Dp1 D10 TX TY LE).
  replace (sqdist (pv p) (b0, b1)) with (((fval r0 - fval (fst p)) + (b0 - fval r0)) ^ 2 + ((fval r1 - fval (snd p)) + (b1 - fval r1)) ^ 2)
    by (unfold sqdist, pv; cbn [fst snd]; ring).
  eapply Rle_trans; [apply norm_shift|]. rewrite (Rabs_minus_sym b0), (Rabs_minus_sym b1).
  assert (G : 24 * etiny <= bpow radix2 (-535)).
  { assert (E5 : bpow radix2 (-535) = bpow radix2 539 * etiny) by (unfold etiny; rewrite <- bpow_plus; reflexivity).
    assert (L5 : bpow radix2 5 <= bpow radix2 539) by (apply bpow_le; lia). simpl (bpow radix2 5) in L5. rewrite E5. nra. }
  assert (G2 : bpow radix2 (-534) = 2 * bpow radix2 (-535)) by (change (-534)%Z with (1 + -535)%Z; rewrite bpow_plus; reflexivity).
  rewrite U46, G2. assert (0 <= U51 * M) by (apply Rmult_le_pos; [rewrite U51v; unfold uround; lra|exact M0]). lra.
Qed.

(** ** Flow interpolation is defined *)
Lemma segmentsF_total : forall g q pts (o : qf spec_float) w, gives_finite g -> readyP [2; 2]%Z (quad_grid q) (qf_finder o) -> finderF (qf_finder o) ->
  exists w' o', fl_segments g o pts w = Ret (w', o') /\ readyP [2; 2]%Z (quad_grid q) (qf_finder o') /\ finderF (qf_finder o').
Proof.
  intros g q. induction pts as [|a pts IH]; intros o w GF FR FF; [exists w, o; split; [reflexivity|auto]|].
  destruct pts as [|b pts]; [exists w, o; split; [reflexivity|auto]|].
  rewrite segments_cons. unfold qf_computeProjections, qf_indices, qf_setLinePoints. cbn [qf_line qf_finder fst snd].
  destruct (find_unit g q (qf_finder o) a GF FR) as (ca & xa & ya & f1 & E1 & FR1 & T1 & _). rewrite E1. cbn [bind].
  destruct (find_unit g q f1 b GF FR1) as (cb & xb & yb & f2 & E2 & FR2 & T2 & _). rewrite E2. cbn [bind qf_xia qf_xib].
  change (vget [xa; ya] 0) with (Ret xa). change (vget [xa; ya] 1) with (Ret ya).
  change (vget [xb; yb] 0) with (Ret xb). change (vget [xb; yb] 1) with (Ret yb). cbn [bind fst snd].
  unfold qf_getProjection. cbn [qf_proj]. destruct (projections xa ya xb yb) as [[[p0 p1] p2] p3].
  change (vget [p0; p1; p2; p3] 0) with (Ret p0). change (vget [p0; p1; p2; p3] 1) with (Ret p1).
  change (vget [p0; p1; p2; p3] 2) with (Ret p2). change (vget [p0; p1; p2; p3] 3) with (Ret p3). cbn [bind].
  apply IH; auto. cbn [qf_finder]. apply (finderF_twin f1); auto. apply (finderF_twin (qf_finder o)); auto.
Qed.

Lemma computeWeightsF_total : forall srt g s nd ns (line : Z -> pt spec_float * pt spec_float) cell, gives_finite g -> fl_dstNumCells s = Some nd -> fl_srcNumCells s = Some ns ->
  (forall k, (0 <= k < nd)%Z -> fl_dstLine s k = Ret (line k)) -> (forall c, (0 <= c < ns)%Z -> fl_srcQuad s c = Ret (cell c)) ->
  exists s', fl_computeWeights srt g s = Ret s'.
Proof.
  intros srt g s nd ns line cell GF Ed Es HL HC. unfold fl_computeWeights. rewrite Ed, Es.
  destruct (foldM_total (fun x : flw spec_float => finderF (qf_finder (flw_qf x))) (fl_segment srt g s ns) (range nd)
    (mkFlw ql_new qf_new (fl_weights s))) as (x & E & _).
  - exact newF.
  - intros x k FI Hk. apply in_range in Hk. unfold fl_segment. rewrite (HL k Hk). cbn [bind].
    destruct (foldM_total (fun x : flw spec_float => finderF (qf_finder (flw_qf x)) /\ exists l, ql_line (flw_ql x) = Some l) (fl_cell srt g s k) (range ns)
      (mkFlw (ql_setLinePoints (flw_ql x) (line k)) (flw_qf x) (flw_m x))) as (x' & E & FI' & _).
    + split; [exact FI|eexists; reflexivity].
    + clear x FI. intros x c [FI (l & EL)] Hc. apply in_range in Hc. unfold fl_cell. rewrite (HC c Hc). cbn [bind].
      destruct (flw_ql x) as [q' l' la po]. cbn [ql_line] in EL. subst l'.
      unfold ql_reset, ql_setQuadPoints, ql_checkIfOverlap. cbn [ql_quad ql_line ql_lambdas ql_points bind].
      destruct (quad_line_overlap (cell c) l); cbn [negb].
      2: { eexists. split; [reflexivity|]. split; [exact FI|eexists; reflexivity]. }
      unfold ql_collect. cbn [ql_quad ql_line ql_lambdas ql_points app bind]. set (pts := map _ _). clearbody pts.
      destruct (2 <=? length pts)%nat.
      2: { eexists. split; [reflexivity|]. split; [exact FI|eexists; reflexivity]. }
      unfold qf_setQuadPoints. destruct (setF _ (cell c) FI) as (f' & EF & FR & FF). rewrite EF. cbn [bind].
      destruct (segmentsF_total g (cell c) pts (mkQf (qf_line (flw_qf x)) (qf_proj (flw_qf x)) f' (qf_xia (flw_qf x)) (qf_xib (flw_qf x)))
        [n0; n0; n0; n0] GF FR FF) as (w' & o' & ES & FR' & FF'). rewrite ES. cbn [bind].
      eexists. split; [reflexivity|]. cbn [flw_qf flw_ql snd ql_line]. split; [exact FF'|eexists; reflexivity].
    + exists x'. split; auto.
  - rewrite E. cbn [bind]. eexists. reflexivity.
Qed.
