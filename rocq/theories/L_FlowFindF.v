(** The indices of a point in a rectangular cell of moderate size, in IEEE double arithmetic, with a finder used for other cells before. *)
From Coq Require Import ZArith List Bool Reals Lra Lia Permutation Floats.SpecFloat.
From Flocq Require Import Core BinarySingleNaN.
From Verif Require Import Base Num NumR NumF M_LinearSolve M_FindPoint M_Triangulate M_Quad M_QuadLine S_Grid
  L_LinearSolve L_Interp L_FindPoint L_FindPointB L_FindPointR L_FindPointG L_NodeInterp L_NodeInterpR L_Float L_FloatOps L_FindPointF L_NodeInterpF L_FindOverlapF L_Defined
  L_FlowTwin L_FlowF L_ResidualF L_AffineF L_RectF L_FlowRectF L_FlowCellF P_AffineF.
Import ListNotations.
Open Scope R_scope.

(** The boxes of the finder are those of cells within 4 of the origin, there are no periods. *)
Definition finderW (f : fp (T:=spec_float)) : Prop := finderF f /\
  ((fp_period f = [] /\ fp_xmins f = [] /\ fp_xmaxs f = []) \/
   (fp_period f = [n0; n0] /\ exists a b c d, co a /\ co b /\ co c /\ co d /\ fp_xmins f = [a; b] /\ fp_xmaxs f = [c; d])).

Definition boxed (f : fp (T:=spec_float)) (x0 x1 y0 y1 : spec_float) : Prop := fp_period f = [n0; n0] /\
  exists a b c d, co a /\ co b /\ co c /\ co d /\ fp_xmins f = [a; b] /\ fp_xmaxs f = [c; d] /\
    fval a <= fval x0 /\ fval b <= fval y0 /\ fval x1 <= fval c /\ fval y1 <= fval d.

Lemma newW : finderW (qf_finder (qf_new (T := spec_float))).
Proof. split; [exact newF|left; auto]. Qed.

Lemma run_first : forall c v, co v -> In v c -> (forall w, In w c -> co w) ->
  (co (runmin nmax c) /\ forall w, In w c -> fval (runmin nmax c) <= fval w) /\ (co (runmax (nopp nmax) c) /\ forall w, In w c -> fval w <= fval (runmax (nopp nmax) c)).
Proof.
  intros c v Cv Iv HC. destruct max_val as [X1 X2]. destruct max_big as [Y1 Y2]. assert (F : Forall dbl c) by (apply List.Forall_forall; intros w Hw; apply HC; auto).
  assert (P : 8 <= bpow radix2 971) by (change 8 with (bpow radix2 3); apply bpow_le; lia). destruct Cv as [_ Bv]. apply Rabs_le_inv in Bv.
  destruct (runmin_F c nmax F X1) as (A1 & _ & A3 & A4). destruct (runmax_F c (nopp nmax) F X2) as (B1 & _ & B3 & B4).
  split; (split; [|auto]).
  - destruct A4 as [A4|A4]; [|auto]. exfalso. assert (K := A3 v Iv). rewrite A4 in K. lra.
  - destruct B4 as [B4|B4]; [|auto]. exfalso. assert (K := B3 v Iv). rewrite B4 in K. lra.
Qed.

Lemma run_next : forall a c, co a -> (forall w, In w c -> co w) ->
  (co (runmin a c) /\ forall w, In w c -> fval (runmin a c) <= fval w) /\ (co (runmax a c) /\ forall w, In w c -> fval w <= fval (runmax a c)).
Proof.
  intros a c Ca HC. assert (F : Forall dbl c) by (apply List.Forall_forall; intros w Hw; apply HC; auto).
  destruct (runmin_F c a F (proj1 Ca)) as (A1 & _ & A3 & A4). destruct (runmax_F c a F (proj1 Ca)) as (B1 & _ & B3 & B4).
  split; (split; [|auto]); [destruct A4 as [-> |A4]; auto|destruct B4 as [-> |B4]; auto].
Qed.

Lemma setW : forall f x0 x1 y0 y1, finderW f -> co x0 -> co x1 -> co y0 -> co y1 ->
  exists f', fp_setGrid f [2; 2]%Z [0; 0]%Z (quad_grid (fbox x0 x1 y0 y1)) = Ret f' /\ readyP [2; 2]%Z (quad_grid (fbox x0 x1 y0 y1)) f' /\ finderW f' /\ boxed f' x0 x1 y0 y1.
Proof.
  intros f x0 x1 y0 y1 [FF HW] C0 C1 C2 C3. destruct (setF f (fbox x0 x1 y0 y1) FF) as (f' & E & RD & FF').
  destruct (setGrid_ok f [2; 2]%Z [0; 0]%Z (quad_grid (fbox x0 x1 y0 y1)) (quad_data _)) as (f2 & E2 & _ & _ & _ & _ & _ & H6 & H7 & H8 & _).
  rewrite E in E2. injection E2 as <-. exists f'. split; auto. split; auto.
  assert (CX : forall w, In w [x0; x0; x1; x1] -> co w) by (intros w [<- |[<- |[<- |[<- |[]]]]]; auto).
  assert (CY : forall w, In w [y0; y1; y0; y1] -> co w) by (intros w [<- |[<- |[<- |[<- |[]]]]]; auto).
  unfold quad_grid, fbox in H6, H7. cbn [q0 q1 q2 q3 fst snd] in H6, H7.
  assert (B : boxed f' x0 x1 y0 y1).
  { destruct HW as [(W1 & W2 & W3)|(W1 & a & b & c & d & Ca & Cb & Cc & Cd & W2 & W3)].
    - rewrite W2 in H6. rewrite W3 in H7. rewrite W1 in H8. split; [rewrite H8; reflexivity|].
      change (fp_xmins f' = [runmin nmax [x0; x0; x1; x1]; runmin nmax [y0; y1; y0; y1]]) in H6. change (fp_xmaxs f' = [runmax (nopp nmax) [x0; x0; x1; x1]; runmax (nopp nmax) [y0; y1; y0; y1]]) in H7.
      destruct (run_first [x0; x0; x1; x1] x0 C0 (or_introl eq_refl) CX) as [[R1 R2] [R3 R4]]. destruct (run_first [y0; y1; y0; y1] y0 C2 (or_introl eq_refl) CY) as [[R5 R6] [R7 R8]].
      do 4 eexists. split; [exact R1|]. split; [exact R5|]. split; [exact R3|]. split; [exact R7|]. split; [exact H6|]. split; [exact H7|].
      split; [apply R2; simpl; auto|]. split; [apply R6; simpl; auto|]. split; [apply R4; simpl; auto|apply R8; simpl; auto].
    - rewrite W2 in H6. rewrite W3 in H7. rewrite W1 in H8. split; [rewrite H8; reflexivity|].
      change (fp_xmins f' = [runmin a [x0; x0; x1; x1]; runmin b [y0; y1; y0; y1]]) in H6. change (fp_xmaxs f' = [runmax c [x0; x0; x1; x1]; runmax d [y0; y1; y0; y1]]) in H7.
      destruct (run_next a [x0; x0; x1; x1] Ca CX) as [[R1 R2] _]. destruct (run_next b [y0; y1; y0; y1] Cb CY) as [[R5 R6] _].
      destruct (run_next c [x0; x0; x1; x1] Cc CX) as [_ [R3 R4]]. destruct (run_next d [y0; y1; y0; y1] Cd CY) as [_ [R7 R8]].
      do 4 eexists. split; [exact R1|]. split; [exact R5|]. split; [exact R3|]. split; [exact R7|]. split; [exact H6|]. split; [exact H7|].
      split; [apply R2; simpl; auto|]. split; [apply R6; simpl; auto|]. split; [apply R4; simpl; auto|apply R8; simpl; auto]. }
  split; [|exact B]. split; auto. right. destruct B as (B1 & a & b & c & d & Ba & Bb & Bc & Bd & B2 & B3 & _). split; auto. exists a, b, c, d. auto 10.
Qed.

Lemma finderW_twin : forall f f', twin f f' -> finderW f -> finderW f'.
Proof.
  intros f f' T [A B]. split; [eapply finderF_twin; eauto|]. destruct T as (_ & G & _).
  assert (E1 : fp_period f = fp_period f') by apply G. assert (E2 : fp_xmins f = fp_xmins f') by apply G. assert (E3 : fp_xmaxs f = fp_xmaxs f') by apply G. rewrite <- E1, <- E2, <- E3. exact B.
Qed.

Lemma boxed_twin : forall f f' x0 x1 y0 y1, twin f f' -> boxed f x0 x1 y0 y1 -> boxed f' x0 x1 y0 y1.
Proof.
  intros f f' x0 x1 y0 y1 T B. destruct T as (_ & G & _). unfold boxed.
  assert (E1 : fp_period f = fp_period f') by apply G. assert (E2 : fp_xmins f = fp_xmins f') by apply G. assert (E3 : fp_xmaxs f = fp_xmaxs f') by apply G. rewrite <- E1, <- E2, <- E3. exact B.
Qed.

Lemma eps_exact : dbl (fp_eps : spec_float) /\ fval fp_eps = 200 * uround.
Proof.
  assert (E : (fp_eps : spec_float) = S754_finite false 7036874417766400 (-98)) by (vm_compute; reflexivity). rewrite E.
  split; [split; reflexivity|]. unfold fval. cbn [SF2R cond_Zopp]. unfold F2R. simpl Fnum. simpl Fexp.
  change (bpow radix2 (-98)) with (/ IZR (2 ^ 98)). change (2 ^ 98)%Z with 316912650057057350374175801344%Z. unfold uround. lra.
Qed.

Lemma inside_near : forall lo hi x l h, co lo -> co hi -> dbl x -> fval lo <= l -> h <= fval hi -> l - 160 * uround <= fval x <= h + 160 * uround ->
  nle (nsub lo fp_eps) x = true /\ nle x (nadd hi fp_eps) = true.
Proof.
  intros lo hi x l h [Dl Bl] [Dh Bh] Dx L H P. destruct eps_exact as [De Ve]. assert (TU := tiny_u). apply Rabs_le_inv in Bl, Bh.
  assert (BG : 8 <= bpow radix2 1000) by (change 8 with (bpow radix2 3); apply bpow_le; lia).
  destruct (f_sub lo fp_eps Dl De) as [D1 V1]. { rewrite Ve. apply Rle_trans with 8; auto. apply Rabs_le. unfold uround. lra. }
  destruct (f_add hi fp_eps Dh De) as [D2 V2]. { rewrite Ve. apply Rle_trans with 8; auto. apply Rabs_le. unfold uround. lra. }
  rewrite !f_le by auto. rewrite !Rleb_true. rewrite V1, V2.
  assert (E1 := rnd_error (fval lo - fval fp_eps)). assert (E2 := rnd_error (fval hi + fval fp_eps)). rewrite Ve in *.
  assert (K1 : uround * Rabs (fval lo - 200 * uround) <= uround * 5) by (apply Rmult_le_compat_l; [|apply Rabs_le]; unfold uround; lra).
  assert (K2 : uround * Rabs (fval hi + 200 * uround) <= uround * 5) by (apply Rmult_le_compat_l; [|apply Rabs_le]; unfold uround; lra).
  apply Rabs_le_inv in E1, E2. unfold uround in *. lra.
Qed.

Lemma tol10 : dbl (lit 1 (10 ^ 10) : spec_float) /\ 99 / 10 ^ 12 <= fval (lit 1 (10 ^ 10)).
Proof.
  assert (E : (lit 1 (10 ^ 10) : spec_float) = S754_finite false 7737125245533627 (-86)) by (vm_compute; reflexivity). rewrite E.
  split; [split; reflexivity|]. unfold fval. cbn [SF2R cond_Zopp]. unfold F2R. simpl Fnum. simpl Fexp.
  change (bpow radix2 (-86)) with (/ IZR (2 ^ 86)). change (2 ^ 86)%Z with 77371252455336267181195264%Z. lra.
Qed.

Lemma clamp : forall v lo w d, / 8 <= w -> 0 <= d -> lo - d <= v <= lo + w + d -> exists t, 0 <= t <= 1 /\ Rabs (v - (lo + w * t)) <= d /\ Rabs ((v - lo) / w - t) <= 8 * d.
Proof.
  intros v lo w d Hw Hd Hv. assert (E : forall t, (v - lo) / w - t = (v - (lo + w * t)) / w) by (intros; field; lra).
  assert (Q : forall t, Rabs (v - (lo + w * t)) <= d -> Rabs ((v - lo) / w - t) <= 8 * d).
  { intros t H. rewrite E. eapply Rle_trans; [apply (div_le _ w d (/ 8) H); rewrite Rabs_pos_eq; lra|]. lra. }
  assert (K : (v < lo) \/ (lo <= v <= lo + w) \/ lo + w < v) by lra. destruct K as [K|[K|K]].
  - exists 0. assert (H : Rabs (v - (lo + w * 0)) <= d) by (apply Rabs_le; lra). split; [lra|auto].
  - exists ((v - lo) / w). assert (T : (v - lo) / w * w = v - lo) by (field; lra). assert (H : Rabs (v - (lo + w * ((v - lo) / w))) <= d) by (replace (v - (lo + w * ((v - lo) / w))) with 0 by (field; lra); rewrite Rabs_R0; auto).
    split; [|auto]. split; [apply Rmult_le_reg_r with w; lra|apply Rmult_le_reg_r with w; lra].
  - exists 1. assert (H : Rabs (v - (lo + w * 1)) <= d) by (apply Rabs_le; lra). split; [lra|auto].
Qed.

Lemma accurate_mono : forall g b b' s s' eta zeta, b' <= b -> s <= s' -> accurate2 g b s eta zeta -> accurate2 g b' s' eta zeta.
Proof.
  intros g b b' s s' eta zeta Hb Hs A J00 J01 J10 J11 r0 r1 lw z0 z1 D1 D2 D3 D4 D5 D6 B1 B2 B3 B4 B5 B6 ST E1 E2. apply A; auto; try lra.
  intros u v. assert (P := nm_pos u v). specialize (ST u v). assert (s * nm u v <= s' * nm u v) by (apply Rmult_le_compat_r; auto). lra.
Qed.

Theorem find_cell : forall g x0 x1 y0 y1 (f : fp (T:=spec_float)) X Y, flow2 g -> co x0 -> co x1 -> co y0 -> co y1 -> / 8 <= fval x1 - fval x0 -> / 8 <= fval y1 - fval y0 ->
  readyP [2; 2]%Z (quad_grid (fbox x0 x1 y0 y1)) f -> finderW f -> boxed f x0 x1 y0 y1 -> dbl X -> dbl Y ->
  fval x0 - 160 * uround <= fval X <= fval x1 + 160 * uround -> fval y0 - 160 * uround <= fval Y <= fval y1 + 160 * uround ->
  exists code x y f', qf_find g f (X, Y) = Ret (code, [x; y], f') /\ readyP [2; 2]%Z (quad_grid (fbox x0 x1 y0 y1)) f' /\ twin f f' /\ unitF x /\ unitF y /\
    Rabs (fval x - (fval X - fval x0) / (fval x1 - fval x0)) <= / 10 ^ 9 /\ Rabs (fval y - (fval Y - fval y0) / (fval y1 - fval y0)) <= / 10 ^ 9.
Proof.
  intros g x0 x1 y0 y1 f X Y F2 C0 C1 C2 C3 W H RD FW BX DX DY PX PY. assert (GF : gives_finite g) by (destruct F2 as [K _]; exact K).
  destruct (find_unit g (fbox x0 x1 y0 y1) f (X, Y) GF RD) as (code & x & y & f' & E & RD' & TW & Ux & Uy).
  exists code, x, y, f'. repeat (split; [assumption|]).
  unfold qf_find in E. apply bind_ret_inv in E. destruct E as (f1 & E1 & E). apply bind_ret_inv in E. destruct E as ([cd f2] & ES & E). cbn [fst snd] in E1, E. injection E as <- EI <-.
  destruct RD as [(HD & Hh & Hc & Lp & So & Hn) PO]. assert (Hd : fp_dims f = [2; 2]%Z) by apply Hh.
  unfold fp_reset in E1. rewrite !mapM_vget_prefix in E1 by (rewrite Hd; reflexivity). cbn [bind] in E1. injection E1 as E1. destruct half_val as [HDh HVh].
  assert (OA : on_axis 2 (nhalf : spec_float)) by (split; [exact HDh|rewrite HVh; change (IZR (2 - 1)) with 1; lra]).
  destruct BX as (BP & a & b & c & d & Ca & Cb & Cc & Cd & BM & BN & L1 & L2 & L3 & L4).
  assert (AT : at_xy 2 2 [fst (q0 (fbox x0 x1 y0 y1)); fst (q3 (fbox x0 x1 y0 y1)); fst (q1 (fbox x0 x1 y0 y1)); fst (q2 (fbox x0 x1 y0 y1))]
     [snd (q0 (fbox x0 x1 y0 y1)); snd (q3 (fbox x0 x1 y0 y1)); snd (q1 (fbox x0 x1 y0 y1)); snd (q2 (fbox x0 x1 y0 y1))] X Y f1 nhalf nhalf).
  { rewrite <- E1. unfold at_xy. cbn [fp_period fp_target fp_dIndices fp_xmins fp_xmaxs]. split; [|split; [exact BP|split; [reflexivity|split; [reflexivity|]]]].
    - unfold goodF. cbn [fp_coords fp_period fp_target fp_dIndices]. split; [exact HD|]. split; [exact Hh|]. split; [exact Hc|]. split; [exact Lp|]. split; [exact PO|]. split; [reflexivity|]. split.
      + unfold solver_ok in *. cbn [fp_slvr fp_dims]. exact So.
      + constructor; [exact OA|]. constructor; [exact OA|constructor].
    - rewrite BM, BN. cbn [fp_inside]. destruct (inside_near a c X _ _ Ca Cc DX L1 L3 PX) as [-> ->]. destruct (inside_near b d Y _ _ Cb Cd DY L2 L4 PY) as [-> ->]. reflexivity. }
  cbn [fbox q0 q1 q2 q3 fst snd] in AT. assert (U := u_rng). assert (TU := tiny_u).
  destruct (clamp (fval X) (fval x0) (fval x1 - fval x0) (160 * uround) W ltac:(unfold uround; lra) ltac:(lra)) as (t0 & T0 & N0 & M0).
  destruct (clamp (fval Y) (fval y0) (fval y1 - fval y0) (160 * uround) H ltac:(unfold uround; lra) ltac:(lra)) as (t1 & T1 & N1 & M1).
  assert (S1 := diff_size 4 x1 x0 C1 C0). assert (S2 := diff_size 4 y1 y0 C3 C2).
  assert (KX : forall v, In v [x0; x0; x1; x1] -> co v) by (intros w [<- |[<- |[<- |[<- |[]]]]]; auto).
  assert (KY : forall v, In v [y0; y1; y0; y1] -> co v) by (intros w [<- |[<- |[<- |[<- |[]]]]]; auto).
  assert (NX : near_affine 2 2 5 (160 * uround) [x0; x0; x1; x1] (fval x0) (fval x1 - fval x0) 0).
  { split; [reflexivity|]. split; [apply List.Forall_forall; intros v Hv; apply KX; auto|]. split; [intros v Hv; destruct (KX v Hv) as [_ K]; lra|].
    intros i j Hi Hj. assert (Ei : i = 0%Z \/ i = 1%Z) by lia. assert (Ej : j = 0%Z \/ j = 1%Z) by lia.
    assert (Z0 : 0 <= 160 * uround) by (unfold uround; lra). destruct Ei as [-> | ->], Ej as [-> | ->]; match goal with |- context [Z.to_nat ?k] => let v := eval vm_compute in (Z.to_nat k) in change (Z.to_nat k) with v end; cbn [nth];
      match goal with |- Rabs ?z <= _ => replace z with 0 by ring; rewrite Rabs_R0; exact Z0 end. }
  assert (NY : near_affine 2 2 5 (160 * uround) [y0; y1; y0; y1] (fval y0) 0 (fval y1 - fval y0)).
  { split; [reflexivity|]. split; [apply List.Forall_forall; intros v Hv; apply KY; auto|]. split; [intros v Hv; destruct (KY v Hv) as [_ K]; lra|].
    intros i j Hi Hj. assert (Ei : i = 0%Z \/ i = 1%Z) by lia. assert (Ej : j = 0%Z \/ j = 1%Z) by lia.
    assert (Z0 : 0 <= 160 * uround) by (unfold uround; lra). destruct Ei as [-> | ->], Ej as [-> | ->]; match goal with |- context [Z.to_nat ?k] => let v := eval vm_compute in (Z.to_nat k) in change (Z.to_nat k) with v end; cbn [nth];
      match goal with |- Rabs ?z <= _ => replace z with 0 by ring; rewrite Rabs_R0; exact Z0 end. }
  assert (EV : err_at 5 (160 * uround) = 160 * uround + 48 * uround * 5 + 12 * etiny) by apply err_val.
  assert (EB : err_at 5 (160 * uround) <= 407 * uround) by (rewrite EV; lra). assert (TG := etiny_lt).
  assert (EC : err_at 5 (160 * uround) <= 401 * uround) by (rewrite EV; unfold uround in *; lra).
  destruct tol10 as [DT VT]. assert (TP : fp_tolpos f1 = lit 1 (10 ^ 10)) by (rewrite <- E1; cbn [fp_tolpos]; apply FW).
  destruct C0 as [Dx0 Bx0], C1 as [Dx1 Bx1], C2 as [Dy0 By0], C3 as [Dy1 By1]. apply Rabs_le_inv in Bx0, Bx1, By0, By1.
  assert (BG : 8 <= bpow radix2 366) by (change 8 with (bpow radix2 3); apply bpow_le; lia). assert (BG4 : 8 <= bpow radix2 400) by (change 8 with (bpow radix2 3); apply bpow_le; lia).
  assert (E535 : bpow radix2 (-535) <= / 10 ^ 20) by (apply Rle_trans with (bpow radix2 (-67)); [apply bpow_le; lia|]; change (bpow radix2 (-67)) with (/ IZR (2 ^ 67)); change (2 ^ 67)%Z with 147573952589676412928%Z; lra).
  destruct (search_near 2 2 [x0; x0; x1; x1] [y0; y1; y0; y1] (fval x0) (fval y0) (fval x1 - fval x0) 0 0 (fval y1 - fval y0) 5 (160 * uround) (/ 8) (3210 * uround) (8 * uround) (8 * uround) g X Y t0 t1) with (B := 8) (s := f1) (x := nhalf : spec_float) (y := nhalf : spec_float) (n := 2)
    as (s' & x' & y' & ES' & AT' & NN & _); auto; try lra.
  - intros u v. assert (A1 := nm_l ((fval x1 - fval x0) * u + 0 * v) (0 * u + (fval y1 - fval y0) * v)). assert (A2 := nm_r ((fval x1 - fval x0) * u + 0 * v) (0 * u + (fval y1 - fval y0) * v)).
    replace ((fval x1 - fval x0) * u + 0 * v) with ((fval x1 - fval x0) * u) in * by ring. replace (0 * u + (fval y1 - fval y0) * v) with ((fval y1 - fval y0) * v) in * by ring.
    rewrite Rabs_mult, (Rabs_pos_eq (fval x1 - fval x0)) in A1 by lra. rewrite Rabs_mult, (Rabs_pos_eq (fval y1 - fval y0)) in A2 by lra.
    assert (Pu := Rabs_pos u). assert (Pv := Rabs_pos v). unfold nm at 1. unfold Rmax. destruct (Rle_dec (Rabs u) (Rabs v)); nra.
  - apply accurate_mono with (b := 20) (s := / 1000000); [unfold uround in *; lra|lra|apply F2].
  - apply Rabs_le. unfold uround in PX. lra.
  - apply Rabs_le. unfold uround in PY. lra.
  - replace (fval x0 + (fval x1 - fval x0) * t0 + 0 * t1) with (fval x0 + (fval x1 - fval x0) * t0) by ring. exact N0.
  - replace (fval y0 + 0 * t0 + (fval y1 - fval y0) * t1) with (fval y0 + (fval y1 - fval y0) * t1) by ring. exact N1.
  - rewrite Rabs_R0. lra.
  - rewrite Rabs_R0. lra.
  - rewrite <- E1. reflexivity.
  - rewrite <- E1. reflexivity.
  - rewrite <- E1. cbn [fp_nitermax]. destruct FW as [(_ & -> & _) _]. lia.
  - rewrite HVh. apply nm_le; apply Rabs_le; lra.
  - rewrite TP. exact DT.
  - rewrite TP. unfold rate, rest. change (IZR (Z.max 2 2)) with 2. set (e := err_at 5 (160 * uround)) in *. clearbody e. unfold uround in *. lra.
  - rewrite ES in ES'. injection ES' as -> <-. destruct AT' as (_ & _ & _ & EI' & _). rewrite EI in EI'. injection EI' as <- <-.
    assert (B : nm (t0 - fval x) (t1 - fval y) <= 3 / 10 ^ 10).
    { eapply Rle_trans; [exact NN|]. unfold rate, rest. change (IZR (Z.max 2 2)) with 2. apply Rmax_lub; unfold uround; lra. }
    assert (A1 := nm_l (t0 - fval x) (t1 - fval y)). assert (A2 := nm_r (t0 - fval x) (t1 - fval y)).
    split.
    + replace (fval x - (fval X - fval x0) / (fval x1 - fval x0)) with (- (t0 - fval x) + - ((fval X - fval x0) / (fval x1 - fval x0) - t0)) by ring.
      eapply Rle_trans; [apply Rabs_triang|]. rewrite !Rabs_Ropp. unfold uround in *. lra.
    + replace (fval y - (fval Y - fval y0) / (fval y1 - fval y0)) with (- (t1 - fval y) + - ((fval Y - fval y0) / (fval y1 - fval y0) - t1)) by ring.
      eapply Rle_trans; [apply Rabs_triang|]. rewrite !Rabs_Ropp. unfold uround in *. lra.
Qed.
