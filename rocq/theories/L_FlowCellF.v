(** What a rectangular cell of moderate size contributes to the flux through a segment, in IEEE double arithmetic. *)
From Coq Require Import ZArith List Bool Reals Lra Lia Permutation Floats.SpecFloat.
From Flocq Require Import Core BinarySingleNaN.
From Verif Require Import Base Num NumR NumF M_LinearSolve M_FindPoint M_Triangulate M_Quad M_QuadLine S_Sort S_Geometry S_Quad
  L_LinearSolve L_Float L_FloatOps L_QuadBoxF L_ResidualF L_QuadF L_AffineF L_RectF L_FlowRectF.
Import ListNotations.
Open Scope R_scope.

(** When the coordinate that goes from [a] to [b] in the time from 0 to 1 is [v]. *)
Definition tm (a b v : R) : R := (v - a) / (b - a).

(** When the segment is in the box. *)
Definition t_in (px py qx qy x0 x1 y0 y1 : R) : R := Rmax 0 (Rmax (Rmin (tm px qx x0) (tm px qx x1)) (Rmin (tm py qy y0) (tm py qy y1))).
Definition t_out (px py qx qy x0 x1 y0 y1 : R) : R := Rmin 1 (Rmin (Rmax (tm px qx x0) (tm px qx x1)) (Rmax (tm py qy y0) (tm py qy y1))).

Lemma tm_pos : forall a b v, b - a <> 0 -> a + tm a b v * (b - a) = v.
Proof. intros. unfold tm. field. auto. Qed.

Lemma tm_order : forall a b u v, b - a <> 0 -> u < v ->
  ((Rmin (tm a b u) (tm a b v) = tm a b u /\ Rmax (tm a b u) (tm a b v) = tm a b v) \/ (Rmin (tm a b u) (tm a b v) = tm a b v /\ Rmax (tm a b u) (tm a b v) = tm a b u)) /\
  (forall t, Rmin (tm a b u) (tm a b v) < t < Rmax (tm a b u) (tm a b v) <-> u < a + t * (b - a) < v) /\
  (forall t, Rmin (tm a b u) (tm a b v) <= t <= Rmax (tm a b u) (tm a b v) <-> u <= a + t * (b - a) <= v).
Proof.
  intros a b u v N L. assert (E1 := tm_pos a b u N). assert (E2 := tm_pos a b v N). set (s := tm a b u) in *. set (t := tm a b v) in *. clearbody s t. subst u v.
  set (d := b - a) in *. clearbody d. assert (S : (0 < d /\ s < t) \/ (d < 0 /\ t < s)).
  { destruct (Rtotal_order d 0) as [H|[H|H]]; [right|tauto|left]; split; auto; destruct (Rle_or_lt s t), (Rle_or_lt t s); try lra; nra. }
  destruct S as [[D S]|[D S]].
  - rewrite Rmin_left, Rmax_right by lra. split; [left; auto|]. split; intros r; split; intros [H1 H2]; split; nra.
  - rewrite Rmin_right, Rmax_left by lra. split; [right; auto|]. split; intros r; split; intros [H1 H2]; split; nra.
Qed.

Lemma tm_gap : forall a b u v m k, m <= Rabs (u - v) -> 0 < Rabs (b - a) <= k -> 0 <= m -> m / k <= Rabs (tm a b u - tm a b v).
Proof.
  intros a b u v m k H [B0 BK] Hm. assert (N : b - a <> 0) by (intros Z; rewrite Z, Rabs_R0 in B0; lra).
  replace (tm a b u - tm a b v) with ((u - v) / (b - a)) by (unfold tm; field; auto). unfold Rdiv. rewrite Rabs_mult, Rabs_inv.
  apply Rmult_le_compat; auto; [left; apply Rinv_0_lt_compat; lra|apply Rinv_le; lra].
Qed.

Lemma perm6 : forall {A} (a b c d e f : list A), Permutation (a ++ (b ++ c ++ d ++ e ++ []) ++ f) (a ++ e ++ c ++ b ++ d ++ f).
Proof.
  intros. apply Permutation_app_head. rewrite app_nil_r. replace (e ++ c ++ b ++ d ++ f) with ((e ++ c ++ b ++ d) ++ f) by (rewrite <- !app_assoc; reflexivity).
  apply Permutation_app_tail. rewrite app_assoc, (Permutation_app_comm b c), (Permutation_app_comm d e), <- app_assoc, (app_assoc b e d), (Permutation_app_comm b e), <- app_assoc, app_assoc, (Permutation_app_comm c e), <- app_assoc. reflexivity.
Qed.

Section Cell.
Variable g : gels spec_float.
Hypothesis F2 : flow2 g.
Variables px py qx qy x0 x1 y0 y1 : spec_float.

(** The segment is clear of the lines of the box and of its corners. *)
Record clear_of : Prop := {
  c_px : co px; c_py : co py; c_qx : co qx; c_qy : co qy; c_x0 : co x0; c_x1 : co x1; c_y0 : co y0; c_y1 : co y1;
  c_w : / 8 <= fval x1 - fval x0; c_h : / 8 <= fval y1 - fval y0; c_dx : ap px qx; c_dy : ap py qy;
  c_ex : forall x, x = x0 \/ x = x1 -> ap px x /\ ap qx x; c_ey : forall y, y = y0 \/ y = y1 -> ap py y /\ ap qy y;
  c_vx : forall x y, x = x0 \/ x = x1 -> y = y0 \/ y = y1 -> let t := tm (fval px) (fval qx) (fval x) in 0 < t < 1 -> sp <= Rabs (fval py + t * (fval qy - fval py) - fval y);
  c_vy : forall x y, x = x0 \/ x = x1 -> y = y0 \/ y = y1 -> let t := tm (fval py) (fval qy) (fval y) in 0 < t < 1 -> sp <= Rabs (fval px + t * (fval qx - fval px) - fval x) }.

(** A parameter for the time [a] and the coordinates of its point. *)
Definition coord_ok (p q lo hi : spec_float) (a : R) (l : spec_float) : Prop :=
  dbl (nadd p (nmul l (nsub q p))) /\ Rabs (fval (nadd p (nmul l (nsub q p))) - (fval p + a * (fval q - fval p))) <= / 10 ^ 9 /\
  fval lo - 160 * uround <= fval (nadd p (nmul l (nsub q p))) <= fval hi + 160 * uround.
Definition end_ok (a : R) (l : spec_float) : Prop := dbl l /\ Rabs (fval l - a) <= / 10 ^ 7 /\ coord_ok px qx x0 x1 a l /\ coord_ok py qy y0 y1 a l.

Let tx := tm (fval px) (fval qx).
Let ty := tm (fval py) (fval qy).
Let tin := t_in (fval px) (fval py) (fval qx) (fval qy) (fval x0) (fval x1) (fval y0) (fval y1).
Let tout := t_out (fval px) (fval py) (fval qx) (fval qy) (fval x0) (fval x1) (fval y0) (fval y1).

Lemma ap_ne : forall a b, ap a b -> fval b - fval a <> 0.
Proof. intros a b H Z. unfold ap, apart, sp in H. replace (fval a - fval b) with 0 in H by lra. rewrite Rabs_R0 in H. lra. Qed.

Lemma fixed_ok : forall p q lo hi a l, co p -> co q -> dbl l -> fval l = a -> 0 <= a <= 1 -> fval lo < fval p + a * (fval q - fval p) < fval hi -> coord_ok p q lo hi a l.
Proof.
  intros p q lo hi a l Cp Cq Dl V Ha B. destruct (along1 p q l Cp Cq Dl ltac:(lra)) as [D E]. rewrite V in E. split; [exact D|]. assert (E' := E). apply Rabs_le_inv in E'. split; [unfold uround in *; lra|]. unfold uround in *. lra.
Qed.

Lemma far_abs : forall m a b, 0 < m -> m <= Rabs (a - b) -> far m a b.
Proof. intros m a b M H. unfold far. revert H. unfold Rabs. destruct (Rcase_abs (a - b)); intros; lra. Qed.

Lemma far_sym : forall m a b, far m a b -> far m b a.
Proof. unfold far. intros. lra. Qed.

Lemma cleared_far : forall t, cleared t -> far (/ 8192) 0 t /\ far (/ 8192) 1 t.
Proof. unfold cleared, far. intros. lra. Qed.

Lemma zero_one : dbl (n0 : spec_float) /\ fval n0 = 0 /\ dbl (n1 : spec_float) /\ fval n1 = 1.
Proof.
  destruct (f_ofZ 0 ltac:(lia)) as [D0 V0]. destruct (f_ofZ 1 ltac:(lia)) as [D1 V1]. auto.
Qed.

Lemma box_inner : forall a lo hi, inner lo a hi = true <-> fval lo < fval a < fval hi.
Proof. intros. unfold inner. rewrite andb_true_iff, !Rltb_true. tauto. Qed.

Theorem cell_lambdas : clear_of ->
  (tin < tout -> tin + / 8192 <= tout /\ exists la lb, end_ok tin la /\ end_ok tout lb /\ Permutation (line_lambdas g (fbox x0 x1 y0 y1) ((px, py), (qx, qy))) [la; lb]) /\
  (tout <= tin -> line_lambdas g (fbox x0 x1 y0 y1) ((px, py), (qx, qy)) = []).
Proof.
  intros [Cpx Cpy Cqx Cqy Cx0 Cx1 Cy0 Cy1 W H DX DY EX EY VX VY].
  assert (NX := ap_ne _ _ DX). assert (NY := ap_ne _ _ DY). destruct zero_one as (D0 & V0 & D1 & V1). unfold sp in VX, VY.
  destruct (EX x0 (or_introl eq_refl)) as [PX0 QX0]. destruct (EX x1 (or_intror eq_refl)) as [PX1 QX1]. destruct (EY y0 (or_introl eq_refl)) as [PY0 QY0]. destruct (EY y1 (or_intror eq_refl)) as [PY1 QY1].
  destruct (tm_order (fval px) (fval qx) (fval x0) (fval x1) NX ltac:(lra)) as (OX & IX & _). destruct (tm_order (fval py) (fval qy) (fval y0) (fval y1) NY ltac:(lra)) as (OY & IY & _).
  fold tx in OX, IX. fold ty in OY, IY.
  assert (SX := diff_size 4 qx px Cqx Cpx). assert (SY := diff_size 4 qy py Cqy Cpy).
  assert (KX0 := crossing_param px qx x0 Cpx Cqx Cx0 DX PX0 QX0). assert (KX1 := crossing_param px qx x1 Cpx Cqx Cx1 DX PX1 QX1).
  assert (KY0 := crossing_param py qy y0 Cpy Cqy Cy0 DY PY0 QY0). assert (KY1 := crossing_param py qy y1 Cpy Cqy Cy1 DY PY1 QY1).
  change (cleared (tx (fval x0))) in KX0. change (cleared (tx (fval x1))) in KX1. change (cleared (ty (fval y0))) in KY0. change (cleared (ty (fval y1))) in KY1.
  apply cleared_far in KX0, KX1, KY0, KY1. destruct KX0 as [FX00 FX01], KX1 as [FX10 FX11], KY0 as [FY00 FY01], KY1 as [FY10 FY11].
  assert (AX : 0 < Rabs (fval qx - fval px)) by (apply Rabs_pos_lt; auto). assert (AY : 0 < Rabs (fval qy - fval py)) by (apply Rabs_pos_lt; auto).
  (* times of x lines against times of y lines *)
  assert (XY : forall x y, x = x0 \/ x = x1 -> y = y0 \/ y = y1 -> 0 < tx (fval x) < 1 -> far (/ 8192) (tx (fval x)) (ty (fval y))).
  { intros x y Hx Hy T. assert (K := VX x y Hx Hy T). fold tx in K. apply far_abs; [lra|].
    replace (fval py + tx (fval x) * (fval qy - fval py) - fval y) with ((tx (fval x) - ty (fval y)) * (fval qy - fval py)) in K by (unfold ty, tm; field; auto).
    rewrite Rabs_mult in K. assert (Rabs (tx (fval x) - ty (fval y)) * Rabs (fval qy - fval py) <= Rabs (tx (fval x) - ty (fval y)) * 8) by (apply Rmult_le_compat_l; [apply Rabs_pos|lra]). lra. }
  assert (YX : forall x y, x = x0 \/ x = x1 -> y = y0 \/ y = y1 -> 0 < ty (fval y) < 1 -> far (/ 8192) (ty (fval y)) (tx (fval x))).
  { intros x y Hx Hy T. assert (K := VY x y Hx Hy T). fold ty in K. apply far_abs; [lra|].
    replace (fval px + ty (fval y) * (fval qx - fval px) - fval x) with ((ty (fval y) - tx (fval x)) * (fval qx - fval px)) in K by (unfold tx, tm; field; auto).
    rewrite Rabs_mult in K. assert (Rabs (ty (fval y) - tx (fval x)) * Rabs (fval qx - fval px) <= Rabs (ty (fval y) - tx (fval x)) * 8) by (apply Rmult_le_compat_l; [apply Rabs_pos|lra]). lra. }
  assert (GX : / 8192 <= Rabs (tx (fval x1) - tx (fval x0))) by (eapply Rle_trans; [|apply (tm_gap _ _ _ _ (/ 8) 8); [rewrite Rabs_pos_eq; lra| |lra]]; lra).
  assert (GY : / 8192 <= Rabs (ty (fval y1) - ty (fval y0))) by (eapply Rle_trans; [|apply (tm_gap _ _ _ _ (/ 8) 8); [rewrite Rabs_pos_eq; lra| |lra]]; lra).
  (* the parts of the list *)
  set (lo_x := Rmin (tx (fval x0)) (tx (fval x1))) in *. set (hi_x := Rmax (tx (fval x0)) (tx (fval x1))) in *.
  set (lo_y := Rmin (ty (fval y0)) (ty (fval y1))) in *. set (hi_y := Rmax (ty (fval y0)) (ty (fval y1))) in *.
  assert (ENDS : forall ex ey a l, (a = 0 /\ ex = px /\ ey = py /\ l = n0) \/ (a = 1 /\ ex = qx /\ ey = qy /\ l = n1) ->
    slot end_ok (lo_x < a < hi_x /\ lo_y < a < hi_y) a (if quad_inside ql_tol g (ex, ey) (fbox x0 x1 y0 y1) then [l] else [])).
  { intros ex ey a l HE. assert (CE : co ex /\ co ey /\ ap ex x0 /\ ap ex x1 /\ ap ey y0 /\ ap ey y1 /\ dbl l /\ fval l = a /\ 0 <= a <= 1 /\ fval ex = fval px + a * (fval qx - fval px) /\ fval ey = fval py + a * (fval qy - fval py)).
    { destruct HE as [(-> & -> & -> & ->)|(-> & -> & -> & ->)]; repeat match goal with |- _ /\ _ => split end; auto; try lra. }
    destruct CE as (Cex & Cey & E1 & E2 & E3 & E4 & Dl & Vl & Ha & P1 & P2).
    rewrite (end_test g F2 ex ey x0 x1 y0 y1) by (auto; unfold sp; lra). split.
    - intros [B1 B2]. apply IX in B1. apply IY in B2. 
      replace (inner x0 ex x1) with true by (symmetry; apply box_inner; auto; rewrite P1; auto). replace (inner y0 ey y1) with true by (symmetry; apply box_inner; auto; rewrite P2; auto).
      exists l. split; [reflexivity|]. split; auto. split; [rewrite Vl, Rminus_eq_0, Rabs_R0; lra|]. split; apply fixed_ok; auto.
    - intros N. destruct (inner x0 ex x1 && inner y0 ey y1) eqn:I; [|reflexivity]. exfalso. apply N. apply andb_prop in I. destruct I as [I1 I2].
      apply box_inner in I1; auto. apply box_inner in I2; auto. rewrite P1 in I1. rewrite P2 in I2. split; [apply IX|apply IY]; auto. }
  assert (VS : forall x ya yb, x = x0 \/ x = x1 -> (ya = y0 /\ yb = y1) \/ (ya = y1 /\ yb = y0) ->
    slot end_ok (0 < tx (fval x) < 1 /\ lo_y < tx (fval x) < hi_y) (tx (fval x)) (edge_line g (x, ya) (x, yb) (px, py) (qx, qy))).
  { intros x ya yb Hx Hy. destruct (EX x Hx) as [E1 E2]. assert (Cx : co x) by (destruct Hx as [-> | ->]; auto).
    assert (HY : (ya = y0 \/ ya = y1) /\ (yb = y0 \/ yb = y1) /\ co ya /\ co yb /\ / 8 <= Rabs (fval yb - fval ya)).
    { destruct Hy as [[-> ->]|[-> ->]]; repeat match goal with |- _ /\ _ => split end; auto; [rewrite Rabs_pos_eq; lra|rewrite Rabs_minus_sym, Rabs_pos_eq; lra]. }
    destruct HY as (Ya & Yb & Cya & Cyb & HH).
    destruct (edge_v g F2 px py qx qy x ya yb) as [OK NO]; auto; [intros T; split; apply VX; auto|].
    change ((fval x - fval px) / (fval qx - fval px)) with (tx (fval x)) in *. set (t := tx (fval x)) in *.
    assert (BW : between2 (fval py + t * (fval qy - fval py)) (fval ya) (fval yb) <-> lo_y < t < hi_y).
    { rewrite IY. unfold between2. destruct Hy as [[-> ->]|[-> ->]]; lra. }
    split.
    - intros [T B]. apply BW in B. destruct (OK T B) as (et & E & (De & Ne & (DA & NA) & DB & NB)). exists et. split; auto. split; auto. split; auto.
      assert (K1 := VX x y0 Hx (or_introl eq_refl) T). assert (K2 := VX x y1 Hx (or_intror eq_refl) T). fold tx in K1, K2. fold t in K1, K2. apply BW, IY in B.
      assert (PV : fval px + t * (fval qx - fval px) = fval x) by (apply tm_pos; auto).
      rewrite Rabs_pos_eq in K1 by lra. rewrite Rabs_minus_sym, Rabs_pos_eq in K2 by lra. split.
      + split; auto. rewrite PV. split; [unfold uround in *; lra|]. apply Rabs_le_inv in NA. assert (XE : fval x = fval x0 \/ fval x = fval x1) by (destruct Hx as [-> | ->]; auto). lra.
      + split; auto. split; auto. apply Rabs_le_inv in NB. unfold uround. lra.
    - intros N. apply NO. intros [T B]. apply N. split; auto. apply BW. auto. }
  assert (HS : forall y xa xb, y = y0 \/ y = y1 -> (xa = x0 /\ xb = x1) \/ (xa = x1 /\ xb = x0) ->
    slot end_ok (0 < ty (fval y) < 1 /\ lo_x < ty (fval y) < hi_x) (ty (fval y)) (edge_line g (xa, y) (xb, y) (px, py) (qx, qy))).
  { intros y xa xb Hy Hx. destruct (EY y Hy) as [E1 E2]. assert (Cy : co y) by (destruct Hy as [-> | ->]; auto).
    assert (HX : (xa = x0 \/ xa = x1) /\ (xb = x0 \/ xb = x1) /\ co xa /\ co xb /\ / 8 <= Rabs (fval xb - fval xa)).
    { destruct Hx as [[-> ->]|[-> ->]]; repeat match goal with |- _ /\ _ => split end; auto; [rewrite Rabs_pos_eq; lra|rewrite Rabs_minus_sym, Rabs_pos_eq; lra]. }
    destruct HX as (Xa & Xb & Cxa & Cxb & HH).
    destruct (edge_h g F2 px py qx qy y xa xb) as [OK NO]; auto; [intros T; split; apply VY; auto|].
    change ((fval y - fval py) / (fval qy - fval py)) with (ty (fval y)) in *. set (t := ty (fval y)) in *.
    assert (BW : between2 (fval px + t * (fval qx - fval px)) (fval xa) (fval xb) <-> lo_x < t < hi_x).
    { rewrite IX. unfold between2. destruct Hx as [[-> ->]|[-> ->]]; lra. }
    split.
    - intros [T B]. apply BW in B. destruct (OK T B) as (et & E & (De & Ne & (DA & NA) & DB & NB)). exists et. split; auto. split; auto. split; auto.
      assert (K1 := VY x0 y (or_introl eq_refl) Hy T). assert (K2 := VY x1 y (or_intror eq_refl) Hy T). fold ty in K1, K2. fold t in K1, K2. apply BW, IX in B.
      assert (PV : fval py + t * (fval qy - fval py) = fval y) by (apply tm_pos; auto).
      rewrite Rabs_pos_eq in K1 by lra. rewrite Rabs_minus_sym, Rabs_pos_eq in K2 by lra. split.
      + split; auto. split; auto. apply Rabs_le_inv in NB. unfold uround. lra.
      + split; auto. rewrite PV. split; [unfold uround in *; lra|]. apply Rabs_le_inv in NA. assert (YE : fval y = fval y0 \/ fval y = fval y1) by (destruct Hy as [-> | ->]; auto). lra.
    - intros N. apply NO. intros [T B]. apply N. split; auto. apply BW. auto. }
  unfold line_lambdas, qedges, fbox. cbn [q0 q1 q2 q3 flat_map fst snd]. fold (fbox x0 x1 y0 y1).
  assert (L0 := ENDS px py 0 n0 ltac:(left; auto)). assert (L1 := ENDS qx qy 1 n1 ltac:(right; auto)).
  assert (LV0 := VS x0 y1 y0 (or_introl eq_refl) ltac:(right; auto)). assert (LV1 := VS x1 y0 y1 (or_intror eq_refl) ltac:(left; auto)).
  assert (LH0 := HS y0 x0 x1 (or_introl eq_refl) ltac:(left; auto)). assert (LH1 := HS y1 x1 x0 (or_intror eq_refl) ltac:(right; auto)).
  set (s0 := if quad_inside ql_tol g (px, py) _ then _ else _) in *. set (s1 := if quad_inside ql_tol g (qx, qy) _ then _ else _) in *.
  set (v0 := edge_line g (x0, y1) (x0, y0) _ _) in *. set (v1 := edge_line g (x1, y0) (x1, y1) _ _) in *. set (h0 := edge_line g (x0, y0) (x1, y0) _ _) in *. set (h1 := edge_line g (x1, y1) (x0, y1) _ _) in *.
  clearbody s0 s1 v0 v1 h0 h1. clear ENDS VS HS.
  assert (X00 := XY x0 y0 (or_introl eq_refl) (or_introl eq_refl)). assert (X01 := XY x0 y1 (or_introl eq_refl) (or_intror eq_refl)). assert (X10 := XY x1 y0 (or_intror eq_refl) (or_introl eq_refl)). assert (X11 := XY x1 y1 (or_intror eq_refl) (or_intror eq_refl)).
  assert (Y00 := YX x0 y0 (or_introl eq_refl) (or_introl eq_refl)). assert (Y01 := YX x0 y1 (or_introl eq_refl) (or_intror eq_refl)). assert (Y10 := YX x1 y0 (or_intror eq_refl) (or_introl eq_refl)). assert (Y11 := YX x1 y1 (or_intror eq_refl) (or_intror eq_refl)).
  assert (MX : lo_x + / 8192 <= hi_x) by (clear - GX; unfold lo_x, hi_x, Rmin, Rmax in *; destruct (Rle_dec (tx (fval x0)) (tx (fval x1))); revert GX; unfold Rabs; destruct (Rcase_abs _); intros; lra).
  assert (MY : lo_y + / 8192 <= hi_y) by (clear - GY; unfold lo_y, hi_y, Rmin, Rmax in *; destruct (Rle_dec (ty (fval y0)) (ty (fval y1))); revert GY; unfold Rabs; destruct (Rcase_abs _); intros; lra).
  change tin with (Rmax 0 (Rmax lo_x lo_y)). change tout with (Rmin 1 (Rmin hi_x hi_y)).
  assert (RES : exists L, Permutation (s0 ++ (h0 ++ v1 ++ h1 ++ v0 ++ []) ++ s1) L /\
    ((Rmax 0 (Rmax lo_x lo_y) < Rmin 1 (Rmin hi_x hi_y) -> Rmax 0 (Rmax lo_x lo_y) + / 8192 <= Rmin 1 (Rmin hi_x hi_y) /\ exists la lb, end_ok (Rmax 0 (Rmax lo_x lo_y)) la /\ end_ok (Rmin 1 (Rmin hi_x hi_y)) lb /\ Permutation L [la; lb]) /\
     (Rmin 1 (Rmin hi_x hi_y) <= Rmax 0 (Rmax lo_x lo_y) -> L = []))).
  { assert (PP := perm6 s0 h0 v1 h1 v0 s1).
    assert (SW : forall u v : list spec_float, Permutation (u ++ v) (v ++ u)) by (intros; apply Permutation_app_comm).
    clearbody lo_x hi_x lo_y hi_y.
    destruct OX as [[-> ->]|[-> ->]]; destruct OY as [[-> ->]|[-> ->]].
    - exists (s0 ++ v0 ++ v1 ++ h0 ++ h1 ++ s1). split; [exact PP|]. apply slots_two; auto; lra.
    - exists (s0 ++ v0 ++ v1 ++ h1 ++ h0 ++ s1). split; [rewrite PP; do 3 apply Permutation_app_head; rewrite !app_assoc; apply Permutation_app_tail; auto|]. apply slots_two; auto; lra.
    - exists (s0 ++ v1 ++ v0 ++ h0 ++ h1 ++ s1). split; [rewrite PP; apply Permutation_app_head; rewrite !app_assoc; do 3 apply Permutation_app_tail; auto|]. apply slots_two; auto; lra.
    - exists (s0 ++ v1 ++ v0 ++ h1 ++ h0 ++ s1). split; [rewrite PP; apply Permutation_app_head; rewrite (app_assoc v0), (app_assoc v1); apply Permutation_app; auto; rewrite !app_assoc; apply Permutation_app_tail; auto|]. apply slots_two; auto; lra. }
  destruct RES as (L & PL & R1 & R2). split.
  - intros T. destruct (R1 T) as (A & la & lb & B & C & D). split; auto. exists la, lb. split; auto. split; auto. rewrite PL. exact D.
  - intros T. rewrite (R2 T) in PL. apply Permutation_sym, Permutation_nil in PL. exact PL.
Qed.
End Cell.
