(** The stored flow weights of a rectilinear grid of moderate size and their sums, in IEEE double arithmetic. *)
From Coq Require Import ZArith List Bool Reals Lra Lia Permutation Floats.SpecFloat.
From Flocq Require Import Core BinarySingleNaN.
From Verif Require Import Base Num NumR NumF M_BoxIterator M_LinearSolve M_FindPoint M_Triangulate M_Quad M_QuadLine M_FlowInterp S_Sort S_Grid S_Flow S_FlowTable
  L_LinearSolve L_FindPoint L_NodeInterp L_Float L_FloatOps L_FloatOrder L_FindPointF L_NodeInterpF L_Defined L_FlowInterp L_FlowTwin L_FlowTable L_FlowF L_ApplyF L_ResidualF L_QuadF L_RectF L_FlowRectF L_FlowCellF L_FlowFindF L_FlowWeightF.
Import ListNotations.
Open Scope R_scope.

Definition all_map (P : Z -> Z -> list spec_float -> Prop) (m : list (Z * list (Z * list spec_float))) : Prop :=
  forall k v c w, In (k, v) m -> In (c, w) v -> P k c w.

Lemma all_push : forall P m k c w, all_map P m -> P k c w -> all_map P (map_push m k (c, w)).
Proof.
  intros P. induction m as [|[k' v] m IH]; intros k c w H G k0 v0 c0 w0 I J; cbn [map_push] in I.
  - destruct I as [I|[]]. injection I as <- <-. destruct J as [J|[]]. injection J as <- <-. exact G.
  - assert (HT : all_map P m) by (intros k1 v1 c1 w1 I1 J1; apply (H k1 v1 c1 w1); [right|]; auto).
    destruct (k =? k')%Z eqn:E.
    + apply Z.eqb_eq in E. subst k'. destruct I as [I|I]; [|apply (HT k0 v0 c0 w0 I J)]. injection I as <- <-. apply in_app_or in J. destruct J as [J|[J|[]]]; [apply (H k v c0 w0 (or_introl eq_refl) J)|]. injection J as <- <-. exact G.
    + destruct (k <? k')%Z.
      * destruct I as [I|I]; [|apply (H k0 v0 c0 w0 I J)]. injection I as <- <-. destruct J as [J|[]]. injection J as <- <-. exact G.
      * destruct I as [I|I]; [injection I as <- <-; apply (H k' v c0 w0 (or_introl eq_refl) J)|]. apply (IH k c w HT G k0 v0 c0 w0 I J).
Qed.

Lemma all_row : forall P m k, all_map P m -> forall c w, In (c, w) (row m k) -> P k c w.
Proof.
  intros P. induction m as [|[k' v] m IH]; intros k H c w I; cbn [row] in I; [destruct I|].
  destruct (k =? k')%Z eqn:E; [apply Z.eqb_eq in E; subst k'; apply (H k v c w (or_introl eq_refl) I)|]. apply IH; auto. intros k1 v1 c1 w1 I1. apply H. right. auto.
Qed.

Section Table.
Variable g : gels spec_float.
Hypothesis F2 : flow2 g.
Variable srt : (spec_float -> spec_float -> bool) -> list spec_float -> list spec_float.
Hypothesis ST : sorts srt.
Variables px py qx qy x0 x1 y0 y1 : Z -> spec_float.
Variables nd ns : Z.
Hypothesis CL : forall k c, (0 <= k < nd)%Z -> (0 <= c < ns)%Z -> clear_of (px k) (py k) (qx k) (qy k) (x0 c) (x1 c) (y0 c) (y1 c).

Definition line (k : Z) : pt spec_float * pt spec_float := ((px k, py k), (qx k, qy k)).
Definition cell (c : Z) : quad spec_float := fbox (x0 c) (x1 c) (y0 c) (y1 c).
Definition tin (k c : Z) : R := t_in (fval (px k)) (fval (py k)) (fval (qx k)) (fval (qy k)) (fval (x0 c)) (fval (x1 c)) (fval (y0 c)) (fval (y1 c)).
Definition tout (k c : Z) : R := t_out (fval (px k)) (fval (py k)) (fval (qx k)) (fval (qy k)) (fval (x0 c)) (fval (x1 c)) (fval (y0 c)) (fval (y1 c)).
Definition ux (k c : Z) (t : R) : R := (fval (px k) + t * (fval (qx k) - fval (px k)) - fval (x0 c)) / (fval (x1 c) - fval (x0 c)).
Definition uy (k c : Z) (t : R) : R := (fval (py k) + t * (fval (qy k) - fval (py k)) - fval (y0 c)) / (fval (y1 c) - fval (y0 c)).
Definition stored (k c : Z) (w : list spec_float) : Prop :=
  tin k c < tout k c /\ near_weights (ux k c (tin k c)) (uy k c (tin k c)) (ux k c (tout k c)) (uy k c (tout k c)) w.

Lemma computeWeightsW : forall s s', fl_dstNumCells s = Some nd -> fl_srcNumCells s = Some ns ->
  (forall k, (0 <= k < nd)%Z -> fl_dstLine s k = Ret (line k)) -> (forall c, (0 <= c < ns)%Z -> fl_srcQuad s c = Ret (cell c)) ->
  all_map stored (fl_weights s) -> fl_computeWeights srt g s = Ret s' -> all_map stored (fl_weights s').
Proof.
  intros s s' Ed Es HL HC GM H. unfold fl_computeWeights in H. rewrite Ed, Es in H.
  apply bind_ret_inv in H. destruct H as (x & Hx & H). injection H as <-. cbn [fl_weights].
  pose (P := fun x : flw spec_float => finderW (qf_finder (flw_qf x)) /\ all_map stored (flw_m x)).
  enough (P x) by apply H.
  refine (foldM_inv P _ _ _ _ _ _ Hx); [split; [exact newW|exact GM]|].
  clear x Hx. intros x k x' [FI GX] Hk H. apply in_range in Hk. unfold fl_segment in H. rewrite (HL k Hk) in H. cbn [bind] in H.
  pose (Q := fun x : flw spec_float => P x /\ ql_line (flw_ql x) = Some (line k)).
  assert (Q x') as [K _]; [|exact K].
  refine (foldM_inv Q _ _ _ _ _ _ H); [split; [split|]; auto; reflexivity|].
  clear x x' FI GX H. intros x c x' [[FI GX] EL] Hc H. apply in_range in Hc. unfold fl_cell in H. rewrite (HC c Hc) in H. cbn [bind] in H.
  destruct x as [[q' l' la po] qo m]. cbn [flw_ql flw_qf flw_m ql_line] in *. subst l'.
  unfold ql_reset, ql_setQuadPoints, ql_checkIfOverlap in H. cbn [ql_quad ql_line ql_lambdas ql_points bind] in H.
  destruct (quad_line_overlap (cell c) (line k)); cbn [negb] in H.
  2: { injection H as <-. split; [split|]; auto. }
  unfold ql_collect in H. cbn [ql_quad ql_line ql_lambdas ql_points app bind] in H.
  assert (C := CL k c Hk Hc). destruct (cell_points g F2 srt ST _ _ _ _ _ _ _ _ C) as [K1 K2]. fold (tin k c) (tout k c) in K1, K2. fold (line k) (cell c) in K1, K2.
  destruct (Rlt_dec (tin k c) (tout k c)) as [T|T].
  2: { rewrite (K2 ltac:(lra)) in H. cbn [map length Nat.leb] in H. injection H as <-. split; [split|]; auto. }
  destruct (K1 T) as (_ & A & B & E & PA & PB). rewrite E in H. cbn [length Nat.leb] in H.
  unfold qf_setQuadPoints in H. assert (C' := C). destruct C' as [_ _ _ _ C0 C1 C2 C3 _ _ _ _ _ _ _ _].
  destruct (setW _ _ _ _ _ FI C0 C1 C2 C3) as (f' & EF & FR & FF & BX). fold (cell c) in EF. rewrite EF in H. cbn [bind] in H.
  destruct (segmentsW g F2 _ _ _ _ _ _ _ _ C (mkQf (qf_line qo) (qf_proj qo) f' (qf_xia qo) (qf_xib qo)) A B T FR FF BX PA PB) as (w' & o' & ES & FF' & BW).
  rewrite ES in H. cbn [bind] in H. injection H as <-. split; [|reflexivity]. split; [exact FF'|].
  cbn [flw_m fst]. apply all_push; auto. split; auto.
Qed.

(** The cells that contribute are those the segment runs through. *)
Definition runs (k c : Z) : bool := if Rlt_dec (tin k c) (tout k c) then true else false.

Lemma contributing : forall k cs es, (0 <= k < nd)%Z -> (forall c, In c cs -> (0 <= c < ns)%Z) -> contributions srt g cell (line k) cs es -> map fst es = filter (runs k) cs.
Proof.
  intros k cs es Hk IN H. induction H as [|c cs es S H IH|c cs es w S H IH]; [reflexivity| |]; cbn [map filter fst]; rewrite <- IH by (intros; apply IN; right; auto);
  assert (Hc := IN c (or_introl eq_refl)); destruct (cell_points g F2 srt ST _ _ _ _ _ _ _ _ (CL k c Hk Hc)) as [K1 K2]; fold (tin k c) (tout k c) (line k) (cell c) in K1, K2; unfold runs; destruct (Rlt_dec (tin k c) (tout k c)) as [T|T]; auto; exfalso.
  - destruct (K1 T) as (O & A & B & E & _). destruct S as [S|(pts & (s & S) & L)].
    + unfold may_overlap, ql_checkIfOverlap, ql_setQuadPoints, ql_setLinePoints in S. cbn [ql_quad ql_line] in S. change (@quad_line_overlap spec_float NumF (cell c) (line k) = true) in O. rewrite O in S. discriminate S.
    + unfold ql_collect, ql_setQuadPoints, ql_setLinePoints, ql_new in S. cbn [ql_quad ql_line ql_lambdas app] in S. injection S as S _. assert (EP : pts = [A; B]) by (rewrite <- E; symmetry; exact S). rewrite EP in L. simpl in L. lia.
  - destruct S as (_ & pts & o & o' & (s & S) & L & _). unfold ql_collect, ql_setQuadPoints, ql_setLinePoints, ql_new in S. cbn [ql_quad ql_line ql_lambdas app] in S. injection S as S _.
    assert (Z := K2 ltac:(lra)). assert (EP : pts = []) by (change (@nil (pt spec_float)) with (map (fun t => along (fst (line k)) (snd (line k)) t) (@nil spec_float)); rewrite <- Z; symmetry; exact S). rewrite EP in L. simpl in L. lia.
Qed.
End Table.

(** The weights applied to the increments of nodal values along the edges of the cell: near the increment of the
    bilinear interpolation. *)
Lemma near_increment : forall a b c d vx vy w p00 p10 p01 p11 H h00 h01 k00 k10, near_weights a b c d w -> 0 <= a <= 1 -> 0 <= b <= 1 -> 0 <= c <= 1 -> 0 <= d <= 1 ->
  h00 = p10 - p00 -> h01 = p11 - p01 -> k00 = p01 - p00 -> k10 = p11 - p10 ->
  Rabs h00 <= H -> Rabs h01 <= H -> Rabs k00 <= H -> Rabs k10 <= H -> vx = bilinear p00 p10 p01 p11 c d -> vy = bilinear p00 p10 p01 p11 a b ->
  Rabs (fval (nth 0 w n0) * h00 + fval (nth 1 w n0) * h01 + fval (nth 2 w n0) * k00 + fval (nth 3 w n0) * k10 - (vx - vy)) <= / 10 ^ 7 * H.
Proof.
  intros a b c d vx vy w p00 p10 p01 p11 H h00 h01 k00 k10 (w0 & w1 & w2 & w3 & xa & ya & xb & yb & -> & _ & XA & YA & XB & YB & NXA & NYA & NXB & NYB & W0 & W1 & W2 & W3) Ha Hb Hc Hd E0 E1 E2 E3 B0 B1 B2 B3 -> ->.
  cbn [nth]. assert (HP : 0 <= H) by (assert (Z := Rabs_pos h00); lra).
  set (m0 := (xb - xa) * (1 - (ya + yb) / 2)) in *. set (m1 := (xb - xa) * ((ya + yb) / 2)) in *. set (m2 := (yb - ya) * (1 - (xa + xb) / 2)) in *. set (m3 := (yb - ya) * ((xa + xb) / 2)) in *.
  assert (ID : m0 * h00 + m1 * h01 + m2 * k00 + m3 * k10 = bilinear p00 p10 p01 p11 xb yb - bilinear p00 p10 p01 p11 xa ya) by (unfold m0, m1, m2, m3, bilinear; subst h00 h01 k00 k10; field).
  assert (LIP : forall x y u v, 0 <= y <= 1 -> 0 <= u <= 1 -> Rabs (x - u) <= / 10 ^ 8 -> Rabs (y - v) <= / 10 ^ 8 -> Rabs (bilinear p00 p10 p01 p11 x y - bilinear p00 p10 p01 p11 u v) <= / 10 ^ 8 * (2 * H)).
  { intros x y u v Hy Hu N1 N2. replace (bilinear p00 p10 p01 p11 x y - bilinear p00 p10 p01 p11 u v) with ((x - u) * ((1 - y) * h00 + y * h01) + (y - v) * ((1 - u) * k00 + u * k10)) by (unfold bilinear; subst h00 h01 k00 k10; ring).
    assert (CV : forall s e f, 0 <= s <= 1 -> Rabs e <= H -> Rabs f <= H -> Rabs ((1 - s) * e + s * f) <= H). { intros s e f Hs He Hf. apply Rabs_le_inv in He. apply Rabs_le_inv in Hf. apply Rabs_le. split; nra. }
    eapply Rle_trans; [apply Rabs_triang|]. assert (M1 := mul_le _ _ _ _ N1 (CV y h00 h01 Hy B0 B1)). assert (M2 := mul_le _ _ _ _ N2 (CV u k00 k10 Hu B2 B3)). lra. }
  assert (L1 := LIP xb yb c d YB Hc NXB NYB). assert (L2 := LIP xa ya a b YA Ha NXA NYA).
  assert (M0 := mul_le _ _ _ _ W0 B0). assert (M1 := mul_le _ _ _ _ W1 B1). assert (M2 := mul_le _ _ _ _ W2 B2). assert (M3 := mul_le _ _ _ _ W3 B3).
  assert (UH : 24 * uround * H <= / 10 ^ 12 * H) by (apply Rmult_le_compat_r; [auto|unfold uround; lra]).
  clear - ID L1 L2 M0 M1 M2 M3 UH HP.
  set (z0 := fval w0 * h00) in *. apply Rabs_le_inv in L1, L2, M0, M1, M2, M3. rewrite !Rmult_minus_distr_r in M0, M1, M2, M3. apply Rabs_le. unfold z0. lra.
Qed.
