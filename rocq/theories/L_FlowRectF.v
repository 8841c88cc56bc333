(** Lines across rectangular cells of moderate size in IEEE double arithmetic. *)
From Coq Require Import ZArith List Bool Reals Lra Lia Permutation Floats.SpecFloat.
From Flocq Require Import Core BinarySingleNaN.
From Verif Require Import Base Num NumR NumF M_LinearSolve M_FindPoint M_Triangulate M_Quad M_QuadLine S_Sort S_Geometry S_Quad
  L_LinearSolve L_Float L_FloatOps L_QuadBoxF L_ResidualF L_QuadF L_AffineF L_RectF.
Import ListNotations.
Open Scope R_scope.

(** A solver that reports success on 2 x 2 systems with entries up to [bnd] that stretch by at least [sg]. *)
Definition succeeds2 (g : gels spec_float) (bnd sg : R) : Prop :=
  forall J00 J01 J10 J11 r0 r1 lw, dbl J00 -> dbl J01 -> dbl J10 -> dbl J11 -> dbl r0 -> dbl r1 ->
  Rabs (fval J00) <= bnd -> Rabs (fval J01) <= bnd -> Rabs (fval J10) <= bnd -> Rabs (fval J11) <= bnd -> Rabs (fval r0) <= bnd -> Rabs (fval r1) <= bnd ->
  (forall u v, sg * nm u v <= nm (fval J00 * u + fval J01 * v) (fval J10 * u + fval J11 * v)) ->
  (g_info (g 2%Z 2%Z [J00; J01; J10; J11] 2%Z [r0; r1] 2%Z lw) <= 0)%Z.

(** What is assumed of the linear solver: it returns finite numbers, its residuals are small, it is accurate on systems of
    which each equation has one unknown, and on systems with entries up to 20 and a stretch of at least 1e-6 it
    succeeds with a relative error of eight units. *)
Definition flow2 (g : gels spec_float) : Prop :=
  (forall m k a lda b ldb lw i, dbl (g_rhs (g m k a lda b ldb lw) i)) /\ axis2 (4 * uround) g /\ residual2 (4 * uround) g /\
  accurate2 g 20 (/ 1000000) (8 * uround) (8 * uround) /\ succeeds2 g 20 (/ 1000000).

Definition sp : R := / 1024.

Lemma mul_le : forall a b A B, Rabs a <= A -> Rabs b <= B -> Rabs (a * b) <= A * B.
Proof. intros. rewrite Rabs_mult. apply Rmult_le_compat; auto using Rabs_pos. Qed.

Lemma div_le : forall a b A k, Rabs a <= A -> 0 < k <= Rabs b -> Rabs (a / b) <= A / k.
Proof.
  intros a b A k HA [K0 HK]. assert (0 <= A) by (assert (P := Rabs_pos a); lra). unfold Rdiv. rewrite Rabs_mult, Rabs_inv.
  apply Rmult_le_compat; auto using Rabs_pos. { left. apply Rinv_0_lt_compat. lra. } apply Rinv_le; lra.
Qed.

Lemma apart_abs : forall a b k l, Rabs (a - b) <= k -> l <= Rabs b -> l - k <= Rabs a.
Proof. intros a b k l H L. assert (Rabs b <= Rabs a + Rabs (a - b)); [|lra]. replace b with (a - (a - b)) at 1 by ring. eapply Rle_trans; [apply Rabs_triang|]. rewrite Rabs_Ropp. lra. Qed.

(** The exact solution of the rounded system against the crossing. *)
Lemma tri_reals : forall d e h r s D E H Q S, sp <= Rabs d <= 8 -> Rabs e <= 8 -> / 8 <= Rabs h <= 8 -> Rabs r <= 8 -> Rabs s <= 8 ->
  let k := 9 * uround in Rabs (D - d) <= k -> Rabs (E - e) <= k -> Rabs (H - h) <= k -> Rabs (Q - r) <= k -> Rabs (S - s) <= k ->
  let t := r / d in let x := (s - e * t) / h in let z1 := Q / D in let z0 := (S - E * z1) / H in
  D * z1 = Q /\ H * z0 + E * z1 = S /\ Rabs t <= 8192 /\ Rabs x <= 600000 /\ Rabs (z1 - t) <= / 10 ^ 8 /\ Rabs (z0 - x) <= / 10 ^ 6 /\
  (forall u v, / 1000000 * nm u v <= nm (D * v) (H * u + E * v)).
Proof.
  intros d e h r s D E H Q S Hd He Hh Hr Hs k KD KE KH KQ KS t x z1 z0. unfold sp in Hd.
  assert (KV : 0 < k <= / 10 ^ 14) by (unfold k, uround; lra).
  assert (LD : / 1025 <= Rabs D) by (assert (Z := apart_abs D d k (/ 1024) KD ltac:(lra)); lra).
  assert (LH : / 9 <= Rabs H) by (assert (Z := apart_abs H h k (/ 8) KH ltac:(lra)); lra).
  assert (ND : D <> 0) by (intros Z; rewrite Z, Rabs_R0 in LD; lra). assert (NH : H <> 0) by (intros Z; rewrite Z, Rabs_R0 in LH; lra).
  assert (Nd : d <> 0) by (intros Z; rewrite Z, Rabs_R0 in Hd; lra). assert (Nh : h <> 0) by (intros Z; rewrite Z, Rabs_R0 in Hh; lra).
  assert (BE : Rabs E <= 9). { replace E with ((E - e) + e) by ring. eapply Rle_trans; [apply Rabs_triang|]. lra. }
  assert (T1 : Rabs t <= 8192) by (eapply Rle_trans; [apply (div_le r d 8 (/ 1024)); lra|lra]).
  assert (X1 : Rabs x <= 600000).
  { eapply Rle_trans; [apply (div_le _ h (8 + 8 * 8192) (/ 8)); [|lra]|lra]. eapply Rle_trans; [apply Rabs_triang|]. rewrite Rabs_Ropp. assert (Z := mul_le e t 8 8192 He T1). lra. }
  assert (Z1 : Rabs (z1 - t) <= / 10 ^ 8).
  { replace (z1 - t) with (((Q - r) - t * (D - d)) / D) by (unfold z1, t; field; auto).
    eapply Rle_trans; [apply (div_le _ D (k + 8192 * k) (/ 1025)); [|lra]|unfold k, uround; lra].
    eapply Rle_trans; [apply Rabs_triang|]. rewrite Rabs_Ropp. assert (Z := mul_le t (D - d) 8192 k T1 KD). lra. }
  split; [unfold z1; field; auto|]. split; [unfold z0; field; auto|]. split; auto. split; auto. split; auto. split.
  - replace (z0 - x) with (((S - s) - E * (z1 - t) - t * (E - e) - x * (H - h)) / H) by (unfold z0, x; field; auto).
    eapply Rle_trans; [apply (div_le _ H (k + 9 * / 10 ^ 8 + 8192 * k + 600000 * k) (/ 9)); [|lra]|unfold k, uround; lra].
    assert (P1 := mul_le E (z1 - t) 9 _ BE Z1). assert (P2 := mul_le t (E - e) 8192 k T1 KE). assert (P3 := mul_le x (H - h) 600000 k X1 KH).
    apply Rabs_le_inv in P1, P2, P3, KS. apply Rabs_le. lra.
  - intros u v. assert (NP := nm_pos u v). assert (A1 := nm_l (D * v) (H * u + E * v)). assert (A2 := nm_r (D * v) (H * u + E * v)).
    destruct (Rle_or_lt (nm u v / 200) (Rabs v)) as [L|L].
    + eapply Rle_trans; [|exact A1]. rewrite Rabs_mult. apply Rle_trans with (/ 1025 * (nm u v / 200)); [lra|]. apply Rmult_le_compat; lra.
    + eapply Rle_trans; [|exact A2]. assert (NU : nm u v = Rabs u) by (unfold nm, Rmax in *; destruct (Rle_dec (Rabs u) (Rabs v)); lra).
      assert (P1 := mul_le E v 9 _ BE (Rlt_le _ _ L)). assert (P2 : / 9 * Rabs u <= Rabs (H * u)) by (rewrite Rabs_mult; apply Rmult_le_compat_r; [apply Rabs_pos|auto]).
      assert (Rabs (H * u) <= Rabs (H * u + E * v) + Rabs (E * v)); [|lra]. replace (H * u) with ((H * u + E * v) - E * v) at 1 by ring. eapply Rle_trans; [apply Rabs_triang|]. rewrite Rabs_Ropp. lra.
Qed.

Section Cell.
Variable g : gels spec_float.
Hypothesis F2 : flow2 g.

Let st_lo : 4 / 10 ^ 7 <= sp. Proof. unfold sp. lra. Qed.
Let st_hi : sp <= 2 * 4. Proof. unfold sp. lra. Qed.
Let m_one : 1 <= 4. Proof. lra. Qed.
Let m_big : 4 <= bpow radix2 400.
Proof. change 4 with (bpow radix2 2). apply bpow_le. lia. Qed.
Let eta_ok : 0 <= 4 * uround <= / 10 ^ 13. Proof. unfold uround. lra. Qed.
Let AX : axis2 (4 * uround) g. Proof. apply F2. Qed.

Definition co : spec_float -> Prop := coord 4.
Definition ap : spec_float -> spec_float -> Prop := apart sp.

Lemma ap_sym : forall x y, ap x y -> ap y x. Proof. unfold ap, apart. intros. rewrite Rabs_minus_sym. auto. Qed.

Lemma sub_near : forall x y, co x -> co y -> dbl (nsub x y) /\ Rabs (fval (nsub x y) - (fval x - fval y)) <= 9 * uround /\ Rabs (fval x - fval y) <= 8 /\ Rabs (fval (nsub x y)) <= 9 /\
  (fval x = fval y -> fval (nsub x y) = 0).
Proof.
  intros x y Cx Cy. destruct (diff 4 sp m_one m_big st_lo st_hi x y Cx Cy) as (D & E & _ & Z & _). assert (B := diff_size 4 x y Cx Cy).
  assert (K : Rabs (fval (nsub x y) - (fval x - fval y)) <= 9 * uround) by (unfold sp in E; assert (uround * Rabs (fval x - fval y) <= uround * 8) by (apply Rmult_le_compat_l; [unfold uround|]; lra); unfold uround in *; lra).
  split; auto. split; auto. split; [lra|]. split; auto. replace (fval (nsub x y)) with ((fval (nsub x y) - (fval x - fval y)) + (fval x - fval y)) by ring.
  eapply Rle_trans; [apply Rabs_triang|]. unfold uround in *. lra.
Qed.

Lemma qtol : dbl (nopp ql_tol) /\ fval (nopp ql_tol) = - (200 * uround) /\ dbl (nadd n1 ql_tol) /\ fval (nadd n1 ql_tol) = 1 + 200 * uround.
Proof.
  assert (E : nopp ql_tol = S754_finite true 7036874417766400 (-98)) by (vm_compute; reflexivity). assert (E2 : nadd n1 ql_tol = S754_finite false 4503599627370596 (-52)) by (vm_compute; reflexivity).
  rewrite E, E2. split; [split; reflexivity|]. split; [|split; [split; reflexivity|]]; unfold fval, SF2R, F2R; cbn [Fnum Fexp cond_Zopp].
  - change (bpow radix2 (-98)) with (/ IZR (2 ^ 98)). change (2 ^ 98)%Z with 316912650057057350374175801344%Z. change (Z.opp 7036874417766400) with (-7036874417766400)%Z. unfold uround. lra.
  - change (bpow radix2 (-52)) with (/ 4503599627370496). unfold uround. lra.
Qed.

(** *** The test of an end *)
Lemma tri_end : forall px py ax ay bx cy, co px -> co py -> co ax -> co ay -> co bx -> co cy ->
  ap bx ax -> ap cy ay -> ap px ax -> ap px bx -> ap py ay -> ap py cy ->
  let s := (fval px - fval ax) / (fval bx - fval ax) in let t := (fval py - fval ay) / (fval cy - fval ay) in
  (0 < s < 1 -> 0 < t < 1 -> s + t <= 1 -> tri_inside ql_tol g (px, py) (ax, ay) (bx, ay) (ax, cy) = true) /\
  (~ (0 < s < 1 /\ 0 < t < 1) -> tri_inside ql_tol g (px, py) (ax, ay) (bx, ay) (ax, cy) = false).
Proof.
  intros px py ax ay bx cy Cpx Cpy Cax Cay Cbx Ccy A1 A2 P1 P2 P3 P4 s t.
  destruct (param 4 sp m_one m_big st_lo px ax bx Cpx Cax Cbx (ap_sym _ _ A1) P1 P2) as (Ks & _ & Bs & _). destruct (param 4 sp m_one m_big st_lo py ay cy Cpy Cay Ccy (ap_sym _ _ A2) P3 P4) as (Kt & _ & Bt & _).
  fold s in Ks, Bs. fold t in Kt, Bt.
  destruct (solve_diag 4 sp (4 * uround) m_one m_big st_lo st_hi eta_ok g AX bx ax cy ay px ax py ay ax ax ay ay Cbx Cax Ccy Cay Cpx Cax Cpy Cay Cax Cax Cay Cay eq_refl eq_refl A1 A2) as ((xi & et & E & Dx & De & Hx & He) & _).
  fold s in Hx. fold t in He. unfold tri_inside. cbn [fst snd]. rewrite E. change (0 <? 0)%Z with false. cbv iota.
  destruct qtol as (Do & Vo & Dp & Vp). assert (U := u_rng). assert (TI := tiny_u).
  assert (K1 : s - 16 * uround * (1 + Rabs s) <= fval xi <= s + 16 * uround * (1 + Rabs s)) by (apply Rabs_le_inv in Hx; unfold tau in Hx; unfold uround in *; lra).
  assert (K2 : t - 16 * uround * (1 + Rabs t) <= fval et <= t + 16 * uround * (1 + Rabs t)) by (apply Rabs_le_inv in He; unfold tau in He; unfold uround in *; lra).
  unfold clear, gam in Ks, Kt.
  assert (BS : Rabs (fval xi + fval et) <= bpow radix2 1000).
  { assert (Rabs (fval xi) <= 2 * Rabs s + 1) by (revert K1; unfold uround, Rabs at 1 2 3 4; destruct (Rcase_abs s), (Rcase_abs (fval xi)); intros; lra).
    assert (Rabs (fval et) <= 2 * Rabs t + 1) by (revert K2; unfold uround, Rabs at 1 2 3 4; destruct (Rcase_abs t), (Rcase_abs (fval et)); intros; lra).
    eapply Rle_trans; [apply Rabs_triang|]. apply Rle_trans with (bpow radix2 3 * bpow radix2 500); [|rewrite <- bpow_plus; apply bpow_le; lia].
    assert (1 <= bpow radix2 500) by (change 1 with (bpow radix2 0); apply bpow_le; lia). change (bpow radix2 3) with 8. lra. }
  destruct (f_add xi et Dx De BS) as [Da Va]. assert (ES := rnd_error (fval xi + fval et)). rewrite <- Va in ES.
  rewrite !f_lt, !f_le by auto. rewrite Vo, Vp. split.
  - intros S T ST. rewrite (Rabs_pos_eq s) in K1 by lra. rewrite (Rabs_pos_eq t) in K2 by lra.
    assert (Bn : uround * Rabs (fval xi + fval et) <= uround * 2) by (apply Rmult_le_compat_l; [lra|apply Rabs_le; unfold uround in *; lra]). apply Rabs_le_inv in ES.
    rewrite !andb_true_iff, !Rltb_true, !Rleb_true. unfold uround in *. split; [split; [split|]|]; lra.
  - intros H.
    assert (C : s <= - (/ 10 ^ 7 / 2) \/ 1 + / 10 ^ 7 / 2 <= s \/ t <= - (/ 10 ^ 7 / 2) \/ 1 + / 10 ^ 7 / 2 <= t).
    { destruct Ks as [Ks|[Ks|Ks]]; auto. destruct Kt as [Kt|[Kt|Kt]]; auto. exfalso. apply H. lra. }
    destruct C as [C|[C|[C|C]]].
    + rewrite (Rabs_left s) in K1 by lra. replace (Rltb (- (200 * uround)) (fval xi)) with false by (symmetry; apply Rltb_false; unfold uround in *; lra). reflexivity.
    + rewrite (Rabs_pos_eq s) in K1 by lra. replace (Rleb (fval xi) (1 + 200 * uround)) with false by (symmetry; apply Rleb_false; unfold uround in *; lra). rewrite andb_false_r. reflexivity.
    + rewrite (Rabs_left t) in K2 by lra. replace (Rltb (- (200 * uround)) (fval et)) with false by (symmetry; apply Rltb_false; unfold uround in *; lra). rewrite andb_false_r. reflexivity.
    + rewrite (Rabs_pos_eq t) in K2 by lra. destruct (Rltb (- (200 * uround)) (fval xi)) eqn:Q; [|reflexivity]. apply Rltb_true in Q.
      rewrite (Rabs_pos_eq (fval xi + fval et)) in ES by (unfold uround in *; lra). apply Rabs_le_inv in ES.
      replace (Rleb (fval (nadd xi et)) (1 + 200 * uround)) with false; [rewrite andb_false_r; reflexivity|]. symmetry; apply Rleb_false. unfold uround in *. lra.
Qed.

Lemma end_test : forall px py x0 x1 y0 y1, co px -> co py -> co x0 -> co x1 -> co y0 -> co y1 ->
  sp <= fval x1 - fval x0 -> sp <= fval y1 - fval y0 -> ap px x0 -> ap px x1 -> ap py y0 -> ap py y1 ->
  quad_inside ql_tol g (px, py) (fbox x0 x1 y0 y1) = inner x0 px x1 && inner y0 py y1.
Proof.
  intros px py x0 x1 y0 y1 Cpx Cpy C0 C1 C2 C3 LX LY P1 P2 P3 P4. assert (SP : 0 < sp) by (unfold sp; lra).
  assert (A1 : ap x1 x0) by (unfold ap, apart; rewrite Rabs_pos_eq; lra). assert (A2 : ap y1 y0) by (unfold ap, apart; rewrite Rabs_pos_eq; lra).
  destruct (param 4 sp m_one m_big st_lo px x0 x1 Cpx C0 C1 (ap_sym _ _ A1) P1 P2) as (_ & W1 & _ & E1). destruct (param 4 sp m_one m_big st_lo py y0 y1 Cpy C2 C3 (ap_sym _ _ A2) P3 P4) as (_ & W2 & _ & E2).
  destruct (tri_end px py x0 y0 x1 y1 Cpx Cpy C0 C2 C1 C3 A1 A2 P1 P2 P3 P4) as [T1 F1].
  destruct (tri_end px py x1 y1 x0 y0 Cpx Cpy C1 C3 C0 C2 (ap_sym _ _ A1) (ap_sym _ _ A2) P2 P1 P4 P3) as [T2 G2].
  set (s := (fval px - fval x0) / (fval x1 - fval x0)) in *. set (t := (fval py - fval y0) / (fval y1 - fval y0)) in *.
  replace ((fval px - fval x1) / (fval x0 - fval x1)) with (1 - s) in * by (unfold s; field; lra).
  replace ((fval py - fval y1) / (fval y0 - fval y1)) with (1 - t) in * by (unfold t; field; lra).
  unfold quad_inside, fbox. cbn [q0 q1 q2 q3].
  destruct (inner x0 px x1 && inner y0 py y1) eqn:I.
  - apply andb_prop in I. destruct I as [I1 I2]. apply (inner_true _ eta_ok) in I1, I2.
    assert (S : 0 < s < 1) by (apply W1; auto). assert (T : 0 < t < 1) by (apply W2; auto).
    destruct (Rle_or_lt (s + t) 1) as [L|L]; [rewrite T1 by (auto; lra); reflexivity|]. rewrite T2 by lra. apply orb_true_r.
  - assert (NI : ~ (0 < s < 1 /\ 0 < t < 1)).
    { intros [S T]. apply W1 in S. apply W2 in T. destruct S as [S|S]; [|lra]. destruct T as [T|T]; [|lra].
      assert (inner x0 px x1 = true) by (apply (inner_true _ eta_ok); auto). assert (inner y0 py y1 = true) by (apply (inner_true _ eta_ok); auto). rewrite H, H0 in I. discriminate. }
    rewrite F1 by auto. rewrite G2 by (intros [S T]; apply NI; lra). reflexivity.
Qed.

(** *** The crossing with an edge *)
Lemma along1 : forall a b t, co a -> co b -> dbl t -> - / 1000 <= fval t <= 1 + / 1000 ->
  dbl (nadd a (nmul t (nsub b a))) /\ Rabs (fval (nadd a (nmul t (nsub b a))) - (fval a + fval t * (fval b - fval a))) <= 24 * uround.
Proof.
  intros a b t Ca Cb Dt Ht. destruct (sub_near b a Cb Ca) as (D & E & B & B9 & _). destruct Ca as [Da Ba], Cb as [Db Bb]. assert (U := u_rng). assert (TI := tiny_u).
  assert (At : Rabs (fval t) <= 1 + / 1000) by (apply Rabs_le; lra). assert (P1 := mul_le _ _ _ _ At B9).
  destruct (f_mul t (nsub b a) Dt D) as [Dm Vm]. { eapply Rle_trans; [exact P1|]. apply Rle_trans with (bpow radix2 4); [simpl; lra|apply bpow_le; lia]. }
  assert (Em := rnd_error (fval t * fval (nsub b a))). rewrite <- Vm in Em. set (m := nmul t (nsub b a)) in *.
  assert (E2 := mul_le _ _ _ _ At E). apply Rabs_le_inv in Ba, Bb.
  assert (Q1 : Rabs (fval m - fval t * fval (nsub b a)) <= 96 / 10 * uround).
  { assert (uround * Rabs (fval t * fval (nsub b a)) <= uround * ((1 + / 1000) * 9)) by (apply Rmult_le_compat_l; lra). unfold uround in *; lra. }
  assert (C : Rabs (fval a + fval t * (fval b - fval a)) <= 4 + / 100).
  { replace (fval a + fval t * (fval b - fval a)) with ((1 - fval t) * fval a + fval t * fval b) by ring.
    assert (T := Rle_or_lt 0 (fval t)). apply Rabs_le.
    assert (K : forall k z, - / 1000 <= k <= 1 + / 1000 -> - 4 <= z <= 4 -> (0 <= k -> - (4 * k) <= k * z <= 4 * k) /\ (k <= 0 -> 4 * k <= k * z <= - (4 * k))).
    { intros k z Hk Hz. split; intros K0; split; nra. }
    destruct (K (fval t) (fval b) ltac:(lra) ltac:(lra)) as [K1 K2]. destruct (K (1 - fval t) (fval a) ltac:(lra) ltac:(lra)) as [K3 K4].
    destruct T as [T|T]; destruct (Rle_or_lt 0 (1 - fval t)) as [T'|T'];
      try specialize (K1 ltac:(lra)); try specialize (K2 ltac:(lra)); try specialize (K3 ltac:(lra)); try specialize (K4 ltac:(lra)); lra. }
  assert (S : Rabs (fval m - fval t * (fval b - fval a)) <= 187 / 10 * uround).
  { replace (fval m - fval t * (fval b - fval a)) with ((fval m - fval t * fval (nsub b a)) + fval t * (fval (nsub b a) - (fval b - fval a))) by ring.
    eapply Rle_trans; [apply Rabs_triang|]. unfold uround in *; lra. }
  assert (S2 : Rabs (fval a + fval m) <= 5).
  { replace (fval a + fval m) with ((fval a + fval t * (fval b - fval a)) + (fval m - fval t * (fval b - fval a))) by ring. eapply Rle_trans; [apply Rabs_triang|]. unfold uround in *. lra. }
  destruct (f_add a m Da Dm) as [Ds Vs]. { eapply Rle_trans; [exact S2|]. apply Rle_trans with (bpow radix2 3); [simpl; lra|apply bpow_le; lia]. }
  split; [exact Ds|]. assert (Es := rnd_error (fval a + fval m)). rewrite <- Vs in Es.
  assert (S3 : Rabs (fval a + fval m) <= 4 + / 50).
  { replace (fval a + fval m) with ((fval a + fval t * (fval b - fval a)) + (fval m - fval t * (fval b - fval a))) by ring. eapply Rle_trans; [apply Rabs_triang|]. unfold uround in *. lra. }
  replace (fval (nadd a m) - (fval a + fval t * (fval b - fval a))) with ((fval (nadd a m) - (fval a + fval m)) + (fval m - fval t * (fval b - fval a))) by ring.
  eapply Rle_trans; [apply Rabs_triang|]. assert (uround * Rabs (fval a + fval m) <= uround * (4 + / 50)) by (apply Rmult_le_compat_l; lra). unfold uround in *; lra.
Qed.

Definition cleared (s : R) : Prop := s <= - / 8192 \/ / 8192 <= s <= 1 - / 8192 \/ 1 + / 8192 <= s.

Lemma accept_edge : forall xi et x t, dbl xi -> dbl et -> Rabs (fval xi - x) <= / 10 ^ 5 -> Rabs (fval et - t) <= / 10 ^ 7 -> cleared t -> (0 < t < 1 -> cleared x) ->
  let b := ((xi >=? - ql_tol) && (xi <? n1 + ql_tol) && (et >=? - ql_tol) && (et <? n1 + ql_tol))%num in
  (0 < t < 1 -> 0 < x < 1 -> b = true) /\ (~ (0 < t < 1 /\ 0 < x < 1) -> b = false).
Proof.
  intros xi et x t Dx De Hx He Ct Cx b. destruct qtol as (Do & Vo & Dp & Vp). apply Rabs_le_inv in Hx, He. unfold cleared in *. unfold b.
  rewrite !f_lt, !f_le by auto. rewrite Vo, Vp. assert (U : 0 < 200 * uround <= / 10 ^ 13) by (unfold uround; lra). set (tl := 200 * uround) in *. clearbody tl. split.
  - intros T X. specialize (Cx T). rewrite !andb_true_iff, !Rltb_true, !Rleb_true. lra.
  - intros N. rewrite !andb_false_iff, !Rltb_false, !Rleb_false.
    destruct Ct as [Ct|[Ct|Ct]]; [left; right; lra| |right; lra]. specialize (Cx ltac:(lra)). destruct Cx as [Cx|[Cx|Cx]]; [do 3 left; lra|exfalso; apply N; lra|left; left; right; lra].
Qed.

Lemma crossing_param : forall p q x, co p -> co q -> co x -> ap p q -> ap p x -> ap q x -> cleared ((fval x - fval p) / (fval q - fval p)).
Proof.
  intros p q x Cp Cq Cx PQ PX QX. assert (S1 := diff_size 4 q p Cq Cp). unfold ap, apart, sp in *.
  set (d := fval q - fval p) in *. assert (L : / 1024 <= Rabs d) by (unfold d; rewrite Rabs_minus_sym; auto). assert (Nd : d <> 0) by (intros Z; rewrite Z, Rabs_R0 in L; lra).
  set (t := (fval x - fval p) / d). assert (E1 : fval x - fval p = t * d) by (unfold t; field; auto). assert (E2 : fval x - fval q = (t - 1) * d) by (unfold d in *; lra).
  rewrite Rabs_minus_sym, E1, Rabs_mult in PX. rewrite Rabs_minus_sym, E2, Rabs_mult in QX.
  assert (K1 : / 8192 <= Rabs t). { destruct (Rle_or_lt (/ 8192) (Rabs t)); auto. assert (Rabs t * Rabs d <= Rabs t * 8) by (apply Rmult_le_compat_l; [apply Rabs_pos|lra]). lra. }
  assert (K2 : / 8192 <= Rabs (t - 1)). { destruct (Rle_or_lt (/ 8192) (Rabs (t - 1))); auto. assert (Rabs (t - 1) * Rabs d <= Rabs (t - 1) * 8) by (apply Rmult_le_compat_l; [apply Rabs_pos|lra]). lra. }
  unfold cleared. revert K1 K2. unfold Rabs. destruct (Rcase_abs t), (Rcase_abs (t - 1)); intros; lra.
Qed.

Lemma real_param : forall c a b, Rabs (a - b) <= 8 -> / 8 <= Rabs (b - a) -> sp <= Rabs (c - a) -> sp <= Rabs (c - b) ->
  cleared ((c - a) / (b - a)) /\ (0 < (c - a) / (b - a) < 1 <-> a < c < b \/ b < c < a).
Proof.
  intros c a b S1 L PX QX. unfold sp in *. set (d := b - a) in *. assert (Nd : d <> 0) by (intros Z; rewrite Z, Rabs_R0 in L; lra). rewrite Rabs_minus_sym in S1. fold d in S1.
  set (t := (c - a) / d). assert (E1 : c - a = t * d) by (unfold t; field; auto). assert (E2 : c - b = (t - 1) * d) by (unfold d in *; lra). split.
  - rewrite E1, Rabs_mult in PX. rewrite E2, Rabs_mult in QX.
    assert (K1 : / 8192 <= Rabs t). { destruct (Rle_or_lt (/ 8192) (Rabs t)); auto. assert (Rabs t * Rabs d <= Rabs t * 8) by (apply Rmult_le_compat_l; [apply Rabs_pos|lra]). lra. }
    assert (K2 : / 8192 <= Rabs (t - 1)). { destruct (Rle_or_lt (/ 8192) (Rabs (t - 1))); auto. assert (Rabs (t - 1) * Rabs d <= Rabs (t - 1) * 8) by (apply Rmult_le_compat_l; [apply Rabs_pos|lra]). lra. }
    unfold cleared. revert K1 K2. unfold Rabs. destruct (Rcase_abs t), (Rcase_abs (t - 1)); intros; lra.
  - split.
    + intros [T1 T2]. destruct (Rle_or_lt d 0) as [Z|Z].
      * right. assert (0 < t * (- d)) by (apply Rmult_lt_0_compat; lra). assert (0 < (1 - t) * (- d)) by (apply Rmult_lt_0_compat; lra). unfold d in *. lra.
      * left. assert (0 < t * d) by (apply Rmult_lt_0_compat; lra). assert (0 < (1 - t) * d) by (apply Rmult_lt_0_compat; lra). unfold d in *. lra.
    + intros [C|C].
      * assert (0 < d) by (unfold d; lra). split; [apply Rmult_lt_reg_r with d; lra|]. apply Rmult_lt_reg_r with d; [auto|]. unfold d in *; lra.
      * assert (0 < - d) by (unfold d; lra). split; [apply Rmult_lt_reg_r with (- d); lra|]. apply Rmult_lt_reg_r with (- d); [auto|]. unfold d in *; lra.
Qed.

(** What is known about an accepted parameter: the computed coordinate across the edge and along it. *)
Definition crossed (p q x r s : spec_float) (t : R) (et : spec_float) : Prop :=
  dbl et /\ Rabs (fval et - t) <= / 10 ^ 7 /\
  (dbl (nadd p (nmul et (nsub q p))) /\ Rabs (fval (nadd p (nmul et (nsub q p))) - fval x) <= 160 * uround) /\
  (dbl (nadd r (nmul et (nsub s r))) /\ Rabs (fval (nadd r (nmul et (nsub s r))) - (fval r + t * (fval s - fval r))) <= / 10 ^ 9).

(** The system of an edge at x, from ya to yb across the other axis, and the line from (p, r) to (q, s), with rows in
    either order; [xi], [et] are what the solver returns. *)
Lemma cross_core : forall p q x r s ya yb xi et, co p -> co q -> co x -> co r -> co s -> co ya -> co yb ->
  ap p q -> / 8 <= Rabs (fval yb - fval ya) ->
  let t := (fval x - fval p) / (fval q - fval p) in let c := fval r + t * (fval s - fval r) in let k := (c - fval ya) / (fval yb - fval ya) in
  let D := nsub p q in let E := nsub r s in let H := nsub yb ya in let Q := nsub p x in let S := nsub r ya in
  dbl xi -> dbl et ->
  (forall z0 z1, fval D * z1 = fval Q -> fval H * z0 + fval E * z1 = fval S -> (forall u v, / 1000000 * nm u v <= nm (fval D * v) (fval H * u + fval E * v)) ->
     Rabs (fval xi - z0) <= 8 * uround * nm z0 z1 + 8 * uround /\ Rabs (fval et - z1) <= 8 * uround * nm z0 z1 + 8 * uround) ->
  Rabs (fval D * fval et - fval Q) <= 4 * uround * 9 * (1 + Rabs (fval xi) + Rabs (fval et)) ->
  Rabs (fval xi - k) <= / 10 ^ 5 /\ Rabs (fval et - t) <= / 10 ^ 7 /\
  (0 < t < 1 -> 0 < k < 1 -> crossed p q x r s t et).
Proof.
  intros p q x r s ya yb xi et Cp Cq Cx Cr Cs Ca Cb PQ LY t c k D E H Q S Dx De ACC RES.
  destruct (sub_near p q Cp Cq) as (_ & E1 & B1 & _). destruct (sub_near r s Cr Cs) as (_ & E2 & B2 & _). destruct (sub_near yb ya Cb Ca) as (_ & E3 & B3 & _).
  destruct (sub_near p x Cp Cx) as (_ & E4 & B4 & _). destruct (sub_near r ya Cr Ca) as (_ & E5 & B5 & _). fold D in E1. fold E in E2. fold H in E3. fold Q in E4. fold S in E5.
  unfold ap, apart in PQ. assert (Npq : fval q - fval p <> 0). { intros Z. replace (fval p - fval q) with 0 in PQ by lra. rewrite Rabs_R0 in PQ. unfold sp in PQ. lra. }
  assert (Nab : fval yb - fval ya <> 0) by (intros Z; rewrite Z, Rabs_R0 in LY; lra).
  destruct (tri_reals (fval p - fval q) (fval r - fval s) (fval yb - fval ya) (fval p - fval x) (fval r - fval ya) (fval D) (fval E) (fval H) (fval Q) (fval S)) as (Z1 & Z0 & T1 & K1 & N1 & N0 & STR); auto.
  assert (ET : (fval p - fval x) / (fval p - fval q) = t) by (unfold t; field; lra). rewrite ET in *.
  assert (EK : (fval r - fval ya - (fval r - fval s) * t) / (fval yb - fval ya) = k) by (unfold k, c; f_equal; ring). rewrite EK in *.
  set (z1 := fval Q / fval D) in *. set (z0 := (fval S - fval E * z1) / fval H) in *.
  destruct (ACC z0 z1 Z1 Z0 STR) as [A0 A1].
  assert (NM : nm z0 z1 <= 700000).
  { apply nm_le; [replace z0 with (k + (z0 - k)) by ring|replace z1 with (t + (z1 - t)) by ring]; (eapply Rle_trans; [apply Rabs_triang|]; lra). }
  assert (SM : 8 * uround * nm z0 z1 <= 8 * uround * 700000) by (apply Rmult_le_compat_l; [unfold uround; lra|auto]).
  assert (X : Rabs (fval xi - k) <= / 10 ^ 5) by (replace (fval xi - k) with ((fval xi - z0) + (z0 - k)) by ring; eapply Rle_trans; [apply Rabs_triang|]; unfold uround in *; lra).
  assert (T : Rabs (fval et - t) <= / 10 ^ 7) by (replace (fval et - t) with ((fval et - z1) + (z1 - t)) by ring; eapply Rle_trans; [apply Rabs_triang|]; unfold uround in *; lra).
  split; auto. split; auto. intros HT HK. assert (X' := X). assert (T' := T). apply Rabs_le_inv in X', T'.
  assert (BX : Rabs (fval xi) <= 1 + / 1000) by (apply Rabs_le; lra). assert (BT : Rabs (fval et) <= 1 + / 1000) by (apply Rabs_le; lra).
  assert (W : Rabs (fval et * (fval p - fval q) - (fval p - fval x)) <= 1269 / 10 * uround).
  { replace (fval et * (fval p - fval q) - (fval p - fval x)) with ((fval D * fval et - fval Q) + (- (fval et * (fval D - (fval p - fval q))) + (fval Q - (fval p - fval x)))) by ring.
    assert (P1 := mul_le _ _ _ _ BT E1). assert (4 * uround * 9 * (1 + Rabs (fval xi) + Rabs (fval et)) <= 4 * uround * 9 * (3 + 2 / 1000)) by (apply Rmult_le_compat_l; [unfold uround|]; lra).
    eapply Rle_trans; [apply Rabs_triang|]. assert (Rabs (- (fval et * (fval D - (fval p - fval q))) + (fval Q - (fval p - fval x))) <= (1 + / 1000) * (9 * uround) + 9 * uround) by (eapply Rle_trans; [apply Rabs_triang|]; rewrite Rabs_Ropp; lra).
    unfold uround in *; lra. }
  assert (TT : Rabs (fval et - t) <= 1269 / 10 * uround * 1024).
  { replace (fval et - t) with ((fval et * (fval p - fval q) - (fval p - fval x)) / (fval p - fval q)) by (unfold t; field; lra).
    eapply Rle_trans; [apply (div_le _ _ _ (/ 1024) W); unfold sp in PQ; lra|]. lra. }
  split; [exact De|]. split; [exact T|].
  destruct (along1 p q et Cp Cq De ltac:(lra)) as [D1 V1]. destruct (along1 r s et Cr Cs De ltac:(lra)) as [D2 V2]. split; (split; [assumption|]).
  - replace (fval (nadd p (nmul et (nsub q p))) - fval x) with ((fval (nadd p (nmul et (nsub q p))) - (fval p + fval et * (fval q - fval p))) + - (fval et * (fval p - fval q) - (fval p - fval x))) by ring.
    eapply Rle_trans; [apply Rabs_triang|]. rewrite Rabs_Ropp. unfold uround in *; lra.
  - replace (fval (nadd r (nmul et (nsub s r))) - (fval r + t * (fval s - fval r))) with ((fval (nadd r (nmul et (nsub s r))) - (fval r + fval et * (fval s - fval r))) + - ((fval et - t) * (fval r - fval s))) by ring.
    eapply Rle_trans; [apply Rabs_triang|]. rewrite Rabs_Ropp. assert (P := mul_le _ _ _ _ TT B2). unfold uround in *; lra.
Qed.

Definition between2 (c a b : R) : Prop := a < c < b \/ b < c < a.

Lemma zero_diff : forall x, co x -> dbl (nsub x x) /\ fval (nsub x x) = 0.
Proof. intros x C. destruct (sub_near x x C C) as (D & _ & _ & _ & Z). auto. Qed.

Lemma edge_v : forall px py qx qy x ya yb, co px -> co py -> co qx -> co qy -> co x -> co ya -> co yb ->
  ap px qx -> ap px x -> ap qx x -> / 8 <= Rabs (fval yb - fval ya) ->
  let t := (fval x - fval px) / (fval qx - fval px) in let c := fval py + t * (fval qy - fval py) in
  (0 < t < 1 -> sp <= Rabs (c - fval ya) /\ sp <= Rabs (c - fval yb)) ->
  (0 < t < 1 -> between2 c (fval ya) (fval yb) -> exists et, edge_line g (x, ya) (x, yb) (px, py) (qx, qy) = [et] /\ crossed px qx x py qy t et) /\
  (~ (0 < t < 1 /\ between2 c (fval ya) (fval yb)) -> edge_line g (x, ya) (x, yb) (px, py) (qx, qy) = []).
Proof.
  intros px py qx qy x ya yb C1 C2 C3 C4 C5 C6 C7 PQ PX QX LY t c CL. destruct F2 as (FI & _ & RS & AC & SU).
  destruct (zero_diff x C5) as [D0 V0]. destruct (sub_near px qx C1 C3) as (D1 & _ & _ & N1 & _). destruct (sub_near yb ya C7 C6) as (D2 & _ & B2 & N2 & _).
  destruct (sub_near py qy C2 C4) as (D3 & _ & _ & N3 & _). destruct (sub_near px x C1 C5) as (D4 & _ & _ & N4 & _). destruct (sub_near py ya C2 C6) as (D5 & _ & _ & N5 & _).
  assert (N0 : Rabs (fval (nsub x x)) <= 9) by (rewrite V0, Rabs_R0; lra).
  destruct (solve2_eq g (nsub x x) (nsub px qx) (nsub yb ya) (nsub py qy) (nsub px x) (nsub py ya)) as [lw E]. cbv zeta in E.
  unfold edge_line. cbn [fst snd]. rewrite E. clear E.
  set (r := g 2%Z 2%Z [nsub x x; nsub px qx; nsub yb ya; nsub py qy] 2%Z [nsub px x; nsub py ya] 2%Z lw).
  assert (Dx : dbl (g_rhs r 0)) by apply FI. assert (De : dbl (g_rhs r 1)) by apply FI.
  assert (STR : (forall u v, / 1000000 * nm u v <= nm (fval (nsub px qx) * v) (fval (nsub yb ya) * u + fval (nsub py qy) * v)) ->
    forall u v, / 1000000 * nm u v <= nm (fval (nsub x x) * u + fval (nsub px qx) * v) (fval (nsub yb ya) * u + fval (nsub py qy) * v)).
  { intros H u v. rewrite V0, Rmult_0_l, Rplus_0_l. auto. }
  assert (S0 : forall u v, / 1000000 * nm u v <= nm (fval (nsub px qx) * v) (fval (nsub yb ya) * u + fval (nsub py qy) * v)).
  { destruct (sub_near px qx C1 C3) as (_ & K1 & K2 & _). destruct (sub_near py qy C2 C4) as (_ & K3 & K4 & _). destruct (sub_near yb ya C7 C6) as (_ & K5 & K6 & _).
    destruct (sub_near px x C1 C5) as (_ & K7 & K8 & _). destruct (sub_near py ya C2 C6) as (_ & K9 & K10 & _).
    destruct (tri_reals (fval px - fval qx) (fval py - fval qy) (fval yb - fval ya) (fval px - fval x) (fval py - fval ya)
      (fval (nsub px qx)) (fval (nsub py qy)) (fval (nsub yb ya)) (fval (nsub px x)) (fval (nsub py ya))) as (_ & _ & _ & _ & _ & _ & ST); auto. }
  assert (IN : (g_info r <= 0)%Z) by (apply SU; auto; lra).
  replace (0 <? g_info r)%Z with false by (symmetry; apply Z.ltb_ge; exact IN). cbv iota.
  assert (NZ : fval (nsub px qx) <> 0).
  { intros Z. destruct (sub_near px qx C1 C3) as (_ & K1 & _). rewrite Z in K1. unfold ap, apart, sp in PQ. assert (Q := apart_abs 0 (fval px - fval qx) _ _ K1 PQ). rewrite Rabs_R0 in Q. unfold uround in Q. lra. }
  destruct (cross_core px qx x py qy ya yb (g_rhs r 0) (g_rhs r 1)) as (HX & HE & CR); auto.
  { intros z0 z1 Z1 Z0 ST. destruct (AC (nsub x x) (nsub px qx) (nsub yb ya) (nsub py qy) (nsub px x) (nsub py ya) lw z0 z1) as (_ & _ & A0 & A1); auto; try lra. rewrite V0. lra. }
  { destruct (RS (nsub x x) (nsub px qx) (nsub yb ya) (nsub py qy) (nsub px x) (nsub py ya) lw 9 D0 D1 D2 D3 D4 D5 N0 N1 N2 N3 N4 N5) as (_ & _ & K).
    { apply Rle_trans with (bpow radix2 4); [simpl; lra|apply bpow_le; lia]. }
    destruct (K IN) as [_ K2]. fold r in K2. destruct K2 as [R0 _]; auto. { intros (_ & Z & _). auto. } rewrite V0, Rmult_0_l, Rplus_0_l in R0. exact R0. }
  fold t in HX, HE, CR. fold c in HX, CR. set (k := (c - fval ya) / (fval yb - fval ya)) in *.
  assert (CT : cleared t) by (apply crossing_param; auto).
  assert (KP : 0 < t < 1 -> cleared k /\ (0 < k < 1 <-> between2 c (fval ya) (fval yb))).
  { intros T. destruct (CL T) as [L1 L2]. apply real_param; auto. rewrite Rabs_minus_sym. exact B2. }
  destruct (accept_edge (g_rhs r 0) (g_rhs r 1) k t Dx De HX HE CT ltac:(intros T; apply (KP T))) as [OK NO]. split.
  - intros T BW. destruct (KP T) as [_ [K1 K2]]. rewrite (OK T (K2 BW)). exists (g_rhs r 1). auto.
  - intros N. rewrite NO; auto. intros [T K]. apply N. split; auto. apply (KP T). auto.
Qed.

Lemma nm_swap : forall a b, nm a b = nm b a. Proof. intros. unfold nm. apply Rmax_comm. Qed.

Lemma edge_h : forall px py qx qy y xa xb, co px -> co py -> co qx -> co qy -> co y -> co xa -> co xb ->
  ap py qy -> ap py y -> ap qy y -> / 8 <= Rabs (fval xb - fval xa) ->
  let t := (fval y - fval py) / (fval qy - fval py) in let c := fval px + t * (fval qx - fval px) in
  (0 < t < 1 -> sp <= Rabs (c - fval xa) /\ sp <= Rabs (c - fval xb)) ->
  (0 < t < 1 -> between2 c (fval xa) (fval xb) -> exists et, edge_line g (xa, y) (xb, y) (px, py) (qx, qy) = [et] /\ crossed py qy y px qx t et) /\
  (~ (0 < t < 1 /\ between2 c (fval xa) (fval xb)) -> edge_line g (xa, y) (xb, y) (px, py) (qx, qy) = []).
Proof.
  intros px py qx qy y xa xb C1 C2 C3 C4 C5 C6 C7 PQ PX QX LY t c CL. destruct F2 as (FI & _ & RS & AC & SU).
  destruct (zero_diff y C5) as [D0 V0]. destruct (sub_near py qy C2 C4) as (D1 & _ & _ & N1 & _). destruct (sub_near xb xa C7 C6) as (D2 & _ & B2 & N2 & _).
  destruct (sub_near px qx C1 C3) as (D3 & _ & _ & N3 & _). destruct (sub_near py y C2 C5) as (D4 & _ & _ & N4 & _). destruct (sub_near px xa C1 C6) as (D5 & _ & _ & N5 & _).
  assert (N0 : Rabs (fval (nsub y y)) <= 9) by (rewrite V0, Rabs_R0; lra).
  destruct (solve2_eq g (nsub xb xa) (nsub px qx) (nsub y y) (nsub py qy) (nsub px xa) (nsub py y)) as [lw E]. cbv zeta in E.
  unfold edge_line. cbn [fst snd]. rewrite E. clear E.
  set (r := g 2%Z 2%Z [nsub xb xa; nsub px qx; nsub y y; nsub py qy] 2%Z [nsub px xa; nsub py y] 2%Z lw).
  assert (Dx : dbl (g_rhs r 0)) by apply FI. assert (De : dbl (g_rhs r 1)) by apply FI.
  assert (STR : (forall u v, / 1000000 * nm u v <= nm (fval (nsub py qy) * v) (fval (nsub xb xa) * u + fval (nsub px qx) * v)) ->
    forall u v, / 1000000 * nm u v <= nm (fval (nsub xb xa) * u + fval (nsub px qx) * v) (fval (nsub y y) * u + fval (nsub py qy) * v)).
  { intros H u v. rewrite V0, Rmult_0_l, Rplus_0_l, nm_swap with (a := _ + _). auto. }
  assert (S0 : forall u v, / 1000000 * nm u v <= nm (fval (nsub py qy) * v) (fval (nsub xb xa) * u + fval (nsub px qx) * v)).
  { destruct (sub_near py qy C2 C4) as (_ & K1 & K2 & _). destruct (sub_near px qx C1 C3) as (_ & K3 & K4 & _). destruct (sub_near xb xa C7 C6) as (_ & K5 & K6 & _).
    destruct (sub_near py y C2 C5) as (_ & K7 & K8 & _). destruct (sub_near px xa C1 C6) as (_ & K9 & K10 & _).
    destruct (tri_reals (fval py - fval qy) (fval px - fval qx) (fval xb - fval xa) (fval py - fval y) (fval px - fval xa)
      (fval (nsub py qy)) (fval (nsub px qx)) (fval (nsub xb xa)) (fval (nsub py y)) (fval (nsub px xa))) as (_ & _ & _ & _ & _ & _ & ST); auto. }
  assert (IN : (g_info r <= 0)%Z) by (apply SU; auto; lra).
  replace (0 <? g_info r)%Z with false by (symmetry; apply Z.ltb_ge; exact IN). cbv iota.
  assert (NZ : fval (nsub py qy) <> 0).
  { intros Z. destruct (sub_near py qy C2 C4) as (_ & K1 & _). rewrite Z in K1. unfold ap, apart, sp in PQ. assert (Q := apart_abs 0 (fval py - fval qy) _ _ K1 PQ). rewrite Rabs_R0 in Q. unfold uround in Q. lra. }
  destruct (cross_core py qy y px qx xa xb (g_rhs r 0) (g_rhs r 1)) as (HX & HE & CR); auto.
  { intros z0 z1 Z1 Z0 ST. destruct (AC (nsub xb xa) (nsub px qx) (nsub y y) (nsub py qy) (nsub px xa) (nsub py y) lw z0 z1) as (_ & _ & A0 & A1); auto; try lra. rewrite V0. lra. }
  { destruct (RS (nsub xb xa) (nsub px qx) (nsub y y) (nsub py qy) (nsub px xa) (nsub py y) lw 9 D2 D3 D0 D1 D5 D4 N2 N3 N0 N1 N5 N4) as (_ & _ & K).
    { apply Rle_trans with (bpow radix2 4); [simpl; lra|apply bpow_le; lia]. }
    destruct (K IN) as [_ K2]. fold r in K2. destruct K2 as [_ R0]; auto. { intros (_ & _ & _ & Z). auto. } rewrite V0, Rmult_0_l, Rplus_0_l in R0. exact R0. }
  fold t in HX, HE, CR. fold c in HX, CR. set (k := (c - fval xa) / (fval xb - fval xa)) in *.
  assert (CT : cleared t) by (apply crossing_param; auto).
  assert (KP : 0 < t < 1 -> cleared k /\ (0 < k < 1 <-> between2 c (fval xa) (fval xb))).
  { intros T. destruct (CL T) as [L1 L2]. apply real_param; auto. rewrite Rabs_minus_sym. exact B2. }
  destruct (accept_edge (g_rhs r 0) (g_rhs r 1) k t Dx De HX HE CT ltac:(intros T; apply (KP T))) as [OK NO]. split.
  - intros T BW. destruct (KP T) as [_ [K1 K2]]. rewrite (OK T (K2 BW)). exists (g_rhs r 1). auto.
  - intros N. rewrite NO; auto. intros [T K]. apply N. split; auto. apply (KP T). auto.
Qed.
End Cell.

(** ** The order of the crossings *)
Section Order.
Variable G : R -> spec_float -> Prop.

(** A part of the list of parameters: one parameter for the time [a] when [P] holds, otherwise nothing. *)
Definition slot (P : Prop) (a : R) (l : list spec_float) : Prop := (P -> exists e, l = [e] /\ G a e) /\ (~ P -> l = []).

Definition far (m a b : R) : Prop := a <= b - m \/ b + m <= a.

Lemma slots_two : forall m xa xb ya yb s0 sxa sxb sya syb s1, 0 < m -> xa + m <= xb -> ya + m <= yb -> m <= 1 ->
  far m 0 xa -> far m 0 xb -> far m 0 ya -> far m 0 yb -> far m 1 xa -> far m 1 xb -> far m 1 ya -> far m 1 yb ->
  (0 < xa < 1 -> far m xa ya /\ far m xa yb) -> (0 < xb < 1 -> far m xb ya /\ far m xb yb) ->
  (0 < ya < 1 -> far m ya xa /\ far m ya xb) -> (0 < yb < 1 -> far m yb xa /\ far m yb xb) ->
  slot (xa < 0 < xb /\ ya < 0 < yb) 0 s0 -> slot (xa < 1 < xb /\ ya < 1 < yb) 1 s1 ->
  slot (0 < xa < 1 /\ ya < xa < yb) xa sxa -> slot (0 < xb < 1 /\ ya < xb < yb) xb sxb ->
  slot (0 < ya < 1 /\ xa < ya < xb) ya sya -> slot (0 < yb < 1 /\ xa < yb < xb) yb syb ->
  let tin := Rmax 0 (Rmax xa ya) in let tout := Rmin 1 (Rmin xb yb) in
  (tin < tout -> tin + m <= tout /\ exists la lb, G tin la /\ G tout lb /\ Permutation (s0 ++ sxa ++ sxb ++ sya ++ syb ++ s1) [la; lb]) /\
  (tout <= tin -> s0 ++ sxa ++ sxb ++ sya ++ syb ++ s1 = []).
Proof.
  intros m xa xb ya yb s0 sxa sxb sya syb s1 M0 LX LY M1 A1 A2 A3 A4 B1 B2 B3 B4 C1 C2 C3 C4 [P0 N0] [P1 N1] [Pxa Nxa] [Pxb Nxb] [Pya Nya] [Pyb Nyb] tin tout.
  unfold far in *.
  assert (TI : (tin = 0 /\ xa <= 0 /\ ya <= 0) \/ (tin = xa /\ 0 < xa /\ ya <= xa) \/ (tin = ya /\ 0 < ya /\ xa <= ya)).
  { unfold tin. clear. unfold Rmax. destruct (Rle_dec xa ya) as [L|L]; [destruct (Rle_dec 0 ya)|destruct (Rle_dec 0 xa)]; lra. }
  assert (TO : (tout = 1 /\ 1 <= xb /\ 1 <= yb) \/ (tout = xb /\ xb < 1 /\ xb <= yb) \/ (tout = yb /\ yb < 1 /\ yb <= xb)).
  { unfold tout. clear. unfold Rmin. destruct (Rle_dec xb yb) as [L|L]; [destruct (Rle_dec 1 xb)|destruct (Rle_dec 1 yb)]; lra. }
  assert (T1 : tout <= 1) by (unfold tout; apply Rmin_l). assert (T0 : 0 <= tin) by (unfold tin; apply Rmax_l).
  assert (T2 : tout <= xb /\ tout <= yb) by (split; (eapply Rle_trans; [apply Rmin_r|]); [apply Rmin_l|apply Rmin_r]).
  assert (T3 : xa <= tin /\ ya <= tin) by (split; (eapply Rle_trans; [|apply Rmax_r]); [apply Rmax_l|apply Rmax_r]).
  clearbody tin tout. destruct T2 as [T2 T2b], T3 as [T3 T3b]. split; intros H.
  - assert (TI' : (tin = 0 /\ xa <= - m /\ ya <= - m) \/ (tin = xa /\ m <= xa /\ ya + m <= xa) \/ (tin = ya /\ m <= ya /\ xa + m <= ya)).
    { destruct TI as [(EI & I1 & I2)|[(EI & I1 & I2)|(EI & I1 & I2)]].
      - left. clear - A1 A3 I1 I2 EI M0. lra.
      - right; left. destruct (C1 ltac:(clear - EI I1 H T1; lra)) as [K _]. clear - A1 K I1 I2 EI M0. lra.
      - right; right. destruct (C3 ltac:(clear - EI I1 H T1; lra)) as [K _]. clear - A3 K I1 I2 EI M0. lra. }
    assert (TO' : (tout = 1 /\ 1 + m <= xb /\ 1 + m <= yb) \/ (tout = xb /\ xb <= 1 - m /\ xb + m <= yb) \/ (tout = yb /\ yb <= 1 - m /\ yb + m <= xb)).
    { destruct TO as [(EI & I1 & I2)|[(EI & I1 & I2)|(EI & I1 & I2)]].
      - left. clear - B2 B4 I1 I2 EI M0. lra.
      - right; left. destruct (C2 ltac:(clear - EI I1 H T0; lra)) as [_ K]. clear - B2 K I1 I2 EI M0. lra.
      - right; right. destruct (C4 ltac:(clear - EI I1 H T0; lra)) as [_ K]. clear - B4 K I1 I2 EI M0. lra. }
    assert (GP : tin + m <= tout).
    { destruct TI as [(EI & I1 & I2)|[(EI & I1 & I2)|(EI & I1 & I2)]]; destruct TO as [(EO & O1 & O2)|[(EO & O1 & O2)|(EO & O1 & O2)]]; rewrite EI, EO in *.
      - clear - M1; lra. - clear - A2 H M0; lra. - clear - A4 H M0; lra.
      - clear - B1 H M0; lra. - clear - LX; lra. - destruct (C1 ltac:(clear - I1 H O1; lra)) as [_ K]. clear - K H M0; lra.
      - clear - B3 H M0; lra. - destruct (C3 ltac:(clear - I1 H O1; lra)) as [_ K]. clear - K H M0; lra. - clear - LY; lra. }
    split; [exact GP|]. clear A1 A2 A3 A4 B1 B2 B3 B4 C1 C2 C3 C4 TI TO.
    destruct TI' as [(EI & I1 & I2)|[(EI & I1 & I2)|(EI & I1 & I2)]]; destruct TO' as [(EO & O1 & O2)|[(EO & O1 & O2)|(EO & O1 & O2)]];
      rewrite EI, EO in *;
      repeat match goal with
      | P : ?X -> exists e, _, N : ~ ?X -> _ |- _ =>
          first [let K := fresh "K" in assert (K : X) by (clear - M0 M1 LX LY I1 I2 O1 O2 GP; repeat split; lra); destruct (P K) as (? & ? & ?); clear P N K
                |let K := fresh "K" in assert (K : ~ X) by (clear - M0 M1 LX LY I1 I2 O1 O2 GP; lra); specialize (N K); clear P K]
      end; subst; cbn [app]; do 2 eexists; (split; [eassumption|]); (split; [eassumption|]); auto using perm_swap, Permutation_refl.
  - assert (K0 : ~ (xa < 0 < xb /\ ya < 0 < yb)) by (clear - M0 LX LY TI TO H; lra). assert (K1 : ~ (xa < 1 < xb /\ ya < 1 < yb)) by (clear - M0 LX LY TI TO H; lra).
    assert (K2 : ~ (0 < xa < 1 /\ ya < xa < yb)) by (clear - M0 LX LY TI TO H; lra). assert (K3 : ~ (0 < xb < 1 /\ ya < xb < yb)) by (clear - M0 LX LY TI TO H; lra).
    assert (K4 : ~ (0 < ya < 1 /\ xa < ya < xb)) by (clear - M0 LX LY TI TO H; lra). assert (K5 : ~ (0 < yb < 1 /\ xa < yb < xb)) by (clear - M0 LX LY TI TO H; lra).
    rewrite (N0 K0), (N1 K1), (Nxa K2), (Nxb K3), (Nya K4), (Nyb K5). reflexivity.
Qed.
End Order.
