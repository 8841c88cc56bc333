(** Conservative interpolation between rectilinear grids in IEEE double arithmetic: the tests of SgQuadIntersect for
    cells with sides along the axes. *)
From Coq Require Import ZArith List Bool Reals Lra Lia Permutation Floats.SpecFloat.
From Flocq Require Import Core BinarySingleNaN.
From Verif Require Import Base Num NumR NumF M_LinearSolve M_Triangulate M_Quad M_QuadIntersect M_ConserveInterp S_Geometry S_Area S_Quad S_ConserveGrid S_Rectilinear
  S_ConserveTable L_LinearSolve L_Grids L_Polygon L_Triangulate L_Float L_FloatOps L_FindPointF L_QuadBoxF L_ResidualF L_QuadF L_TriNear L_Area L_ConserveArea L_ConserveRect S_ConserveRel L_ConserveRel.
Import ListNotations.
Open Scope R_scope.

(** A solver that is accurate on 2 x 2 systems of which each equation has one unknown: for nonzero coefficients it
    reports success and each unknown is within eta (1 + its exact magnitude).  If one of the equations has two unknowns and the
    other none it reports a singular matrix. *)
Definition axis2 (eta : R) (g : gels spec_float) : Prop :=
  forall a b z w r s lw, dbl a -> dbl b -> dbl z -> dbl w -> dbl r -> dbl s -> fval z = 0 -> fval w = 0 ->
  bpow radix2 (-100) <= Rabs (fval a) <= bpow radix2 500 -> bpow radix2 (-100) <= Rabs (fval b) <= bpow radix2 500 ->
  Rabs (fval r) <= bpow radix2 500 -> Rabs (fval s) <= bpow radix2 500 ->
  let good r x y x' y' := g_info r = 0%Z /\ dbl (g_rhs r 0) /\ dbl (g_rhs r 1) /\
    Rabs (fval (g_rhs r 0) - x / y) <= eta * (1 + Rabs (x / y)) /\ Rabs (fval (g_rhs r 1) - x' / y') <= eta * (1 + Rabs (x' / y')) in
  good (g 2%Z 2%Z [a; z; w; b] 2%Z [r; s] 2%Z lw) (fval r) (fval a) (fval s) (fval b) /\
  good (g 2%Z 2%Z [z; a; b; w] 2%Z [r; s] 2%Z lw) (fval s) (fval b) (fval r) (fval a) /\
  (0 < g_info (g 2%Z 2%Z [a; b; z; w] 2%Z [r; s] 2%Z lw))%Z /\ (0 < g_info (g 2%Z 2%Z [z; w; a; b] 2%Z [r; s] 2%Z lw))%Z.

(** A quotient of rounded differences, solved with a small error. *)
Lemma ratio_near : forall u eta st r d R D x, 0 <= u <= / 1000000 -> 0 <= eta <= 1 -> 0 < st <= Rabs d -> Rabs (R - r) <= u * Rabs r + u * st -> Rabs (D - d) <= u * Rabs d + u * st ->
  Rabs (x - R / D) <= eta * (1 + Rabs (R / D)) -> Rabs (x - r / d) <= (2 * eta + 8 * u) * (1 + Rabs (r / d)).
Proof.
  intros u eta st r d R D x U E SD HR HD HX. set (s := r / d). set (d' := Rabs d) in *.
  assert (ND : d <> 0) by (intros Z; unfold d' in SD; rewrite Z, Rabs_R0 in SD; lra).
  assert (Rr : r = s * d) by (unfold s; field; auto).
  assert (Us : u * st <= u * d') by (apply Rmult_le_compat_l; lra).
  assert (D1 : Rabs (D - d) <= 2 * u * d') by lra.
  assert (Ud : u * d' <= / 1000000 * d') by (apply Rmult_le_compat_r; lra).
  assert (D2 : (1 - / 100000) * d' <= Rabs D).
  { assert (d' <= Rabs D + Rabs (D - d)); [|lra]. unfold d'. replace d with (D - (D - d)) at 1 by ring. eapply Rle_trans; [apply Rabs_triang|]. rewrite Rabs_Ropp. lra. }
  assert (N2 : D <> 0) by (intros Z; rewrite Z, Rabs_R0 in D2; lra).
  set (S := Rabs s) in *. assert (S0 : 0 <= S) by apply Rabs_pos.
  assert (Q : Rabs (R / D - s) * Rabs D <= (u + 3 * u * S) * d').
  { rewrite <- Rabs_mult. replace ((R / D - s) * D) with ((R - r) - s * (D - d)) by (rewrite Rr; field; auto).
    eapply Rle_trans; [apply Rabs_triang|]. rewrite Rabs_Ropp, Rabs_mult. fold S.
    assert (Rabs (R - r) <= u * (S * d') + u * d') by (eapply Rle_trans; [exact HR|]; rewrite Rr, Rabs_mult; fold S d'; lra).
    assert (S * Rabs (D - d) <= S * (2 * u * d')) by (apply Rmult_le_compat_l; auto). lra. }
  assert (Q2 : Rabs (R / D - s) <= 4 * u * (1 + S)).
  { set (q := Rabs (R / D - s)) in *. assert (0 <= q) by apply Rabs_pos. apply Rmult_le_reg_r with ((1 - / 100000) * d'); [apply Rmult_lt_0_compat; lra|].
    apply Rle_trans with (q * Rabs D); [apply Rmult_le_compat_l; auto|]. eapply Rle_trans; [exact Q|].
    replace (4 * u * (1 + S) * ((1 - / 100000) * d')) with ((4 * (1 - / 100000) * u * (1 + S)) * d') by ring. apply Rmult_le_compat_r; [lra|].
    assert (0 <= u * S) by (apply Rmult_le_pos; lra). lra. }
  assert (Q3 : Rabs (R / D) <= S + 4 * u * (1 + S)) by (replace (R / D) with (s + (R / D - s)) by ring; eapply Rle_trans; [apply Rabs_triang|]; fold S; lra).
  replace (x - s) with ((x - R / D) + (R / D - s)) by ring. eapply Rle_trans; [apply Rabs_triang|].
  assert (US : 0 <= u * S <= S / 1000000) by (split; [apply Rmult_le_pos; lra|assert (u * S <= / 1000000 * S) by (apply Rmult_le_compat_r; lra); lra]).
  assert (eta * (1 + Rabs (R / D)) <= eta * (2 * (1 + S))) by (apply Rmult_le_compat_l; lra).
  assert (0 <= eta * S) by (apply Rmult_le_pos; lra). lra.
Qed.

Lemma strict_ccw_general : forall P a b c, strict_ccw P -> In a P -> In b P -> In c P -> cr a b c = 0 -> a = b \/ a = c \/ b = c.
Proof.
  intros P a b c SC Ha Hb Hc Z.
  destruct (In_nth P a origin Ha) as (i & Hi & Ei). destruct (In_nth P b origin Hb) as (j & Hj & Ej). destruct (In_nth P c origin Hc) as (k & Hk & Ek).
  destruct (Nat.eq_dec i j) as [E|N1]; [left; subst; reflexivity|].
  destruct (Nat.eq_dec i k) as [E|N2]; [right; left; subst; reflexivity|].
  destruct (Nat.eq_dec j k) as [E|N3]; [right; right; subst; reflexivity|]. exfalso.
  fold (nthp P i) in Ei. fold (nthp P j) in Ej. fold (nthp P k) in Ek. rewrite <- Ei, <- Ej, <- Ek in Z.
  assert (C : (i < j < k \/ j < k < i \/ k < i < j \/ i < k < j \/ k < j < i \/ j < i < k)%nat) by lia.
  destruct C as [C|[C|[C|[C|[C|C]]]]];
    [assert (Q := SC i j k C ltac:(lia))|assert (Q := SC j k i C ltac:(lia))|assert (Q := SC k i j C ltac:(lia))
    |assert (Q := SC i k j C ltac:(lia))|assert (Q := SC k j i C ltac:(lia))|assert (Q := SC j i k C ltac:(lia))]; unfold cr in *; lra.
Qed.

Section Axis.
Variables M st eta : R.
Hypothesis M_one : 1 <= M.
Hypothesis M_big : M <= bpow radix2 400.
Hypothesis st_lo : M / 10 ^ 7 <= st.
Hypothesis st_hi : st <= 2 * M.
Hypothesis eta_rng : 0 <= eta <= / 10 ^ 13.
Variable g : gels spec_float.
Hypothesis G : axis2 eta g.

Let lo : bpow radix2 (-1000) <= M.
Proof. apply Rle_trans with (bpow radix2 0); [apply bpow_le; lia|exact M_one]. Qed.
Let hi : M <= bpow radix2 900.
Proof. apply Rle_trans with (bpow radix2 400); [exact M_big|apply bpow_le; lia]. Qed.

Definition coord (x : spec_float) : Prop := dbl x /\ Rabs (fval x) <= M.
(** Further apart than the smallest step. *)
Definition apart (x y : spec_float) : Prop := st <= Rabs (fval x - fval y).

Lemma st_pos : / 10 ^ 7 <= st.
Proof. assert (1 * / 10 ^ 7 <= M * / 10 ^ 7) by (apply Rmult_le_compat_r; lra). lra. Qed.

Lemma tiny_st : etiny <= uround * st.
Proof.
  assert (P := st_pos). rewrite u_bpow. apply Rle_trans with (bpow radix2 (-53) * bpow radix2 (-24)).
  - rewrite <- bpow_plus. unfold etiny. apply bpow_le. lia.
  - apply Rmult_le_compat_l; [apply bpow_ge_0|]. apply Rle_trans with (/ 10 ^ 7); [|exact P]. change (bpow radix2 (-24)) with (/ IZR (2 ^ 24)). change (2 ^ 24)%Z with 16777216%Z. lra.
Qed.

Lemma diff_size : forall x y, coord x -> coord y -> Rabs (fval x - fval y) <= 2 * M.
Proof. intros x y [_ Bx] [_ By]. eapply Rle_trans; [apply Rabs_triang|rewrite Rabs_Ropp; lra]. Qed.

(** Rounded differences. *)
Lemma diff : forall x y, coord x -> coord y -> let d := nsub x y in
  dbl d /\ Rabs (fval d - (fval x - fval y)) <= uround * Rabs (fval x - fval y) + uround * st /\ Rabs (fval d) <= bpow radix2 500 /\
  (fval x = fval y -> fval d = 0) /\ (apart x y -> bpow radix2 (-100) <= Rabs (fval d)).
Proof.
  intros x y Cx Cy d. assert (B := diff_size x y Cx Cy). destruct Cx as [Dx Bx], Cy as [Dy By]. assert (U := u_rng). assert (T := tiny_st). assert (SP := st_pos).
  destruct (f_sub x y Dx Dy) as [Dd V]; [eapply Rle_trans; [exact B|apply (big_M M lo hi); lra]|]. fold d in Dd, V.
  assert (E := rnd_error (fval x - fval y)). rewrite <- V in E.
  assert (E2 : Rabs (fval d - (fval x - fval y)) <= uround * Rabs (fval x - fval y) + uround * st) by lra.
  split; auto. split; auto.
  assert (uround * Rabs (fval x - fval y) <= / 1000000 * (2 * M)) by (apply Rmult_le_compat; try lra; apply Rabs_pos).
  assert (uround * st <= / 1000000 * (2 * M)) by (apply Rmult_le_compat; lra).
  split; [|split].
  - apply Rle_trans with (bpow radix2 2 * bpow radix2 400); [|rewrite <- bpow_plus; apply bpow_le; lia]. change (bpow radix2 2) with 4.
    replace (fval d) with ((fval d - (fval x - fval y)) + (fval x - fval y)) by ring. eapply Rle_trans; [apply Rabs_triang|]. lra.
  - intros Z. rewrite V, Z, Rminus_eq_0. apply round_0. typeclasses eauto.
  - intros A. unfold apart in A. assert (uround * st <= / 1000000 * Rabs (fval x - fval y)) by (apply Rmult_le_compat; lra).
    assert (uround * Rabs (fval x - fval y) <= / 1000000 * Rabs (fval x - fval y)) by (apply Rmult_le_compat_r; lra).
    assert (Rabs (fval x - fval y) <= Rabs (fval d) + Rabs (fval d - (fval x - fval y))).
    { replace (fval x - fval y) with (fval d - (fval d - (fval x - fval y))) at 1 by ring. eapply Rle_trans; [apply Rabs_triang|]. rewrite Rabs_Ropp. lra. }
    apply Rle_trans with (/ 10 ^ 8); [|lra]. apply Rle_trans with (bpow radix2 (-27)); [apply bpow_le; lia|].
    change (bpow radix2 (-27)) with (/ IZR (2 ^ 27)). change (2 ^ 27)%Z with 134217728%Z. lra.
Qed.

(** Error of the unknowns. *)
Definition tau : R := 2 * eta + 8 * uround.

Lemma tau_rng : 0 < tau <= / 10 ^ 12 / 4.
Proof. unfold tau, uround. lra. Qed.

(** Systems of which each equation has one unknown. *)
Lemma solve_diag : forall x y x' y' r q r' q' z z' w w', coord x -> coord y -> coord x' -> coord y' -> coord r -> coord q -> coord r' -> coord q' ->
  coord z -> coord z' -> coord w -> coord w' -> fval z = fval z' -> fval w = fval w' -> apart x y -> apart x' y' ->
  let s := (fval r - fval q) / (fval x - fval y) in let t := (fval r' - fval q') / (fval x' - fval y') in
  (exists xi et, solve2 g (nsub x y) (nsub z z') (nsub w w') (nsub x' y') (nsub r q) (nsub r' q') = (0%Z, (xi, et)) /\
    dbl xi /\ dbl et /\ Rabs (fval xi - s) <= tau * (1 + Rabs s) /\ Rabs (fval et - t) <= tau * (1 + Rabs t)) /\
  (exists xi et, solve2 g (nsub z z') (nsub x y) (nsub x' y') (nsub w w') (nsub r q) (nsub r' q') = (0%Z, (xi, et)) /\
    dbl xi /\ dbl et /\ Rabs (fval xi - t) <= tau * (1 + Rabs t) /\ Rabs (fval et - s) <= tau * (1 + Rabs s)).
Proof.
  intros x y x' y' r q r' q' z z' w w' Cx Cy Cx' Cy' Cr Cq Cr' Cq' Cz Cz' Cw Cw' EZ EW A A' s t. assert (U := u_rng). assert (SP := st_pos).
  destruct (diff x y Cx Cy) as (D1 & E1 & B1 & _ & L1). destruct (diff x' y' Cx' Cy') as (D2 & E2 & B2 & _ & L2).
  destruct (diff r q Cr Cq) as (D3 & E3 & B3 & _). destruct (diff r' q' Cr' Cq') as (D4 & E4 & B4 & _).
  destruct (diff z z' Cz Cz') as (D5 & _ & _ & Z5 & _). destruct (diff w w' Cw Cw') as (D6 & _ & _ & Z6 & _).
  destruct (solve2_eq g (nsub x y) (nsub z z') (nsub w w') (nsub x' y') (nsub r q) (nsub r' q')) as (lw & ->).
  destruct (solve2_eq g (nsub z z') (nsub x y) (nsub x' y') (nsub w w') (nsub r q) (nsub r' q')) as (lw2 & ->).
  specialize (L1 A). specialize (L2 A'). specialize (Z5 EZ). specialize (Z6 EW).
  destruct (G _ _ _ _ _ _ lw D1 D2 D5 D6 D3 D4 Z5 Z6 (conj L1 B1) (conj L2 B2) B3 B4) as ((I1 & X1 & Y1 & P1 & Q1) & _).
  destruct (G _ _ _ _ _ _ lw2 D1 D2 D5 D6 D3 D4 Z5 Z6 (conj L1 B1) (conj L2 B2) B3 B4) as (_ & (I2 & X2 & Y2 & P2 & Q2) & _).
  unfold apart in A, A'.
  assert (RN : forall r d R D x, st <= Rabs d -> Rabs (R - r) <= uround * Rabs r + uround * st -> Rabs (D - d) <= uround * Rabs d + uround * st ->
    Rabs (x - R / D) <= eta * (1 + Rabs (R / D)) -> Rabs (x - r / d) <= tau * (1 + Rabs (r / d))).
  { intros r1 d1 R1 D' x1 K1 K2 K3 K4. apply (ratio_near uround eta st r1 d1 R1 D' x1); auto; lra. }
  split; (eexists; eexists; split; [first [rewrite I1|rewrite I2]; reflexivity|]).
  - split; [exact X1|]. split; [exact Y1|]. split; [apply (RN _ _ _ _ _ A E3 E1 P1)|apply (RN _ _ _ _ _ A' E4 E2 Q1)].
  - split; [exact X2|]. split; [exact Y2|]. split; [apply (RN _ _ _ _ _ A' E4 E2 P2)|apply (RN _ _ _ _ _ A E3 E1 Q2)].
Qed.

Lemma solve_flat : forall x y x' y' r q r' q' z z' w w', coord x -> coord y -> coord x' -> coord y' -> coord r -> coord q -> coord r' -> coord q' ->
  coord z -> coord z' -> coord w -> coord w' -> fval z = fval z' -> fval w = fval w' -> apart x y -> apart x' y' ->
  (0 < fst (solve2 g (nsub x y) (nsub x' y') (nsub z z') (nsub w w') (nsub r q) (nsub r' q')))%Z /\
  (0 < fst (solve2 g (nsub z z') (nsub w w') (nsub x y) (nsub x' y') (nsub r q) (nsub r' q')))%Z.
Proof.
  intros x y x' y' r q r' q' z z' w w' Cx Cy Cx' Cy' Cr Cq Cr' Cq' Cz Cz' Cw Cw' EZ EW A A'.
  destruct (diff x y Cx Cy) as (D1 & E1 & B1 & _ & L1). destruct (diff x' y' Cx' Cy') as (D2 & E2 & B2 & _ & L2).
  destruct (diff r q Cr Cq) as (D3 & E3 & B3 & _). destruct (diff r' q' Cr' Cq') as (D4 & E4 & B4 & _).
  destruct (diff z z' Cz Cz') as (D5 & _ & _ & Z5 & _). destruct (diff w w' Cw Cw') as (D6 & _ & _ & Z6 & _).
  destruct (solve2_eq g (nsub x y) (nsub x' y') (nsub z z') (nsub w w') (nsub r q) (nsub r' q')) as (lw & ->).
  destruct (solve2_eq g (nsub z z') (nsub w w') (nsub x y) (nsub x' y') (nsub r q) (nsub r' q')) as (lw2 & ->).
  specialize (L1 A). specialize (L2 A'). specialize (Z5 EZ). specialize (Z6 EW).
  destruct (G _ _ _ _ _ _ lw D1 D2 D5 D6 D3 D4 Z5 Z6 (conj L1 B1) (conj L2 B2) B3 B4) as (_ & _ & I1 & _).
  destruct (G _ _ _ _ _ _ lw2 D1 D2 D5 D6 D3 D4 Z5 Z6 (conj L1 B1) (conj L2 B2) B3 B4) as (_ & _ & _ & I2).
  cbn [fst]. auto.
Qed.

(** ** Positions of the lines: parameters are inside or outside by at least gam. *)
Definition gam : R := / 10 ^ 7 / 2.

Definition clear (s : R) : Prop := s <= - gam \/ gam <= s <= 1 - gam \/ 1 + gam <= s.
Definition within (s : R) : Prop := 0 < s < 1.

Lemma param : forall p a b, coord p -> coord a -> coord b -> apart a b -> apart p a -> apart p b ->
  let s := (fval p - fval a) / (fval b - fval a) in
  clear s /\ (0 < s < 1 <-> fval a < fval p < fval b \/ fval b < fval p < fval a) /\ Rabs s <= bpow radix2 500 /\ fval p = fval a + s * (fval b - fval a).
Proof.
  intros p a b Cp Ca Cb AB PA PB s. assert (SP := st_pos). unfold apart in *. assert (S1 := diff_size p a Cp Ca). assert (S2 := diff_size b a Cb Ca).
  set (P := fval p) in *. set (A := fval a) in *. set (B := fval b) in *. set (d := B - A) in *.
  assert (Hd : st <= Rabs d <= 2 * M) by (unfold d; split; [rewrite Rabs_minus_sym|]; auto).
  assert (N : d <> 0) by (intros Z; rewrite Z, Rabs_R0 in Hd; lra).
  assert (E : P - A = s * d) by (unfold s; field; auto).
  assert (E' : P - B = (s - 1) * d) by (unfold d in *; lra).
  assert (L1 : gam <= Rabs s).
  { rewrite E, Rabs_mult in PA. destruct (Rle_or_lt gam (Rabs s)) as [|L]; auto. exfalso.
    assert (Rabs s * Rabs d <= gam * (2 * M)) by (apply Rmult_le_compat; try apply Rabs_pos; lra). unfold gam in *.
    assert (Rabs s * Rabs d < gam * (2 * M)); [|unfold gam in *; lra]. apply Rle_lt_trans with (Rabs s * (2 * M)); [apply Rmult_le_compat_l; [apply Rabs_pos|lra]|]. apply Rmult_lt_compat_r; unfold gam in *; lra. }
  assert (L2 : gam <= Rabs (s - 1)).
  { rewrite E', Rabs_mult in PB. destruct (Rle_or_lt gam (Rabs (s - 1))) as [|L]; auto. exfalso.
    assert (Rabs (s - 1) * Rabs d < gam * (2 * M)); [|unfold gam in *; lra]. apply Rle_lt_trans with (Rabs (s - 1) * (2 * M)); [apply Rmult_le_compat_l; [apply Rabs_pos|lra]|]. apply Rmult_lt_compat_r; unfold gam in *; lra. }
  assert (GP : 0 < gam < 1 / 4) by (unfold gam; lra).
  split; [|split; [|split]].
  - unfold clear. revert L1 L2. unfold Rabs. destruct (Rcase_abs s), (Rcase_abs (s - 1)); intros; lra.
  - assert (SG : forall x y, 0 < y -> (0 < x * y <-> 0 < x)).
    { intros x y Hy. split; intros H; [apply Rmult_lt_reg_r with y; lra|apply Rmult_lt_0_compat; auto]. }
    destruct (Rle_or_lt d 0) as [Ld|Ld].
    + assert (K1 := SG s (- d) ltac:(lra)). assert (K2 := SG (1 - s) (- d) ltac:(lra)).
      assert (Q1 : s * - d = A - P) by lra. assert (Q2 : (1 - s) * - d = P - B) by (unfold d in *; lra). rewrite Q1 in K1. rewrite Q2 in K2.
      split; [intros [H1 H2]; right; split; [|apply K1 in H1; lra]; assert (0 < P - B) by (apply K2; lra); lra|].
      intros [[H1 H2]|[H1 H2]]; [exfalso; unfold d in *; lra|]. assert (0 < s) by (apply K1; lra). assert (0 < 1 - s) by (apply K2; lra). lra.
    + assert (K1 := SG s d ltac:(lra)). assert (K2 := SG (1 - s) d ltac:(lra)).
      assert (Q1 : s * d = P - A) by lra. assert (Q2 : (1 - s) * d = B - P) by (unfold d in *; lra). rewrite Q1 in K1. rewrite Q2 in K2.
      split; [intros [H1 H2]; left; split; [apply K1 in H1; lra|]; assert (0 < B - P) by (apply K2; lra); lra|].
      intros [[H1 H2]|[H1 H2]]; [|exfalso; unfold d in *; lra]. assert (0 < s) by (apply K1; lra). assert (0 < 1 - s) by (apply K2; lra). lra.
  - apply Rle_trans with (2 * 10 ^ 7 * M).
    + unfold s. fold d. unfold Rdiv. rewrite Rabs_mult, Rabs_inv. apply Rmult_le_reg_r with (Rabs d); [lra|]. rewrite Rmult_assoc, Rinv_l by lra.
      rewrite Rmult_1_r. apply Rle_trans with (2 * 10 ^ 7 * M * / 10 ^ 7); [lra|]. apply Rmult_le_compat_l; lra.
    + apply Rle_trans with (bpow radix2 30 * bpow radix2 400); [|rewrite <- bpow_plus; apply bpow_le; lia].
      apply Rmult_le_compat; try lra. change (bpow radix2 30) with 1073741824. lra.
  - lra.
Qed.

(** ** The tolerances *)
Lemma tol_val : dbl qi_tol /\ / 10 ^ 12 - / 10 ^ 20 <= fval qi_tol <= / 10 ^ 12 + / 10 ^ 20.
Proof.
  assert (E : qi_tol = S754_finite false 4951760157141521 (-92)) by (vm_compute; reflexivity). rewrite E.
  split; [split; reflexivity|]. unfold fval, SF2R, F2R. cbn [Fnum Fexp cond_Zopp bpow]. change (Z.pow_pos radix2 92) with 4951760157141521099596496896%Z. lra.
Qed.

Lemma plus_tol : dbl (nadd n1 qi_tol) /\ 1 + 9 / 10 ^ 13 <= fval (nadd n1 qi_tol) <= 1 + 11 / 10 ^ 13.
Proof.
  destruct tol_val as [Dt Vt]. destruct (f_ofZ 1 ltac:(lia)) as [D1 V1].
  assert (B : Rabs (1 + fval qi_tol) <= 2) by (apply Rabs_le; lra).
  destruct (f_add (nofZ 1) qi_tol D1 Dt) as [D V].
  { rewrite V1. eapply Rle_trans; [exact B|]. apply Rle_trans with (bpow radix2 1); [simpl; lra|apply bpow_le; lia]. }
  split; [exact D|]. change (fval (nadd n1 qi_tol)) with (fval (nadd (nofZ 1) qi_tol)). rewrite V, V1.
  assert (E := rnd_error (1 + fval qi_tol)). assert (T := tiny_u). assert (U := u_rng).
  assert (uround * Rabs (1 + fval qi_tol) <= uround * 2) by (apply Rmult_le_compat_l; lra). apply Rabs_le_inv in E. unfold uround in *. lra.
Qed.

Lemma minus_tol : dbl (nsub n1 qi_tol) /\ 1 - 11 / 10 ^ 13 <= fval (nsub n1 qi_tol) <= 1 - 9 / 10 ^ 13.
Proof.
  destruct tol_val as [Dt Vt]. destruct (f_ofZ 1 ltac:(lia)) as [D1 V1].
  assert (B : Rabs (1 - fval qi_tol) <= 2) by (apply Rabs_le; lra).
  destruct (f_sub (nofZ 1) qi_tol D1 Dt) as [D V].
  { rewrite V1. eapply Rle_trans; [exact B|]. apply Rle_trans with (bpow radix2 1); [simpl; lra|apply bpow_le; lia]. }
  split; [exact D|]. change (fval (nsub n1 qi_tol)) with (fval (nsub (nofZ 1) qi_tol)). rewrite V, V1.
  assert (E := rnd_error (1 - fval qi_tol)). assert (T := tiny_u). assert (U := u_rng).
  assert (uround * Rabs (1 - fval qi_tol) <= uround * 2) by (apply Rmult_le_compat_l; lra). apply Rabs_le_inv in E. unfold uround in *. lra.
Qed.

Lemma err_lin : forall x s, Rabs (x - s) <= tau * (1 + Rabs s) -> s - / 10 ^ 12 / 4 * (1 + Rabs s) <= x <= s + / 10 ^ 12 / 4 * (1 + Rabs s).
Proof.
  intros x s H. assert (T := tau_rng). assert (A := Rabs_pos s). assert (tau * (1 + Rabs s) <= / 10 ^ 12 / 4 * (1 + Rabs s)) by (apply Rmult_le_compat_r; lra).
  apply Rabs_le_inv in H. lra.
Qed.

(** The triangle with corners a, (b, y of a), (x of a, c). *)
Lemma tri_axis : forall px py ax ay bx cy ax' ay', coord px -> coord py -> coord ax -> coord ay -> coord bx -> coord cy -> coord ax' -> coord ay' -> fval ax' = fval ax -> fval ay' = fval ay ->
  apart bx ax -> apart cy ay -> apart px ax -> apart px bx -> apart py ay -> apart py cy ->
  let s := (fval px - fval ax) / (fval bx - fval ax) in let t := (fval py - fval ay) / (fval cy - fval ay) in
  (0 < s < 1 -> 0 < t < 1 -> s + t <= 1 -> tri_inside qi_tol g (px, py) (ax, ay) (bx, ay') (ax', cy) = true) /\
  (~ (0 < s < 1 /\ 0 < t < 1) -> tri_inside qi_tol g (px, py) (ax, ay) (bx, ay') (ax', cy) = false).
Proof.
  intros px py ax ay bx cy ax' ay' Cpx Cpy Cax Cay Cbx Ccy Cax' Cay' EX EY A1 A2 P1 P2 P3 P4 s t.
  assert (Sy : forall x y, apart x y -> apart y x) by (unfold apart; intros; rewrite Rabs_minus_sym; auto).
  destruct (param px ax bx Cpx Cax Cbx (Sy _ _ A1) P1 P2) as (Ks & _ & Bs & _). destruct (param py ay cy Cpy Cay Ccy (Sy _ _ A2) P3 P4) as (Kt & _ & Bt & _).
  fold s in Ks, Bs. fold t in Kt, Bt.
  destruct (solve_diag bx ax cy ay px ax py ay ax' ax ay' ay Cbx Cax Ccy Cay Cpx Cax Cpy Cay Cax' Cax Cay' Cay EX EY A1 A2) as ((xi & et & E & Dx & De & Hx & He) & _).
  fold s in Hx. fold t in He. unfold tri_inside. cbn [fst snd]. rewrite E. change (0 <? 0)%Z with false. cbv iota.
  destruct tol_val as [Dt Vt]. destruct (f_opp qi_tol Dt) as [Do Vo]. destruct plus_tol as [Dp Vp]. assert (U := u_rng). assert (TI := tiny_u).
  assert (K1 := err_lin _ _ Hx). assert (K2 := err_lin _ _ He). unfold clear, gam in Ks, Kt.
  assert (BS : Rabs (fval xi + fval et) <= bpow radix2 1000).
  { assert (Rabs (fval xi) <= 2 * Rabs s + 1) by (revert K1; unfold Rabs at 1 2 3 4; destruct (Rcase_abs s), (Rcase_abs (fval xi)); intros; lra).
    assert (Rabs (fval et) <= 2 * Rabs t + 1) by (revert K2; unfold Rabs at 1 2 3 4; destruct (Rcase_abs t), (Rcase_abs (fval et)); intros; lra).
    eapply Rle_trans; [apply Rabs_triang|]. apply Rle_trans with (bpow radix2 3 * bpow radix2 500); [|rewrite <- bpow_plus; apply bpow_le; lia].
    assert (1 <= bpow radix2 500) by (change 1 with (bpow radix2 0); apply bpow_le; lia). change (bpow radix2 3) with 8. lra. }
  destruct (f_add xi et Dx De BS) as [Da Va]. assert (ES := rnd_error (fval xi + fval et)). rewrite <- Va in ES.
  rewrite !f_lt, !f_le by auto. rewrite Vo. split.
  - intros S T ST. rewrite (Rabs_pos_eq s) in K1 by lra. rewrite (Rabs_pos_eq t) in K2 by lra.
    assert (Bn : uround * Rabs (fval xi + fval et) <= uround * 2) by (apply Rmult_le_compat_l; [lra|apply Rabs_le; lra]). apply Rabs_le_inv in ES.
    rewrite !andb_true_iff, !Rltb_true, !Rleb_true. unfold uround in *. split; [split; [split|]|]; lra.
  - intros H.
    assert (C : s <= - (/ 10 ^ 7 / 2) \/ 1 + / 10 ^ 7 / 2 <= s \/ t <= - (/ 10 ^ 7 / 2) \/ 1 + / 10 ^ 7 / 2 <= t).
    { destruct Ks as [Ks|[Ks|Ks]]; auto. destruct Kt as [Kt|[Kt|Kt]]; auto. exfalso. apply H. lra. }
    destruct C as [C|[C|[C|C]]].
    + rewrite (Rabs_left s) in K1 by lra. replace (Rltb (- fval qi_tol) (fval xi)) with false by (symmetry; apply Rltb_false; lra). reflexivity.
    + rewrite (Rabs_pos_eq s) in K1 by lra. replace (Rleb (fval xi) (fval (nadd n1 qi_tol))) with false by (symmetry; apply Rleb_false; lra). rewrite andb_false_r. reflexivity.
    + rewrite (Rabs_left t) in K2 by lra. replace (Rltb (- fval qi_tol) (fval et)) with false by (symmetry; apply Rltb_false; lra). rewrite andb_false_r. reflexivity.
    + rewrite (Rabs_pos_eq t) in K2 by lra. destruct (Rltb (- fval qi_tol) (fval xi)) eqn:Q; [|reflexivity]. apply Rltb_true in Q.
      rewrite (Rabs_pos_eq (fval xi + fval et)) in ES by lra. apply Rabs_le_inv in ES.
      assert (uround * (fval xi + fval et) <= / 1000000000 * (fval xi + fval et)) by (apply Rmult_le_compat_r; [lra|unfold uround; lra]).
      replace (Rleb (fval (nadd xi et)) (fval (nadd n1 qi_tol))) with false; [rewrite andb_false_r; reflexivity|]. symmetry; apply Rleb_false.
      assert (etiny <= / 10 ^ 15) by (unfold uround in *; lra). lra.
Qed.

(** ** A point in a box *)
Definition fbox (x0 x1 y0 y1 : spec_float) : quad spec_float := mkQuad (x0, y0) (x1, y0) (x1, y1) (x0, y1).
Definition inner (x0 x x1 : spec_float) : bool := Rltb (fval x0) (fval x) && Rltb (fval x) (fval x1).

Lemma inner_true : forall x0 x x1, inner x0 x x1 = true <-> fval x0 < fval x < fval x1.
Proof. intros. unfold inner. rewrite andb_true_iff, !Rltb_true. tauto. Qed.

Lemma in_fbox : forall px py x0 x1 y0 y1, coord px -> coord py -> coord x0 -> coord x1 -> coord y0 -> coord y1 ->
  st <= fval x1 - fval x0 -> st <= fval y1 - fval y0 -> apart px x0 -> apart px x1 -> apart py y0 -> apart py y1 ->
  in_cell g (px, py) (fbox x0 x1 y0 y1) = inner x0 px x1 && inner y0 py y1.
Proof.
  intros px py x0 x1 y0 y1 Cpx Cpy C0 C1 C2 C3 LX LY P1 P2 P3 P4. assert (SP := st_pos).
  assert (Sy : forall x y, apart x y -> apart y x) by (unfold apart; intros; rewrite Rabs_minus_sym; auto).
  assert (A1 : apart x1 x0) by (unfold apart; rewrite Rabs_pos_eq; lra). assert (A2 : apart y1 y0) by (unfold apart; rewrite Rabs_pos_eq; lra).
  destruct (param px x0 x1 Cpx C0 C1 (Sy _ _ A1) P1 P2) as (_ & W1 & _ & E1). destruct (param py y0 y1 Cpy C2 C3 (Sy _ _ A2) P3 P4) as (_ & W2 & _ & E2).
  destruct (tri_axis px py x0 y0 x1 y1 x0 y0 Cpx Cpy C0 C2 C1 C3 C0 C2 eq_refl eq_refl A1 A2 P1 P2 P3 P4) as [T1 F1].
  destruct (tri_axis px py x1 y1 x0 y0 x1 y1 Cpx Cpy C1 C3 C0 C2 C1 C3 eq_refl eq_refl (Sy _ _ A1) (Sy _ _ A2) P2 P1 P4 P3) as [T2 F2].
  set (s := (fval px - fval x0) / (fval x1 - fval x0)) in *. set (t := (fval py - fval y0) / (fval y1 - fval y0)) in *.
  replace ((fval px - fval x1) / (fval x0 - fval x1)) with (1 - s) in * by (unfold s; field; lra).
  replace ((fval py - fval y1) / (fval y0 - fval y1)) with (1 - t) in * by (unfold t; field; lra).
  unfold in_cell, quad_inside, fbox. cbn [q0 q1 q2 q3].
  destruct (inner x0 px x1 && inner y0 py y1) eqn:I.
  - apply andb_prop in I. destruct I as [I1 I2]. apply inner_true in I1, I2.
    assert (S : 0 < s < 1) by (apply W1; auto). assert (T : 0 < t < 1) by (apply W2; auto).
    destruct (Rle_or_lt (s + t) 1) as [L|L]; [rewrite T1 by (auto; lra); reflexivity|]. rewrite T2 by lra. apply orb_true_r.
  - assert (NI : ~ (0 < s < 1 /\ 0 < t < 1)).
    { intros [S T]. apply W1 in S. apply W2 in T. destruct S as [S|S]; [|lra]. destruct T as [T|T]; [|lra].
      assert (inner x0 px x1 = true) by (apply inner_true; auto). assert (inner y0 py y1 = true) by (apply inner_true; auto). rewrite H, H0 in I. discriminate. }
    rewrite F1 by auto. rewrite F2 by (intros [S T]; apply NI; lra). reflexivity.
Qed.

(** ** Crossings *)
(** How far a computed crossing may be from the exact one. *)
Definition off : R := 4 * (tau * M) + 22 * (uround * M).

Lemma accept : forall xi et s t, dbl xi -> dbl et -> Rabs (fval xi - s) <= tau * (1 + Rabs s) -> Rabs (fval et - t) <= tau * (1 + Rabs t) -> clear s -> clear t ->
  ((0 < s < 1 /\ 0 < t < 1) /\ ((xi >? qi_tol) && (xi <=? n1 - qi_tol) && (et >? qi_tol) && (et <=? n1 - qi_tol))%num = true) \/
  (~ (0 < s < 1 /\ 0 < t < 1) /\ ((xi >? qi_tol) && (xi <=? n1 - qi_tol) && (et >? qi_tol) && (et <=? n1 - qi_tol))%num = false).
Proof.
  intros xi et s t Dx De Hx He Ks Kt. destruct tol_val as [Dt Vt]. destruct minus_tol as [Dm Vm].
  assert (K1 := err_lin _ _ Hx). assert (K2 := err_lin _ _ He). unfold clear, gam in Ks, Kt. rewrite !f_lt, !f_le by auto.
  assert (IN : forall x s, s - / 10 ^ 12 / 4 * (1 + Rabs s) <= x <= s + / 10 ^ 12 / 4 * (1 + Rabs s) -> / 10 ^ 7 / 2 <= s <= 1 - / 10 ^ 7 / 2 ->
    Rltb (fval qi_tol) x = true /\ Rleb x (fval (nsub n1 qi_tol)) = true).
  { intros x s0 K H. rewrite Rabs_pos_eq in K by lra. rewrite Rltb_true, Rleb_true. lra. }
  assert (OUT : forall x s, s - / 10 ^ 12 / 4 * (1 + Rabs s) <= x <= s + / 10 ^ 12 / 4 * (1 + Rabs s) -> s <= - (/ 10 ^ 7 / 2) \/ 1 + / 10 ^ 7 / 2 <= s ->
    Rltb (fval qi_tol) x && Rleb x (fval (nsub n1 qi_tol)) = false).
  { intros x s0 K H. apply andb_false_iff. rewrite Rltb_false, Rleb_false. destruct H; [rewrite Rabs_left in K by lra|rewrite Rabs_pos_eq in K by lra]; lra. }
  destruct (Rle_or_lt s (- (/ 10 ^ 7 / 2))) as [L1|L1]; [right; split; [lra|]; rewrite (OUT _ _ K1 (or_introl L1)); reflexivity|].
  destruct (Rle_or_lt (1 + / 10 ^ 7 / 2) s) as [L2|L2]; [right; split; [lra|]; rewrite (OUT _ _ K1 (or_intror L2)); reflexivity|].
  destruct (IN _ _ K1 ltac:(lra)) as [-> ->]. cbn [andb].
  destruct (Rle_or_lt t (- (/ 10 ^ 7 / 2))) as [L3|L3]; [right; split; [lra|]; rewrite (OUT _ _ K2 (or_introl L3)); reflexivity|].
  destruct (Rle_or_lt (1 + / 10 ^ 7 / 2) t) as [L4|L4]; [right; split; [lra|]; rewrite (OUT _ _ K2 (or_intror L4)); reflexivity|].
  left. split; [lra|]. destruct (IN _ _ K2 ltac:(lra)) as [-> ->]. reflexivity.
Qed.

Lemma along_same : forall x t, coord x -> dbl t -> Rabs (fval t) <= 2 -> dbl (nadd x (nmul t (nsub x x))) /\ fval (nadd x (nmul t (nsub x x))) = fval x.
Proof.
  intros x t C Dt Bt. destruct (diff x x C C) as (D & _ & _ & Z & _). specialize (Z eq_refl). destruct C as [Dx Bx].
  destruct (f_mul_exact t (nsub x x) (nsub x x) Dt D D ltac:(rewrite Z; ring)) as [D2 V2].
  apply (f_add_exact x _ x); auto. rewrite V2, Z. ring.
Qed.

Lemma along_off : forall a b u xi s, coord a -> coord b -> dbl xi -> 0 < s < 1 -> Rabs (fval xi - s) <= tau * (1 + Rabs s) -> u = fval a + s * (fval b - fval a) ->
  Rabs (fval xi) <= 2 /\ dbl (nadd a (nmul xi (nsub b a))) /\ Rabs (fval (nadd a (nmul xi (nsub b a))) - u) <= off.
Proof.
  intros a b u xi s Ca Cb Dx Hs Hx E. assert (K := err_lin _ _ Hx). rewrite (Rabs_pos_eq s) in K, Hx by lra. assert (T := tau_rng).
  assert (Bx : Rabs (fval xi) <= 2) by (apply Rabs_le; lra). split; auto. assert (B := diff_size b a Cb Ca). destruct Ca as [Da Ba], Cb as [Db Bb].
  destruct (along_M M lo hi a b xi Da Db Dx Ba Bb Bx) as [D N]. split; auto. unfold off.
  assert (Q : Rabs ((fval xi - s) * (fval b - fval a)) <= (tau * 2) * (2 * M)).
  { rewrite Rabs_mult. apply Rmult_le_compat; try apply Rabs_pos; auto. eapply Rle_trans; [exact Hx|]. apply Rmult_le_compat_l; lra. }
  replace (fval (nadd a (nmul xi (nsub b a))) - u) with ((fval (nadd a (nmul xi (nsub b a))) - (fval a + fval xi * (fval b - fval a))) + (fval xi - s) * (fval b - fval a)) by (rewrite E; ring).
  eapply Rle_trans; [apply Rabs_triang|]. lra.
Qed.

(** Strictly between two numbers given in any order. *)
Definition amid (a p b : spec_float) : Prop := fval a < fval p < fval b \/ fval b < fval p < fval a.
Definition near_pt (p : pt spec_float) (x y : spec_float) : Prop := dblp p /\ Rabs (fst (valp p)) <= M /\ Rabs (snd (valp p)) <= M /\
  Rabs (fst (valp p) - fval x) <= off /\ Rabs (snd (valp p) - fval y) <= off.

Lemma off_pos : 0 <= off.
Proof. assert (T := tau_rng). assert (U := u_rng). assert (0 <= tau * M) by (apply Rmult_le_pos; lra). assert (0 <= uround * M) by (apply Rmult_le_pos; lra). unfold off. lra. Qed.

Lemma off_st : off <= M / 10 ^ 12.
Proof.
  unfold off, tau. assert (uround * M <= / 10 ^ 15 * M) by (apply Rmult_le_compat_r; [lra|unfold uround; lra]). assert (eta * M <= / 10 ^ 13 * M) by (apply Rmult_le_compat_r; lra). lra.
Qed.

Lemma between_M : forall a u b x, coord a -> coord b -> amid a u b -> apart u a -> apart u b -> Rabs (x - fval u) <= off -> Rabs x <= M.
Proof.
  intros a u b x [_ Ba] [_ Bb] I PA PB H. assert (O := off_st). unfold apart, amid in *. apply Rabs_le_inv in Ba, Bb, H. apply Rabs_le.
  assert (st <= Rabs (fval u - fval a) -> st <= Rabs (fval u - fval b) -> st <= fval u - fval a /\ st <= fval b - fval u \/ st <= fval u - fval b /\ st <= fval a - fval u).
  { destruct I as [I|I]; intros K1 K2; [rewrite Rabs_pos_eq in K1 by lra; rewrite Rabs_left in K2 by lra|rewrite Rabs_left in K1 by lra; rewrite Rabs_pos_eq in K2 by lra]; lra. }
  destruct (H0 PA PB) as [K|K]; lra.
Qed.

(** An edge along x from ax to bx at y and an edge along y from cy to dy at u. *)
Lemma cross_hv : forall ax bx y u cy dy, coord ax -> coord bx -> coord y -> coord u -> coord cy -> coord dy -> apart ax bx -> apart cy dy ->
  apart u ax -> apart u bx -> apart y cy -> apart y dy ->
  (amid ax u bx /\ amid cy y dy -> exists p, edge_edge g (ax, y) (bx, y) (u, cy) (u, dy) = [p] /\ near_pt p u y) /\
  (~ (amid ax u bx /\ amid cy y dy) -> edge_edge g (ax, y) (bx, y) (u, cy) (u, dy) = []).
Proof.
  intros ax bx y u cy dy Ca Cb Cy Cu Cc Cd A1 A2 P1 P2 P3 P4. assert (SP := st_pos).
  assert (Sy : forall x y, apart x y -> apart y x) by (unfold apart; intros; rewrite Rabs_minus_sym; auto).
  destruct (param u ax bx Cu Ca Cb A1 P1 P2) as (Ks & W1 & _ & E1). destruct (param y cy dy Cy Cc Cd A2 P3 P4) as (Kt & W2 & _ & _).
  destruct (solve_diag bx ax cy dy u ax cy y u u y y Cb Ca Cc Cd Cu Ca Cc Cy Cu Cu Cy Cy eq_refl eq_refl (Sy _ _ A1) A2) as ((xi & et & E & Dx & De & Hx & He) & _).
  assert (NZ : fval cy - fval dy <> 0) by (intros Z; unfold apart in A2; rewrite Z, Rabs_R0 in A2; lra).
  replace ((fval cy - fval y) / (fval cy - fval dy)) with ((fval y - fval cy) / (fval dy - fval cy)) in He by (field; lra).
  set (s := (fval u - fval ax) / (fval bx - fval ax)) in *. set (t := (fval y - fval cy) / (fval dy - fval cy)) in *.
  unfold edge_edge. cbn [fst snd]. rewrite E. change (0 <? 0)%Z with false. cbv iota. unfold amid.
  destruct (accept xi et s t Dx De Hx He Ks Kt) as [[[S T] ->]|[N ->]].
  - split; [intros _|intros N; exfalso; apply N; split; [apply W1|apply W2]; auto].
    destruct (along_off ax bx (fval u) xi s Ca Cb Dx S Hx E1) as (B & D & O). destruct (along_same y xi Cy Dx B) as [D2 V2].
    eexists. split; [reflexivity|]. unfold near_pt, along, dblp, valp. cbn [fst snd]. split; [auto|]. rewrite V2, Rminus_eq_0, Rabs_R0.
    split; [apply (between_M ax u bx); auto; apply W1; auto|]. split; [apply Cy|]. split; [auto|apply off_pos].
  - split; [intros [H1 H2]; exfalso; apply N; split; [apply W1|apply W2]; auto|auto].
Qed.

(** An edge along y from ay to by at x and an edge along x from cx to dx at v. *)
Lemma cross_vh : forall x ay by' cx dx v, coord x -> coord ay -> coord by' -> coord cx -> coord dx -> coord v -> apart ay by' -> apart cx dx ->
  apart v ay -> apart v by' -> apart x cx -> apart x dx ->
  (amid ay v by' /\ amid cx x dx -> exists p, edge_edge g (x, ay) (x, by') (cx, v) (dx, v) = [p] /\ near_pt p x v) /\
  (~ (amid ay v by' /\ amid cx x dx) -> edge_edge g (x, ay) (x, by') (cx, v) (dx, v) = []).
Proof.
  intros x ay by' cx dx v Cx Ca Cb Cc Cd Cv A1 A2 P1 P2 P3 P4. assert (SP := st_pos).
  assert (Sy : forall x y, apart x y -> apart y x) by (unfold apart; intros; rewrite Rabs_minus_sym; auto).
  destruct (param v ay by' Cv Ca Cb A1 P1 P2) as (Kt & W1 & _ & E1). destruct (param x cx dx Cx Cc Cd A2 P3 P4) as (Ks & W2 & _ & _).
  destruct (solve_diag cx dx by' ay cx x v ay x x v v Cc Cd Cb Ca Cc Cx Cv Ca Cx Cx Cv Cv eq_refl eq_refl A2 (Sy _ _ A1)) as (_ & (xi & et & E & Dx & De & Hx & He)).
  assert (NZ : fval cx - fval dx <> 0) by (intros Z; unfold apart in A2; rewrite Z, Rabs_R0 in A2; lra).
  replace ((fval cx - fval x) / (fval cx - fval dx)) with ((fval x - fval cx) / (fval dx - fval cx)) in He by (field; lra).
  set (s := (fval x - fval cx) / (fval dx - fval cx)) in *. set (t := (fval v - fval ay) / (fval by' - fval ay)) in *.
  unfold edge_edge. cbn [fst snd]. rewrite E. change (0 <? 0)%Z with false. cbv iota. unfold amid.
  destruct (accept xi et t s Dx De Hx He Kt Ks) as [[[S T] ->]|[N ->]].
  - split; [intros _|intros N; exfalso; apply N; split; [apply W1|apply W2]; auto].
    destruct (along_off ay by' (fval v) xi t Ca Cb Dx S Hx E1) as (B & D & O). destruct (along_same x xi Cx Dx B) as [D2 V2].
    eexists. split; [reflexivity|]. unfold near_pt, along, dblp, valp. cbn [fst snd]. split; [auto|]. rewrite V2, Rminus_eq_0, Rabs_R0.
    split; [apply Cx|]. split; [apply (between_M ay v by'); auto; apply W1; auto|]. split; [apply off_pos|auto].
  - split; [intros [H1 H2]; exfalso; apply N; split; [apply W1|apply W2]; auto|auto].
Qed.

Lemma no_hh : forall ax bx y cx dx v, coord ax -> coord bx -> coord y -> coord cx -> coord dx -> coord v -> apart ax bx -> apart cx dx ->
  edge_edge g (ax, y) (bx, y) (cx, v) (dx, v) = [].
Proof.
  intros ax bx y cx dx v Ca Cb Cy Cc Cd Cv A1 A2.
  assert (Sy : forall x y, apart x y -> apart y x) by (unfold apart; intros; rewrite Rabs_minus_sym; auto).
  destruct (solve_flat bx ax cx dx cx ax v y y y v v) as [F _]; auto. unfold edge_edge. cbn [fst snd].
  destruct (solve2 g _ _ _ _ _ _) as [ier [xi et]]. cbn [fst] in F. apply Z.ltb_lt in F. rewrite F. reflexivity.
Qed.

Lemma no_vv : forall x ay by' u cy dy, coord x -> coord ay -> coord by' -> coord u -> coord cy -> coord dy -> apart ay by' -> apart cy dy ->
  edge_edge g (x, ay) (x, by') (u, cy) (u, dy) = [].
Proof.
  intros x ay by' u cy dy Cx Ca Cb Cu Cc Cd A1 A2.
  assert (Sy : forall x y, apart x y -> apart y x) by (unfold apart; intros; rewrite Rabs_minus_sym; auto).
  destruct (solve_flat by' ay cy dy u x cy ay x x u u) as [_ F]; auto. unfold edge_edge. cbn [fst snd].
  destruct (solve2 g _ _ _ _ _ _) as [ier [xi et]]. cbn [fst] in F. apply Z.ltb_lt in F. rewrite F. reflexivity.
Qed.

(** ** The edges of two boxes, followed in any direction *)
Definition crossed (b : bool) (x y : spec_float) (r : list (pt spec_float)) : Prop :=
  if b then exists p, r = [p] /\ near_pt p x y else r = [].

Definition ends (x0 x1 a b : spec_float) : Prop := a = x0 /\ b = x1 \/ a = x1 /\ b = x0.

Lemma amid_inner : forall x0 x1 a b p, fval x0 < fval x1 -> ends x0 x1 a b -> (amid a p b <-> inner x0 p x1 = true).
Proof. intros x0 x1 a b p L [[-> ->]|[-> ->]]; unfold amid; rewrite inner_true; split; lra. Qed.

Lemma ways_hv : forall x0 x1 y u v0 v1 ax bx cy dy r, coord x0 -> coord x1 -> coord y -> coord u -> coord v0 -> coord v1 ->
  st <= fval x1 - fval x0 -> st <= fval v1 - fval v0 -> apart u x0 -> apart u x1 -> apart y v0 -> apart y v1 -> ends x0 x1 ax bx -> ends v0 v1 cy dy ->
  either_way g (ax, y) (bx, y) (u, cy) (u, dy) r -> crossed (inner x0 u x1 && inner v0 y v1) u y r.
Proof.
  intros x0 x1 y u v0 v1 ax bx cy dy r C0 C1 Cy Cu D0 D1 LX LV P0 P1 Q0 Q1 EX EV W. assert (SP := st_pos).
  assert (A1 : apart x0 x1) by (unfold apart; rewrite Rabs_minus_sym, Rabs_pos_eq; lra). assert (A2 : apart v0 v1) by (unfold apart; rewrite Rabs_minus_sym, Rabs_pos_eq; lra).
  assert (B1 : apart x1 x0) by (unfold apart; rewrite Rabs_pos_eq; lra). assert (B2 : apart v1 v0) by (unfold apart; rewrite Rabs_pos_eq; lra).
  assert (Lx : fval x0 < fval x1) by lra. assert (Lv : fval v0 < fval v1) by lra.
  assert (K : forall a b c d, ends x0 x1 a b -> ends v0 v1 c d -> crossed (inner x0 u x1 && inner v0 y v1) u y (edge_edge g (a, y) (b, y) (u, c) (u, d))).
  { intros a b c d Ea Ec. assert (I1 := amid_inner x0 x1 a b u Lx Ea). assert (I2 := amid_inner v0 v1 c d y Lv Ec).
    assert (H : (amid a u b /\ amid c y d -> exists p, edge_edge g (a, y) (b, y) (u, c) (u, d) = [p] /\ near_pt p u y) /\
      (~ (amid a u b /\ amid c y d) -> edge_edge g (a, y) (b, y) (u, c) (u, d) = [])).
    { destruct Ea as [[-> ->]|[-> ->]], Ec as [[-> ->]|[-> ->]]; apply cross_hv; auto. }
    destruct H as [H1 H2]. unfold crossed. destruct (inner x0 u x1), (inner v0 y v1); cbn [andb];
      first [apply H1; split; [apply I1|apply I2]; reflexivity | apply H2; intros [X1 X2]; apply I1 in X1; apply I2 in X2; discriminate]. }
  assert (SW : forall x y a b, ends x y a b -> ends x y b a) by (unfold ends; tauto).
  destruct W as [-> |[-> |[-> | ->]]]; apply K; auto.
Qed.

Lemma ways_vh : forall x y0 y1 u0 u1 v ay by' cx dx r, coord x -> coord y0 -> coord y1 -> coord u0 -> coord u1 -> coord v ->
  st <= fval y1 - fval y0 -> st <= fval u1 - fval u0 -> apart v y0 -> apart v y1 -> apart x u0 -> apart x u1 -> ends y0 y1 ay by' -> ends u0 u1 cx dx ->
  either_way g (x, ay) (x, by') (cx, v) (dx, v) r -> crossed (inner y0 v y1 && inner u0 x u1) x v r.
Proof.
  intros x y0 y1 u0 u1 v ay by' cx dx r Cx C0 C1 D0 D1 Cv LX LV P0 P1 Q0 Q1 EX EV W. assert (SP := st_pos).
  assert (A1 : apart y0 y1) by (unfold apart; rewrite Rabs_minus_sym, Rabs_pos_eq; lra). assert (A2 : apart u0 u1) by (unfold apart; rewrite Rabs_minus_sym, Rabs_pos_eq; lra).
  assert (B1 : apart y1 y0) by (unfold apart; rewrite Rabs_pos_eq; lra). assert (B2 : apart u1 u0) by (unfold apart; rewrite Rabs_pos_eq; lra).
  assert (Lx : fval y0 < fval y1) by lra. assert (Lv : fval u0 < fval u1) by lra.
  assert (K : forall a b c d, ends y0 y1 a b -> ends u0 u1 c d -> crossed (inner y0 v y1 && inner u0 x u1) x v (edge_edge g (x, a) (x, b) (c, v) (d, v))).
  { intros a b c d Ea Ec. assert (I1 := amid_inner y0 y1 a b v Lx Ea). assert (I2 := amid_inner u0 u1 c d x Lv Ec).
    assert (H : (amid a v b /\ amid c x d -> exists p, edge_edge g (x, a) (x, b) (c, v) (d, v) = [p] /\ near_pt p x v) /\
      (~ (amid a v b /\ amid c x d) -> edge_edge g (x, a) (x, b) (c, v) (d, v) = [])).
    { destruct Ea as [[-> ->]|[-> ->]], Ec as [[-> ->]|[-> ->]]; apply cross_vh; auto. }
    destruct H as [H1 H2]. unfold crossed. destruct (inner y0 v y1), (inner u0 x u1); cbn [andb];
      first [apply H1; split; [apply I1|apply I2]; reflexivity | apply H2; intros [X1 X2]; apply I1 in X1; apply I2 in X2; discriminate]. }
  assert (SW : forall x y a b, ends x y a b -> ends x y b a) by (unfold ends; tauto).
  destruct W as [-> |[-> |[-> | ->]]]; apply K; auto.
Qed.

Lemma ways_hh : forall x0 x1 y u0 u1 v ax bx cx dx r, coord x0 -> coord x1 -> coord y -> coord u0 -> coord u1 -> coord v ->
  st <= fval x1 - fval x0 -> st <= fval u1 - fval u0 -> ends x0 x1 ax bx -> ends u0 u1 cx dx -> either_way g (ax, y) (bx, y) (cx, v) (dx, v) r -> r = [].
Proof.
  intros x0 x1 y u0 u1 v ax bx cx dx r C0 C1 Cy D0 D1 Cv LX LV EX EV W. assert (SP := st_pos).
  assert (A1 : apart x0 x1) by (unfold apart; rewrite Rabs_minus_sym, Rabs_pos_eq; lra). assert (A2 : apart u0 u1) by (unfold apart; rewrite Rabs_minus_sym, Rabs_pos_eq; lra).
  assert (B1 : apart x1 x0) by (unfold apart; rewrite Rabs_pos_eq; lra). assert (B2 : apart u1 u0) by (unfold apart; rewrite Rabs_pos_eq; lra).
  destruct EX as [[-> ->]|[-> ->]], EV as [[-> ->]|[-> ->]], W as [-> |[-> |[-> | ->]]]; apply no_hh; auto.
Qed.

Lemma ways_vv : forall x y0 y1 u v0 v1 ay by' cy dy r, coord x -> coord y0 -> coord y1 -> coord u -> coord v0 -> coord v1 ->
  st <= fval y1 - fval y0 -> st <= fval v1 - fval v0 -> ends y0 y1 ay by' -> ends v0 v1 cy dy -> either_way g (x, ay) (x, by') (u, cy) (u, dy) r -> r = [].
Proof.
  intros x y0 y1 u v0 v1 ay by' cy dy r Cx C0 C1 Cu D0 D1 LX LV EX EV W. assert (SP := st_pos).
  assert (A1 : apart y0 y1) by (unfold apart; rewrite Rabs_minus_sym, Rabs_pos_eq; lra). assert (A2 : apart v0 v1) by (unfold apart; rewrite Rabs_minus_sym, Rabs_pos_eq; lra).
  assert (B1 : apart y1 y0) by (unfold apart; rewrite Rabs_pos_eq; lra). assert (B2 : apart v1 v0) by (unfold apart; rewrite Rabs_pos_eq; lra).
  destruct EX as [[-> ->]|[-> ->]], EV as [[-> ->]|[-> ->]], W as [-> |[-> |[-> | ->]]]; apply no_vv; auto.
Qed.

(** ** Area of four corners *)
Lemma point_dec : forall a b : point, {a = b} + {a <> b}.
Proof.
  intros [a1 a2] [b1 b2]. destruct (Req_EM_T a1 b1) as [->|N]; [|right; intros E; apply N; congruence].
  destruct (Req_EM_T a2 b2) as [->|N]; [left; reflexivity|right; intros E; apply N; congruence].
Qed.

Lemma corners_hull : forall srt junk del x0 x1 y0 y1 (p00 p10 p11 p01 : pt spec_float) pts zs, (forall lt l, Permutation (srt lt l) l) -> 0 <= del <= M ->
  epsR + kappa M del < st * st -> st <= x1 - x0 -> st <= y1 - y0 -> Rabs x0 <= M -> Rabs x1 <= M -> Rabs y0 <= M -> Rabs y1 <= M ->
  (forall p z, In (p, z) [(p00, (x0, y0)); (p10, (x1, y0)); (p11, (x1, y1)); (p01, (x0, y1))] ->
    dblp p /\ Rabs (fst (valp p)) <= M /\ Rabs (snd (valp p)) <= M /\ Rabs (fst (valp p) - fst z) <= del /\ Rabs (snd (valp p) - snd z) <= del) ->
  Forall2 (fun p z => In (p, z) [(p00, (x0, y0)); (p10, (x1, y0)); (p11, (x1, y1)); (p01, (x0, y1))]) pts zs ->
  (forall z, In z (box x0 x1 y0 y1) -> In z zs) -> INR (length pts) * kappa M del <= M * M ->
  dbl (hull_of srt junk pts) /\ Rabs (fval (hull_of srt junk pts) - (x1 - x0) * (y1 - y0)) <= INR (length pts) * kappa M del / 2.
Proof.
  intros srt junk del x0 x1 y0 y1 p00 p10 p11 p01 pts zs SRT DR SEP LX LY B0 B1 B2 B3 NR F ALL NK. assert (SP := st_pos). assert (EP := eps_pos).
  assert (KP := kappa_pos M M_one del ltac:(lra)).
  set (cs := [(p00, (x0, y0)); (p10, (x1, y0)); (p11, (x1, y1)); (p01, (x0, y1))]) in *. set (P := box x0 x1 y0 y1).
  set (h := fun a : point => if point_dec a (x0, y0) then valp p00 else if point_dec a (x1, y0) then valp p10 else if point_dec a (x1, y1) then valp p11 else valp p01).
  assert (NE : forall a b c d : R, (a, b) = (c, d) -> a = c /\ b = d) by (intros a b c d E; split; [apply (f_equal fst) in E|apply (f_equal snd) in E]; exact E).
  assert (HH : forall p z, In (p, z) cs -> h z = valp p).
  { assert (DEC : forall a b : point, a <> b -> forall (u v : point), (if point_dec a b then u else v) = v) by (intros a b N u v; destruct (point_dec a b); congruence).
    assert (SAME : forall (a u v : point), (if point_dec a a then u else v) = u) by (intros a u v; destruct (point_dec a a); congruence).
    intros p z [E|[E|[E|[E|[]]]]]; assert (Ez := f_equal snd E); apply (f_equal fst) in E; cbn [fst snd] in *; subst p z; unfold h.
    - apply SAME.
    - rewrite DEC by (intros Q; apply NE in Q; lra). apply SAME.
    - rewrite DEC by (intros Q; apply NE in Q; lra). rewrite DEC by (intros Q; apply NE in Q; lra). apply SAME.
    - rewrite DEC by (intros Q; apply NE in Q; lra). rewrite DEC by (intros Q; apply NE in Q; lra). apply DEC. intros Q; apply NE in Q; lra. }
  assert (PC : forall z, In z P -> exists p, In (p, z) cs).
  { intros z [<-|[<-|[<-|[<-|[]]]]]; [exists p00|exists p10|exists p11|exists p01]; cbn; auto. }
  assert (CP : forall p z, In (p, z) cs -> In z P).
  { intros p z [E|[E|[E|[E|[]]]]]; apply (f_equal snd) in E; cbn [snd] in E; subst z; cbn; auto. }
  assert (PA : polygon_area P = (x1 - x0) * (y1 - y0)) by (unfold polygon_area, shoelace, P, box; cbn [app chain_sum]; unfold det2; cbn [fst snd]; field).
  assert (Z1 : st * st <= (x1 - x0) * (x1 - x0)) by (apply Rmult_le_compat; lra).
  assert (Z2 : st * st <= (y1 - y0) * (y1 - y0)) by (apply Rmult_le_compat; lra).
  assert (Z3 : st * st <= (x1 - x0) * (y1 - y0)) by (apply Rmult_le_compat; lra).
  assert (Z0 : 0 < st * st) by (apply Rmult_lt_0_compat; lra).
  assert (SC : strict_ccw P).
  { intros i j k L Hk. cbn in Hk. destruct i as [|[|i]], j as [|[|[|j]]], k as [|[|[|[|k]]]]; try lia; unfold cr, nthp, P, box; cbn [nth fst snd]; lra. }
  assert (SE : separated (epsR + kappa M del) P).
  { split.
    - intros a b Ia Ib. cbn in Ia, Ib. destruct Ia as [<-|[<-|[<-|[<-|[]]]]], Ib as [<-|[<-|[<-|[<-|[]]]]]; first [left; reflexivity|right; unfold sqdist; cbn [fst snd]; lra].
    - intros a b c Ia Ib Ic.
      assert (V : cr a b c = 0 \/ cr a b c = (x1 - x0) * (y1 - y0) \/ cr a b c = - ((x1 - x0) * (y1 - y0))).
      { cbn in Ia, Ib, Ic. destruct Ia as [<-|[<-|[<-|[<-|[]]]]], Ib as [<-|[<-|[<-|[<-|[]]]]], Ic as [<-|[<-|[<-|[<-|[]]]]]; unfold cr; cbn [fst snd];
        first [left; ring | right; left; ring | right; right; ring]. }
      destruct V as [V|[V|V]]; [left; auto|right; rewrite V, Rabs_right by lra; lra|right; rewrite V, Rabs_left by lra; lra]. }
  assert (LZ : length pts = length zs) by (eapply Forall2_length; exact F).
  assert (ZP : forall z, In z zs -> In z P).
  { clear - F CP. induction F as [|p z ps zs H F IH]; intros w Hw; [contradiction|]. destruct Hw as [<-|Hw]; eauto. }
  rewrite <- PA. unfold hull_of.
  destruct (near_hull M M_one M_big P h del DR) with (srt := srt) (junk := junk) (n := length pts) (ps := pts) (zs := zs) as (D & A & _); auto.
  - intros a [<-|[<-|[<-|[<-|[]]]]]; cbn [fst snd]; auto.
  - intros a Ha. destruct (PC a Ha) as (p & Hp). rewrite (HH p a Hp). destruct (NR p a Hp) as (_ & X & Y & _). auto.
  - intros a Ha. destruct (PC a Ha) as (p & Hp). rewrite (HH p a Hp). destruct (NR p a Hp) as (_ & _ & _ & X & Y). auto.
  - intros a b c Ha Hb Hc. apply (strict_ccw_general P); auto.
  - clear - F NR HH CP. induction F as [|p z ps zs H F IH]; constructor; auto. split; [apply (NR p z H)|]. split; [symmetry; apply HH; auto|]. eapply CP; eauto.
  - intros p. rewrite LZ, firstn_all. split; auto.
  - unfold P, box. repeat (constructor; [simpl; intros H; repeat (destruct H as [H|H]; [apply NE in H; lra|]); exact H|]). constructor.
  - cbn. lia.
Qed.

(** ** The points of two boxes *)
Definition single (p : pt spec_float) (l : list (pt spec_float)) : Prop := l = [] \/ l = [p].

(** One corner of the common part: its x is x (of the first box) or u (of the second), its y is y or v. *)
Lemma corner_point : forall bx bu by' bv x u y v D S r1 r2, coord x -> coord u -> coord y -> coord v -> bx = negb bu -> by' = negb bv ->
  D = (if bx && by' then [(x, y)] else []) -> S = (if bu && bv then [(u, v)] else []) -> crossed (bu && by') u y r1 -> crossed (bv && bx) x v r2 ->
  exists p, single p D /\ single p S /\ single p r1 /\ single p r2 /\ (length D + length S + length r1 + length r2 = 1)%nat /\
    near_pt p (if bx then x else u) (if by' then y else v).
Proof.
  intros bx bu by' bv x u y v D S r1 r2 Cx Cu Cy Cv Ex Ey -> -> H1 H2. assert (O := off_pos). unfold single, crossed in *.
  destruct bu, bv; cbn [negb] in Ex, Ey; subst bx by'; cbn [andb] in *.
  - subst. exists (u, v). do 5 (split; [auto|]). split; [destruct Cu, Cv; split; auto|]. unfold valp. cbn [fst snd]. rewrite !Rminus_eq_0, Rabs_R0. destruct Cu, Cv. auto.
  - destruct H1 as (p & -> & N). subst. exists p. do 5 (split; [auto|]). exact N.
  - destruct H2 as (p & -> & N). subst. exists p. do 5 (split; [auto|]). exact N.
  - subst. exists (x, y). do 5 (split; [auto|]). split; [destruct Cx, Cy; split; auto|]. unfold valp. cbn [fst snd]. rewrite !Rminus_eq_0, Rabs_R0. destruct Cx, Cy. auto.
Qed.

(** The common part in one direction. *)
Lemma meet_dir : forall x0 x1 u0 u1, st <= fval x1 - fval x0 -> st <= fval u1 - fval u0 -> apart x0 u0 -> apart x0 u1 -> apart x1 u0 -> apart x1 u1 ->
  fval u0 < fval x1 -> fval x0 < fval u1 ->
  inner u0 x0 u1 = negb (inner x0 u0 x1) /\ inner u0 x1 u1 = negb (inner x0 u1 x1) /\
  let lo := if inner u0 x0 u1 then x0 else u0 in let hi := if inner u0 x1 u1 then x1 else u1 in
  fval lo = Rmax (fval x0) (fval u0) /\ fval hi = Rmin (fval x1) (fval u1) /\ st <= fval hi - fval lo.
Proof.
  intros x0 x1 u0 u1 LX LU A1 A2 A3 A4 O1 O2. assert (SP := st_pos). unfold apart in *. unfold inner, Rmax, Rmin.
  revert A1 A2 A3 A4. unfold Rabs. destruct (Rcase_abs (fval x0 - fval u0)), (Rcase_abs (fval x0 - fval u1)), (Rcase_abs (fval x1 - fval u0)), (Rcase_abs (fval x1 - fval u1)); intros A1 A2 A3 A4; try lra;
    repeat match goal with |- context [Rltb ?a ?b] => first [replace (Rltb a b) with true by (symmetry; apply Rltb_true; lra) | replace (Rltb a b) with false by (symmetry; apply Rltb_false; lra)] end;
    cbn [andb negb]; (split; [reflexivity|]); (split; [reflexivity|]);
    destruct (Rle_dec (fval x0) (fval u0)), (Rle_dec (fval x1) (fval u1)); lra.
Qed.

Definition zof (z : point) (l : list (pt spec_float)) : list point := map (fun _ => z) l.

Theorem boxes_hull : forall srt junk x0 x1 y0 y1 u0 u1 v0 v1 pts, (forall lt l, Permutation (srt lt l) l) ->
  coord x0 -> coord x1 -> coord y0 -> coord y1 -> coord u0 -> coord u1 -> coord v0 -> coord v1 ->
  st <= fval x1 - fval x0 -> st <= fval y1 - fval y0 -> st <= fval u1 - fval u0 -> st <= fval v1 - fval v0 ->
  apart x0 u0 -> apart x0 u1 -> apart x1 u0 -> apart x1 u1 -> apart y0 v0 -> apart y0 v1 -> apart y1 v0 -> apart y1 v1 ->
  fval u0 < fval x1 -> fval x0 < fval u1 -> fval v0 < fval y1 -> fval y0 < fval v1 -> epsR + kappa M off < st * st ->
  collected g (fbox x0 x1 y0 y1) (fbox u0 u1 v0 v1) pts ->
  (4 <= length pts)%nat /\ dbl (hull_of srt junk pts) /\
  Rabs (fval (hull_of srt junk pts) - (Rmin (fval x1) (fval u1) - Rmax (fval x0) (fval u0)) * (Rmin (fval y1) (fval v1) - Rmax (fval y0) (fval v0))) <= 8 * kappa M off.
Proof.
  intros srt junk x0 x1 y0 y1 u0 u1 v0 v1 pts SRT Cx0 Cx1 Cy0 Cy1 Cu0 Cu1 Cv0 Cv1 LX LY LU LV A1 A2 A3 A4 B1 B2 B3 B4 O1 O2 O3 O4 SEP C.
  assert (Sy : forall x y, apart x y -> apart y x) by (unfold apart; intros; rewrite Rabs_minus_sym; auto).
  destruct (meet_dir x0 x1 u0 u1 LX LU A1 A2 A3 A4 O1 O2) as (X0 & X1 & XL & XH & XS).
  destruct (meet_dir y0 y1 v0 v1 LY LV B1 B2 B3 B4 O3 O4) as (Y0 & Y1 & YL & YH & YS).
  unfold collected in C. cbn [qedges fbox q0 q1 q2 q3] in C. apply pieces4 in C.
  destruct C as (s0 & s1 & s2 & s3 & (t0 & -> & H0) & (t1 & -> & H1) & (t2 & -> & H2) & (t3 & -> & H3) & ->).
  apply pieces4 in H0, H1, H2, H3.
  destruct H0 as (? & ? & ? & ? & (b0 & -> & W00) & (b1 & -> & W01) & (b2 & -> & W02) & (b3 & -> & W03) & ->).
  destruct H1 as (? & ? & ? & ? & (r0 & -> & W10) & (r1 & -> & W11) & (r2 & -> & W12) & (r3 & -> & W13) & ->).
  destruct H2 as (? & ? & ? & ? & (c0 & -> & W20) & (c1 & -> & W21) & (c2 & -> & W22) & (c3 & -> & W23) & ->).
  destruct H3 as (? & ? & ? & ? & (l0 & -> & W30) & (l1 & -> & W31) & (l2 & -> & W32) & (l3 & -> & W33) & ->).
  cbn [fst snd] in *.
  assert (EN : forall a b, ends a b a b) by (left; auto). assert (EN' : forall a b, ends a b b a) by (right; auto).
  apply (ways_hh x0 x1 y0 u0 u1 v0) in W00; auto. apply (ways_hh x0 x1 y0 u0 u1 v1) in W02; auto. apply (ways_hh x0 x1 y1 u0 u1 v0) in W20; auto. apply (ways_hh x0 x1 y1 u0 u1 v1) in W22; auto.
  apply (ways_vv x1 y0 y1 u1 v0 v1) in W11; auto. apply (ways_vv x1 y0 y1 u0 v0 v1) in W13; auto. apply (ways_vv x0 y0 y1 u1 v0 v1) in W31; auto. apply (ways_vv x0 y0 y1 u0 v0 v1) in W33; auto.
  apply (ways_hv x0 x1 y0 u1 v0 v1) in W01; auto. apply (ways_hv x0 x1 y0 u0 v0 v1) in W03; auto. apply (ways_hv x0 x1 y1 u1 v0 v1) in W21; auto. apply (ways_hv x0 x1 y1 u0 v0 v1) in W23; auto.
  apply (ways_vh x1 y0 y1 u0 u1 v0) in W10; auto. apply (ways_vh x1 y0 y1 u0 u1 v1) in W12; auto. apply (ways_vh x0 y0 y1 u0 u1 v0) in W30; auto. apply (ways_vh x0 y0 y1 u0 u1 v1) in W32; auto.
  subst b0 b2 c0 c2 r1 r3 l1 l3. rewrite !app_nil_r.
  change (q0 (fbox x0 x1 y0 y1)) with (x0, y0). change (q1 (fbox x0 x1 y0 y1)) with (x1, y0). change (q2 (fbox x0 x1 y0 y1)) with (x1, y1). change (q3 (fbox x0 x1 y0 y1)) with (x0, y1).
  change (q0 (fbox u0 u1 v0 v1)) with (u0, v0). change (q1 (fbox u0 u1 v0 v1)) with (u1, v0). change (q2 (fbox u0 u1 v0 v1)) with (u1, v1). change (q3 (fbox u0 u1 v0 v1)) with (u0, v1).
  match goal with |- context [if in_cell g (x0, y0) (fbox u0 u1 v0 v1) then ?l else ?m] => set (D00 := if in_cell g (x0, y0) (fbox u0 u1 v0 v1) then l else m) end. match goal with |- context [if in_cell g (x1, y0) (fbox u0 u1 v0 v1) then ?l else ?m] => set (D10 := if in_cell g (x1, y0) (fbox u0 u1 v0 v1) then l else m) end.
  match goal with |- context [if in_cell g (x1, y1) (fbox u0 u1 v0 v1) then ?l else ?m] => set (D11 := if in_cell g (x1, y1) (fbox u0 u1 v0 v1) then l else m) end. match goal with |- context [if in_cell g (x0, y1) (fbox u0 u1 v0 v1) then ?l else ?m] => set (D01 := if in_cell g (x0, y1) (fbox u0 u1 v0 v1) then l else m) end.
  match goal with |- context [if in_cell g (u0, v0) (fbox x0 x1 y0 y1) then ?l else ?m] => set (S00 := if in_cell g (u0, v0) (fbox x0 x1 y0 y1) then l else m) end. match goal with |- context [if in_cell g (u1, v0) (fbox x0 x1 y0 y1) then ?l else ?m] => set (S10 := if in_cell g (u1, v0) (fbox x0 x1 y0 y1) then l else m) end.
  match goal with |- context [if in_cell g (u1, v1) (fbox x0 x1 y0 y1) then ?l else ?m] => set (S11 := if in_cell g (u1, v1) (fbox x0 x1 y0 y1) then l else m) end. match goal with |- context [if in_cell g (u0, v1) (fbox x0 x1 y0 y1) then ?l else ?m] => set (S01 := if in_cell g (u0, v1) (fbox x0 x1 y0 y1) then l else m) end.
  assert (Q00 := corner_point _ _ _ _ x0 u0 y0 v0 D00 S00 b3 l0 Cx0 Cu0 Cy0 Cv0 X0 Y0 ltac:(unfold D00; rewrite in_fbox; auto) ltac:(unfold S00; rewrite in_fbox; auto) W03 W30).
  assert (Q10 := corner_point _ _ _ _ x1 u1 y0 v0 D10 S10 b1 r0 Cx1 Cu1 Cy0 Cv0 X1 Y0 ltac:(unfold D10; rewrite in_fbox; auto) ltac:(unfold S10; rewrite in_fbox; auto) W01 W10).
  assert (Q11 := corner_point _ _ _ _ x1 u1 y1 v1 D11 S11 c1 r2 Cx1 Cu1 Cy1 Cv1 X1 Y1 ltac:(unfold D11; rewrite in_fbox; auto) ltac:(unfold S11; rewrite in_fbox; auto) W21 W12).
  assert (Q01 := corner_point _ _ _ _ x0 u0 y1 v1 D01 S01 c3 l2 Cx0 Cu0 Cy1 Cv1 X0 Y1 ltac:(unfold D01; rewrite in_fbox; auto) ltac:(unfold S01; rewrite in_fbox; auto) W23 W32).
  clearbody D00 D10 D11 D01 S00 S10 S11 S01. clear W01 W03 W10 W12 W21 W23 W30 W32.
  destruct Q00 as (p00 & T001 & T002 & T003 & T004 & N00 & R00). destruct Q10 as (p10 & T101 & T102 & T103 & T104 & N10 & R10).
  destruct Q11 as (p11 & T111 & T112 & T113 & T114 & N11 & R11). destruct Q01 as (p01 & T011 & T012 & T013 & T014 & N01 & R01).
  set (xl := if inner u0 x0 u1 then x0 else u0) in *. set (xh := if inner u0 x1 u1 then x1 else u1) in *.
  set (yl := if inner v0 y0 v1 then y0 else v0) in *. set (yh := if inner v0 y1 v1 then y1 else v1) in *.
  set (z00 := (fval xl, fval yl)). set (z10 := (fval xh, fval yl)). set (z11 := (fval xh, fval yh)). set (z01 := (fval xl, fval yh)).
  match goal with |- context [hull_of srt junk ?l] => set (L := l) end.
  assert (LEN : (4 <= length L <= 16)%nat) by (unfold L; rewrite !app_length; unfold pt in *; lia).
  split; [lia|]. rewrite <- XL, <- XH, <- YL, <- YH.
  assert (OK := off_st). assert (OP := off_pos). assert (SP := st_pos). assert (KP := kappa_pos M M_one off ltac:(lra)).
  assert (CC : forall b x u, coord x -> coord u -> Rabs (fval (if b : bool then x else u)) <= M) by (intros [|] x u [] []; auto).
  set (zs := (zof z00 D00 ++ (zof z00 S00 ++ (zof z10 S10 ++ zof z10 b1) ++ zof z11 S11 ++ zof z01 S01 ++ zof z00 b3)) ++
             (zof z10 D10 ++ ((zof z00 S00 ++ zof z10 r0) ++ zof z10 S10 ++ (zof z11 S11 ++ zof z11 r2) ++ zof z01 S01)) ++
             (zof z11 D11 ++ (zof z00 S00 ++ (zof z10 S10 ++ zof z11 c1) ++ zof z11 S11 ++ zof z01 S01 ++ zof z01 c3)) ++
             (zof z01 D01 ++ ((zof z00 S00 ++ zof z00 l0) ++ zof z10 S10 ++ (zof z11 S11 ++ zof z01 l2) ++ zof z01 S01))).
  destruct (corners_hull srt junk off (fval xl) (fval xh) (fval yl) (fval yh) p00 p10 p11 p01 L zs SRT) as [DB ER]; auto.
  - lra.
  - unfold xl. auto.
  - unfold xh. auto.
  - unfold yl. auto.
  - unfold yh. auto.
  - intros p z I. cbn [In] in I. destruct I as [I|[I|[I|[I|[]]]]]; assert (EP := f_equal fst I); assert (EZ := f_equal snd I); cbn [fst snd] in EP, EZ; subst p z; auto.
  - assert (ONE : forall p z l, single p l -> In (p, z) [(p00, z00); (p10, z10); (p11, z11); (p01, z01)] ->
      Forall2 (fun p z => In (p, z) [(p00, z00); (p10, z10); (p11, z11); (p01, z01)]) l (zof z l)).
    { intros p z l [-> | ->] I; cbn; auto. }
    assert (I0 : In (p00, z00) [(p00, z00); (p10, z10); (p11, z11); (p01, z01)]) by (left; reflexivity). assert (I1 : In (p10, z10) [(p00, z00); (p10, z10); (p11, z11); (p01, z01)]) by (right; left; reflexivity).
    assert (I2 : In (p11, z11) [(p00, z00); (p10, z10); (p11, z11); (p01, z01)]) by (right; right; left; reflexivity). assert (I3 : In (p01, z01) [(p00, z00); (p10, z10); (p11, z11); (p01, z01)]) by (right; right; right; left; reflexivity).
    unfold L, zs. repeat apply Forall2_app; solve [apply (ONE p00); auto|apply (ONE p10); auto|apply (ONE p11); auto|apply (ONE p01); auto].
  - assert (ZI : forall z l, l <> [] -> In z (zof z l)) by (intros z [|q l] N; [congruence|left; reflexivity]).
    assert (SOME : forall (a b c d : list (pt spec_float)), (length a + length b + length c + length d = 1)%nat -> a <> [] \/ b <> [] \/ c <> [] \/ d <> []).
    { intros [|] [|] [|] [|] E; cbn in E; try lia; try (left; congruence); try (right; left; congruence); try (right; right; left; congruence); right; right; right; congruence. }
    intros z I. cbn [box In] in I. unfold zs. rewrite !in_app_iff.
    destruct I as [<- |[<- |[<- |[<- |[]]]]]; [destruct (SOME _ _ _ _ N00) as [E|[E|[E|E]]]; apply (ZI z00) in E|destruct (SOME _ _ _ _ N10) as [E|[E|[E|E]]]; apply (ZI z10) in E|
      destruct (SOME _ _ _ _ N11) as [E|[E|[E|E]]]; apply (ZI z11) in E|destruct (SOME _ _ _ _ N01) as [E|[E|[E|E]]]; apply (ZI z01) in E]; tauto.
  - apply Rle_trans with (16 * kappa M off).
    + apply Rmult_le_compat_r; [assert (0 <= uround * (M * M)) by (apply Rmult_le_pos; [unfold uround; lra|nra]); lra|]. replace 16 with (INR 16) by (cbn; lra). apply le_INR. lia.
    + unfold kappa. assert (off * M <= M / 10 ^ 12 * M) by (apply Rmult_le_compat_r; lra). assert (uround * (M * M) <= / 10 ^ 15 * (M * M)) by (apply Rmult_le_compat_r; [nra|unfold uround; lra]). assert (0 <= M * M) by nra. lra.
  - split; [auto|]. apply Rle_trans with (1 := ER). assert (INR (length L) <= 16) by (replace 16 with (INR 16) by (cbn; lra); apply le_INR; lia).
    assert (0 <= kappa M off) by (assert (0 <= uround * (M * M)) by (apply Rmult_le_pos; [unfold uround; lra|nra]); lra).
    assert (INR (length L) * kappa M off <= 16 * kappa M off) by (apply Rmult_le_compat_r; lra). lra.
Qed.

(** ** Boxes, areas and weights *)
Lemma fbox_overlap : forall x0 x1 y0 y1 u0 u1 v0 v1, coord x0 -> coord x1 -> coord y0 -> coord y1 -> coord u0 -> coord u1 -> coord v0 -> coord v1 ->
  fval x0 < fval x1 -> fval y0 < fval y1 -> fval u0 < fval u1 -> fval v0 < fval v1 ->
  boxes_overlap (fbox x0 x1 y0 y1) (fbox u0 u1 v0 v1) =
    Rleb (Rmax (fval x0) (fval u0)) (Rmin (fval x1) (fval u1)) && Rleb (Rmax (fval y0) (fval v0)) (Rmin (fval y1) (fval v1)).
Proof.
  intros x0 x1 y0 y1 u0 u1 v0 v1 [] [] [] [] [] [] [] [] L1 L2 L3 L4. rewrite boxes_val by (unfold dblq, dblp, fbox; cbn [q0 q1 q2 q3 fst snd]; tauto).
  assert (MN : forall a b : R, smin a b = Rmin a b). { intros a b. unfold smin, Rmin. cbn [nlt NumR]. destruct (Rltb b a) eqn:E, (Rle_dec a b) as [D|D]; auto; rewrite ?Rltb_true, ?Rltb_false in E; lra. }
  assert (MX : forall a b : R, smax a b = Rmax a b). { intros a b. unfold smax, Rmax. cbn [nlt NumR]. destruct (Rltb a b) eqn:E, (Rle_dec a b) as [D|D]; auto; rewrite ?Rltb_true, ?Rltb_false in E; lra. }
  assert (A : forall a b : R, a < b -> Rmax a b = b /\ Rmax b a = b /\ Rmin a b = a /\ Rmin b a = a /\ Rmax a a = a /\ Rmax b b = b /\ Rmin a a = a /\ Rmin b b = b).
  { intros a b L. unfold Rmax, Rmin. repeat match goal with |- context [Rle_dec ?x ?y] => destruct (Rle_dec x y) end; repeat split; lra. }
  unfold boxes_overlap, qmin, qmax, valq, valp, fbox. cbn [q0 q1 q2 q3 fst snd]. rewrite !MN, !MX.
  destruct (A _ _ L1) as (e1 & e2 & e3 & e4 & e5 & e6 & e7 & e8). destruct (A _ _ L2) as (f1 & f2 & f3 & f4 & f5 & f6 & f7 & f8).
  destruct (A _ _ L3) as (g1 & g2 & g3 & g4 & g5 & g6 & g7 & g8). destruct (A _ _ L4) as (h1 & h2 & h3 & h4 & h5 & h6 & h7 & h8).
  repeat progress rewrite ?e1, ?e2, ?e3, ?e4, ?e5, ?e6, ?e7, ?e8, ?f1, ?f2, ?f3, ?f4, ?f5, ?f6, ?f7, ?f8, ?g1, ?g2, ?g3, ?g4, ?g5, ?g6, ?g7, ?g8, ?h1, ?h2, ?h3, ?h4, ?h5, ?h6, ?h7, ?h8.
  reflexivity.
Qed.

Lemma fbox_area : forall srt junk x0 x1 y0 y1, (forall lt l, Permutation (srt lt l) l) -> coord x0 -> coord x1 -> coord y0 -> coord y1 ->
  st <= fval x1 - fval x0 -> st <= fval y1 - fval y0 -> epsR + kappa M off < st * st ->
  dbl (hull_of srt junk (quad_nodes (fbox x0 x1 y0 y1))) /\
  Rabs (fval (hull_of srt junk (quad_nodes (fbox x0 x1 y0 y1))) - (fval x1 - fval x0) * (fval y1 - fval y0)) <= 2 * kappa M off.
Proof.
  intros srt junk x0 x1 y0 y1 SRT [D0 B0] [D1 B1] [D2 B2] [D3 B3] LX LY SEP.
  assert (OP := off_pos). assert (OM : 0 <= off * M) by (apply Rmult_le_pos; lra).
  assert (K0 : kappa M 0 <= kappa M off) by (unfold kappa; lra).
  assert (KP : 0 <= kappa M 0) by (unfold kappa; assert (0 <= uround * (M * M)) by (apply Rmult_le_pos; [unfold uround; lra|nra]); lra).
  destruct (corners_hull srt junk 0 (fval x0) (fval x1) (fval y0) (fval y1) (x0, y0) (x1, y0) (x1, y1) (x0, y1) (quad_nodes (fbox x0 x1 y0 y1)) (box (fval x0) (fval x1) (fval y0) (fval y1)) SRT) as [DB ER]; auto; try lra.
  - assert (ZR : forall a, Rabs (a - a) <= 0) by (intros; rewrite Rminus_eq_0, Rabs_R0; lra).
    intros p z I. cbn [In] in I. destruct I as [I|[I|[I|[I|[]]]]]; assert (EP := f_equal fst I); assert (EZ := f_equal snd I); cbn [fst snd] in EP, EZ; subst p z;
      (split; [split; auto|]); cbn [valp fst snd]; auto.
  - unfold quad_nodes, fbox, box. cbn [q0 q1 q2 q3]. repeat (apply Forall2_cons; [cbn [In]; auto|]). apply Forall2_nil.
  - change (INR (length (quad_nodes (fbox x0 x1 y0 y1)))) with (INR 4). replace (INR 4) with 4 by (cbn; lra). unfold kappa.
    assert (uround * (M * M) <= / 10 ^ 15 * (M * M)) by (apply Rmult_le_compat_r; [nra|unfold uround; lra]). assert (0 <= M * M) by nra. lra.
  - split; auto. change (INR (length (quad_nodes (fbox x0 x1 y0 y1)))) with (INR 4) in ER. replace (INR 4) with 4 in ER by (cbn; lra). lra.
Qed.

(** The quotient of two nearly exact areas. *)
Lemma quotient_near : forall h a r A, dbl h -> dbl a -> 0 <= r <= A -> A <= 4 * (M * M) -> 4 * kappa M off < A -> Rabs (fval h - r) <= 8 * kappa M off -> Rabs (fval a - A) <= 2 * kappa M off ->
  dbl (ndiv h a) /\ Rabs (fval (ndiv h a) - r / A) <= 21 * kappa M off / A.
Proof.
  intros h a r A Dh Da [R0 R1] AM AK Hh Ha. assert (OP := off_pos). assert (OK := off_st). assert (KP := kappa_pos M M_one off ltac:(lra)).
  set (k := kappa M off) in *. assert (MM : 1 <= M * M) by nra. assert (U := u_rng).
  assert (UM : uround * 1 <= uround * (M * M)) by (apply Rmult_le_compat_l; lra).
  assert (Kp : 0 < k) by (unfold uround in *; lra).
  apply Rabs_le_inv in Ha. assert (A2 : A / 2 <= fval a) by lra.
  assert (Q : Rabs (fval h / fval a - r / A) <= 20 * k / A).
  { replace (fval h / fval a - r / A) with ((fval h - r) / fval a + r / A * ((A - fval a) / fval a)) by (field; lra).
    assert (IA : / fval a <= 2 / A). { apply Rmult_le_reg_l with (fval a); [lra|]. rewrite Rinv_r by lra. apply Rmult_le_reg_r with A; [lra|]. replace (fval a * (2 / A) * A) with (2 * fval a) by (field; lra). lra. }
    assert (IP : 0 < / fval a) by (apply Rinv_0_lt_compat; lra).
    assert (RA : 0 <= r / A <= 1). { split; [apply Rmult_le_pos; [lra|left; apply Rinv_0_lt_compat; lra]|apply Rmult_le_reg_r with A; [lra|]; unfold Rdiv; rewrite Rmult_assoc, Rinv_l by lra; lra]. }
    assert (P1 : Rabs ((fval h - r) / fval a) <= 8 * k * (2 / A)). { unfold Rdiv at 1. rewrite Rabs_mult, (Rabs_pos_eq (/ fval a)) by lra. apply Rmult_le_compat; try lra; apply Rabs_pos. }
    assert (P2 : Rabs (r / A * ((A - fval a) / fval a)) <= 1 * (2 * k * (2 / A))).
    { rewrite Rabs_mult. apply Rmult_le_compat; try apply Rabs_pos; [rewrite Rabs_pos_eq; lra|]. unfold Rdiv at 1. rewrite Rabs_mult, (Rabs_pos_eq (/ fval a)) by lra. apply Rmult_le_compat; try lra; [apply Rabs_pos|apply Rabs_le; lra]. }
    apply Rle_trans with (1 := Rabs_triang _ _). apply Rle_trans with (1 := Rplus_le_compat _ _ _ _ P1 P2). right. field. lra. }
  assert (RA : 0 <= r / A <= 1). { split; [apply Rmult_le_pos; [lra|left; apply Rinv_0_lt_compat; lra]|apply Rmult_le_reg_r with A; [lra|]; unfold Rdiv; rewrite Rmult_assoc, Rinv_l by lra; lra]. }
  assert (KA : 25 * uround <= k / A). { apply Rmult_le_reg_r with A; [lra|]. replace (k / A * A) with k by (field; lra). assert (uround * A <= uround * (4 * (M * M))) by (apply Rmult_le_compat_l; lra). lra. }
  assert (KB : k / A <= / 4). { apply Rmult_le_reg_r with A; [lra|]. replace (k / A * A) with k by (field; lra). lra. }
  assert (Q' : Rabs (fval h / fval a) <= 6). { apply Rabs_le_inv in Q. apply Rabs_le. unfold Rdiv in *. lra. }
  destruct (f_div h a Dh Da) as [D V]; [lra|apply Rle_trans with 6; [auto|]; apply Rle_trans with (bpow radix2 3); [change (bpow radix2 3) with 8; lra|apply bpow_le; lia]|].
  split; auto. rewrite V. assert (E := rnd_error (fval h / fval a)). assert (T := tiny_u).
  assert (uround * Rabs (fval h / fval a) <= uround * 6) by (apply Rmult_le_compat_l; lra).
  apply Rabs_le_inv in E. apply Rabs_le_inv in Q. apply Rabs_le. unfold Rdiv in *. lra.
Qed.

(** One entry of the table. *)
Definition share (x0 x1 y0 y1 u0 u1 v0 v1 : R) : R := common x0 x1 u0 u1 * common y0 y1 v0 v1 / ((x1 - x0) * (y1 - y0)).

Theorem entry_near : forall srt memd mem c x0 x1 y0 y1 u0 u1 v0 v1 cell out, (forall lt l, Permutation (srt lt l) l) ->
  coord x0 -> coord x1 -> coord y0 -> coord y1 -> coord u0 -> coord u1 -> coord v0 -> coord v1 ->
  st <= fval x1 - fval x0 -> st <= fval y1 - fval y0 -> st <= fval u1 - fval u0 -> st <= fval v1 - fval v0 ->
  apart x0 u0 -> apart x0 u1 -> apart x1 u0 -> apart x1 u1 -> apart y0 v0 -> apart y0 v1 -> apart y1 v0 -> apart y1 v1 ->
  epsR + 4 * kappa M off < st * st -> cell c = fbox u0 u1 v0 v1 -> entry_rel srt g memd mem (fbox x0 x1 y0 y1) cell c out ->
  let s := share (fval x0) (fval x1) (fval y0) (fval y1) (fval u0) (fval u1) (fval v0) (fval v1) in
  (exists w, out = [(c, w)] /\ dbl w /\ Rabs (fval w - s) <= 21 * kappa M off / ((fval x1 - fval x0) * (fval y1 - fval y0))) \/ (out = [] /\ s = 0).
Proof.
  intros srt memd mem c x0 x1 y0 y1 u0 u1 v0 v1 cell out SRT Cx0 Cx1 Cy0 Cy1 Cu0 Cu1 Cv0 Cv1 LX LY LU LV A1 A2 A3 A4 B1 B2 B3 B4 SEP EC H s.
  assert (SP := st_pos). assert (EP := eps_pos). unfold entry_rel in H. rewrite EC in H. rewrite fbox_overlap in H by (auto; lra).
  assert (KP := kappa_pos M M_one off ltac:(assert (O1 := off_pos); assert (O2 := off_st); lra)).
  assert (KP' : 0 <= kappa M off) by (assert (0 <= uround * (M * M)) by (apply Rmult_le_pos; [unfold uround; lra|nra]); lra).
  destruct (Rleb (Rmax (fval x0) (fval u0)) (Rmin (fval x1) (fval u1)) && Rleb (Rmax (fval y0) (fval v0)) (Rmin (fval y1) (fval v1))) eqn:BO.
  - apply andb_true_iff in BO. destruct BO as [O1 O2]. apply Rleb_true in O1, O2. left.
    destruct H as (pts & HC & HO).
    assert (NE : forall a b, apart a b -> fval b <= fval a -> fval b < fval a). { intros a b P L. unfold apart in P. destruct (Req_dec (fval a) (fval b)) as [E|E]; [rewrite E, Rminus_eq_0, Rabs_R0 in P; lra|lra]. }
    assert (NE' : forall a b, apart a b -> fval a <= fval b -> fval a < fval b). { intros a b P L. unfold apart in P. destruct (Req_dec (fval a) (fval b)) as [E|E]; [rewrite E, Rminus_eq_0, Rabs_R0 in P; lra|lra]. }
    assert (M1 := Rmax_l (fval x0) (fval u0)). assert (M2 := Rmax_r (fval x0) (fval u0)). assert (M3 := Rmin_l (fval x1) (fval u1)). assert (M4 := Rmin_r (fval x1) (fval u1)).
    assert (M5 := Rmax_l (fval y0) (fval v0)). assert (M6 := Rmax_r (fval y0) (fval v0)). assert (M7 := Rmin_l (fval y1) (fval v1)). assert (M8 := Rmin_r (fval y1) (fval v1)).
    destruct (boxes_hull srt (mem c) x0 x1 y0 y1 u0 u1 v0 v1 pts SRT) as (L4 & DH & EH); auto; try lra; try (apply NE; auto; lra); try (apply NE'; auto; lra).
    destruct (fbox_area srt memd x0 x1 y0 y1 SRT) as (DA & EA); auto; try lra.
    rewrite (proj2 (Nat.leb_le 3 (length pts)) ltac:(lia)) in HO. exists (ndiv (hull_of srt (mem c) pts) (hull_of srt memd (quad_nodes (fbox x0 x1 y0 y1)))).
    split; [auto|]. unfold s, share, common. rewrite !(Rmax_right 0) by lra.
    set (lx := Rmin (fval x1) (fval u1) - Rmax (fval x0) (fval u0)) in *. set (ly := Rmin (fval y1) (fval v1) - Rmax (fval y0) (fval v0)) in *.
    assert (lx <= fval x1 - fval x0) by (unfold lx; lra). assert (ly <= fval y1 - fval y0) by (unfold ly; lra). assert (0 <= lx) by (unfold lx; lra). assert (0 <= ly) by (unfold ly; lra).
    assert (st * st <= (fval x1 - fval x0) * (fval y1 - fval y0)) by (apply Rmult_le_compat; lra).
    apply quotient_near; auto.
    + split; [apply Rmult_le_pos; auto|apply Rmult_le_compat; auto].
    + replace (4 * (M * M)) with (2 * M * (2 * M)) by ring. destruct Cx0 as [_ P0], Cx1 as [_ P1], Cy0 as [_ P2], Cy1 as [_ P3]. apply Rabs_le_inv in P0, P1, P2, P3. apply Rmult_le_compat; lra.
    + lra.
  - right. split; auto. unfold s, share, common.
    assert (Z : forall a b, Rleb a b = false -> Rmax 0 (b - a) = 0) by (intros a b E; apply Rleb_false in E; apply Rmax_left; lra).
    apply andb_false_iff in BO. destruct BO as [E|E]; rewrite (Z _ _ E); unfold Rdiv; ring.
Qed.

End Axis.

(** ** Rows *)
Definition vals (o : list (Z * spec_float)) : list (Z * R) := map (fun e => (fst e, fval (snd e))) o.

Lemma pieces_row : forall (E : Z -> list (Z * spec_float) -> Prop) sh err l o, 0 <= err -> pieces E l o ->
  (forall c y, In c l -> E c y -> (exists w, y = [(c, w)] /\ dbl w /\ Rabs (fval w - sh c) <= err) \/ (y = [] /\ sh c = 0)) -> NoDup l ->
  Forall (fun e => In (fst e) l /\ dbl (snd e) /\ Rabs (fval (snd e) - sh (fst e)) <= err) o /\ NoDup (map fst o) /\
  (forall k, In k l -> Rabs (weight_of (vals o) k - sh k) <= err) /\
  Rabs (total (map snd (vals o)) - rsum (map sh l)) <= INR (length o) * err /\
  (forall h, rsum (map (fun c => sh c * h c) l) = rsum (map (fun e => sh (fst e) * h (fst e)) o)).
Proof.
  intros E sh err l o EP P H ND. induction P as [|c l y o EC P IH].
  - split; [constructor|]. split; [constructor|]. split; [intros k []|]. cbn. rewrite Rminus_eq_0, Rabs_R0. split; [lra|auto].
  - apply NoDup_cons_iff in ND. destruct ND as [NI ND]. destruct (IH (fun c' y' I => H c' y' (or_intror I)) ND) as (F & N & W & T & HS). clear IH.
    assert (F' : Forall (fun e : Z * spec_float => In (fst e) (c :: l) /\ dbl (snd e) /\ Rabs (fval (snd e) - sh (fst e)) <= err) o).
    { eapply Forall_impl; [|exact F]. intros e (I & D & B). split; [right; auto|auto]. }
    assert (NK : ~ In c (map fst o)). { intros I. apply in_map_iff in I. destruct I as (e & <- & I). rewrite Forall_forall in F. apply NI. apply F. auto. }
    assert (W0 : forall o, ~ In c (map fst o) -> weight_of (vals o) c = 0).
    { clear. induction o as [|[k w] o IH]; intros N; cbn; auto. destruct (Z.eqb_spec c k) as [->|Q]; [exfalso; apply N; left; auto|apply IH; intros I; apply N; right; auto]. }
    destruct (H c y (or_introl eq_refl) EC) as [(w & -> & D & B)|[-> Z]].
    + cbn [app]. split; [constructor; auto; cbn [fst snd]; split; [left; auto|auto]|]. split; [cbn [map fst]; constructor; auto|]. split; [|split; [|intros h; cbn [map rsum fst]; rewrite HS; reflexivity]].
      * intros k I. cbn [vals map weight_of fst snd]. destruct (Z.eqb_spec k c) as [->|Q]; auto. destruct I as [<-|I]; [congruence|]. apply W. auto.
      * cbn [vals map total snd fst rsum length]. rewrite S_INR. fold (vals o). apply Rabs_le_inv in B, T. apply Rabs_le. lra.
    + cbn [app]. split; auto. split; auto. split; [|split; [|intros h; cbn [map rsum]; rewrite HS, Z; ring]].
      * intros k [<-|I]; [rewrite W0, Z, Rminus_eq_0, Rabs_R0; auto|apply W; auto].
      * cbn [map rsum]. rewrite Z, Rplus_0_l. auto.
Qed.

(** The sum of the products computed for one row. *)
Lemma weighted_near : forall err S sh (f : Z -> spec_float) o, 0 <= err <= 6 -> 1 <= S <= bpow radix2 800 -> INR (length o) <= bpow radix2 40 ->
  Forall (fun e => dbl (snd e) /\ Rabs (fval (snd e) - sh (fst e)) <= err /\ 0 <= sh (fst e) <= 1 /\ dbl (f (fst e)) /\ Rabs (fval (f (fst e))) <= S) o ->
  dbl (weighted n0 o f) /\ Rabs (fval (weighted n0 o f) - rsum (map (fun e => sh (fst e) * fval (f (fst e))) o)) <= INR (length o) * (err + 17 * INR (length o) * uround) * S.
Proof.
  intros err S sh f o EB SB NB F. set (N := INR (length o)) in *. assert (U := u_rng). assert (TU := tiny_u).
  assert (UN : uround * N <= / 1000). { apply Rle_trans with (uround * bpow radix2 40); [apply Rmult_le_compat_l; lra|]. unfold uround. change (bpow radix2 40) with 1099511627776. lra. }
  assert (UP : 0 <= uround * S) by (apply Rmult_le_pos; lra). assert (TS : etiny <= uround * S) by (assert (uround * 1 <= uround * S) by (apply Rmult_le_compat_l; lra); lra).
  assert (BIG : 9 * N * S + 9 * S <= bpow radix2 1000).
  { apply Rle_trans with (bpow radix2 44 * bpow radix2 800); [|rewrite <- bpow_plus; apply bpow_le; lia]. apply Rle_trans with (bpow radix2 44 * S); [|apply Rmult_le_compat_l; [apply bpow_ge_0|lra]].
    rewrite <- Rmult_plus_distr_r. apply Rmult_le_compat_r; [lra|]. change (bpow radix2 40) with 1099511627776 in NB. change (bpow radix2 44) with 17592186044416. lra. }
  assert (G : forall l acc k tr, Forall (fun e => dbl (snd e) /\ Rabs (fval (snd e) - sh (fst e)) <= err /\ 0 <= sh (fst e) <= 1 /\ dbl (f (fst e)) /\ Rabs (fval (f (fst e))) <= S) l ->
    0 <= k -> k + INR (length l) <= N -> dbl acc -> Rabs (fval acc) <= 9 * k * S -> Rabs (fval acc - tr) <= k * (err + 17 * N * uround) * S ->
    dbl (weighted acc l f) /\ Rabs (fval (weighted acc l f) - (tr + rsum (map (fun e => sh (fst e) * fval (f (fst e))) l))) <= (k + INR (length l)) * (err + 17 * N * uround) * S).
  { induction l as [|[c w] l IH]; intros acc k tr FL K0 KN DA BA EA.
    - cbn [weighted map rsum length]. split; auto. cbn [INR]. rewrite !Rplus_0_r. auto.
    - inversion FL as [|? ? HE FL']; subst. cbn [fst snd] in HE. destruct HE as (Dw & Ew & S01 & Df & Bf). cbn [weighted map rsum length fst snd]. cbn [length] in KN. rewrite S_INR in *.
      assert (LP := pos_INR (length l)).
      assert (Bw : Rabs (fval w) <= 7) by (apply Rabs_le_inv in Ew; apply Rabs_le; lra).
      assert (BP : Rabs (fval w * fval (f c)) <= 7 * S) by (rewrite Rabs_mult; apply Rmult_le_compat; auto; apply Rabs_pos).
      assert (KS : 0 <= k * S) by (apply Rmult_le_pos; lra). assert (KS' : k * S <= N * S) by (apply Rmult_le_compat_r; lra). assert (NS : 0 <= N * S) by (apply Rmult_le_pos; [unfold N; apply pos_INR|lra]).
      destruct (f_mul w (f c) Dw Df ltac:(lra)) as [Dp Vp].
      assert (Ep := rnd_error (fval w * fval (f c))). rewrite <- Vp in Ep.
      assert (Ep' : Rabs (fval (nmul w (f c)) - fval w * fval (f c)) <= 8 * (uround * S)).
      { assert (uround * Rabs (fval w * fval (f c)) <= uround * (7 * S)) by (apply Rmult_le_compat_l; lra). lra. }
      assert (US1 : uround * S <= / 1000 * S) by (apply Rmult_le_compat_r; unfold uround in *; lra).
      assert (Bp : Rabs (fval (nmul w (f c))) <= 8 * S) by (apply Rabs_le_inv in Ep', BP; apply Rabs_le; lra).
      assert (Bs : Rabs (fval acc + fval (nmul w (f c))) <= 9 * k * S + 8 * S) by (apply Rabs_le_inv in Bp, BA; apply Rabs_le; lra).
      destruct (f_add acc (nmul w (f c)) DA Dp ltac:(lra)) as [Ds Vs].
      assert (Es := rnd_error (fval acc + fval (nmul w (f c)))). rewrite <- Vs in Es.
      assert (KNu : (9 * k * S + 8 * S) * uround <= (9 * N + 8) * (uround * S)).
      { replace ((9 * k * S + 8 * S) * uround) with ((9 * k + 8) * (uround * S)) by ring. apply Rmult_le_compat_r; lra. }
      assert (Es' : Rabs (fval (nadd acc (nmul w (f c))) - (fval acc + fval (nmul w (f c)))) <= (9 * k * S + 8 * S) * uround + uround * S).
      { assert (uround * Rabs (fval acc + fval (nmul w (f c))) <= uround * (9 * k * S + 8 * S)) by (apply Rmult_le_compat_l; lra). lra. }
      assert (N1 : 1 <= N) by lra.
      assert (UNS : uround * N * S <= / 1000 * S) by (apply Rmult_le_compat_r; lra).
      assert (KU : (9 * k * S + 8 * S) * uround <= (9 * N - 1) * (uround * S)).
      { replace ((9 * k * S + 8 * S) * uround) with ((9 * k + 8) * (uround * S)) by ring. apply Rmult_le_compat_r; lra. }
      assert (EX : Rabs (fval w * fval (f c) - sh c * fval (f c)) <= err * S).
      { rewrite <- Rmult_minus_distr_r, Rabs_mult. apply Rmult_le_compat; auto; apply Rabs_pos. }
      assert (NU : 1 * (uround * S) <= N * (uround * S)) by (apply Rmult_le_compat_r; lra).
      destruct (IH (nadd acc (nmul w (f c))) (k + 1) (tr + sh c * fval (f c))) as [D E]; auto; try lra.
      + apply Rabs_le_inv in Es', Bs. apply Rabs_le. lra.
      + apply Rabs_le_inv in Es', Ep', EX, EA. apply Rabs_le. lra.
      + split; auto. replace (tr + (sh c * fval (f c) + rsum (map (fun e => sh (fst e) * fval (f (fst e))) l))) with (tr + sh c * fval (f c) + rsum (map (fun e => sh (fst e) * fval (f (fst e))) l)) by ring.
        replace (k + (INR (length l) + 1)) with (k + 1 + INR (length l)) by ring. auto. }
  destruct (G o n0 0 0 F) as [D E]; try lra.
  - fold N. lra.
  - split; reflexivity.
  - change (fval n0) with 0. rewrite Rabs_R0. lra.
  - change (fval n0) with 0. rewrite Rminus_eq_0, Rabs_R0. lra.
  - split; auto. rewrite !Rplus_0_l in E. fold N in E. auto.
Qed.

(** ** Sums over the cells of a rectilinear grid *)
Lemma range_app : forall a b, (0 <= a)%Z -> (0 <= b)%Z -> range (a + b) = range a ++ map (Z.add a) (range b).
Proof.
  intros a b Ha Hb. assert (E : exists n, b = Z.of_nat n) by (exists (Z.to_nat b); lia). destruct E as (n & ->). clear Hb. induction n as [|n IH].
  - cbn. rewrite Z.add_0_r, app_nil_r. reflexivity.
  - rewrite Nat2Z.inj_succ, <- Z.add_1_r, Z.add_assoc, !L_Grids.range_S, IH by lia. rewrite map_app, app_assoc. reflexivity.
Qed.

Lemma rsum_app : forall l m, rsum (l ++ m) = rsum l + rsum m.
Proof. induction l as [|x l IH]; intros m; cbn [app rsum]; [lra|]. rewrite IH. lra. Qed.

Lemma rsum_grid : forall (f h : Z -> R) n m, (0 <= n)%Z -> (0 < m)%Z ->
  rsum (map (fun c => f (c / m)%Z * h (c mod m)%Z) (range (n * m))) = rsum (map f (range n)) * rsum (map h (range m)).
Proof.
  intros f h n m Hn Hm. assert (E : exists k, n = Z.of_nat k) by (exists (Z.to_nat n); lia). destruct E as (k & ->). clear Hn. induction k as [|k IH].
  - change (Z.of_nat 0) with 0%Z. rewrite Z.mul_0_l. change (range 0) with (@nil Z). cbn [map rsum]. lra.
  - rewrite Nat2Z.inj_succ, <- Z.add_1_r, Z.mul_add_distr_r, Z.mul_1_l, range_app, L_Grids.range_S, !map_app, !rsum_app, IH by lia. cbn [map rsum]. rewrite map_map.
    rewrite (rsum_ext (fun x => f ((Z.of_nat k * m + x) / m)%Z * h ((Z.of_nat k * m + x) mod m)%Z) (fun x => f (Z.of_nat k) * h x)); [rewrite rsum_scale; ring|]. intros x I. apply in_range in I.
    replace ((Z.of_nat k * m + x) / m)%Z with (Z.of_nat k) by (apply (Z.div_unique_pos _ _ _ x); lia). replace ((Z.of_nat k * m + x) mod m)%Z with x by (apply (Z.mod_unique_pos _ _ (Z.of_nat k) x); lia). reflexivity.
Qed.

Lemma common_sum : forall (U : Z -> R) a b n, (0 <= n)%Z -> (forall k, (0 <= k < n)%Z -> U k <= U (k + 1)%Z) -> a <= b -> U 0%Z <= a -> b <= U n ->
  rsum (map (fun k => common a b (U k) (U (k + 1)%Z)) (range n)) = b - a.
Proof.
  intros U a b n Hn UP AB U0 UN. assert (E : exists k, n = Z.of_nat k) by (exists (Z.to_nat n); lia). destruct E as (k & ->). clear Hn.
  assert (G : rsum (map (fun k => common a b (U k) (U (k + 1)%Z)) (range (Z.of_nat k))) = Rmax 0 (Rmin b (U (Z.of_nat k)) - a)).
  { clear UN. induction k as [|k IH].
    - change (Z.of_nat 0) with 0%Z. change (range 0) with (@nil Z). cbn [map rsum]. unfold Rmax, Rmin. repeat destruct (Rle_dec _ _); lra.
    - rewrite Nat2Z.inj_succ, <- Z.add_1_r, L_Grids.range_S, map_app, rsum_app, IH by (try intros; try apply UP; lia). cbn [map rsum]. assert (Q := UP (Z.of_nat k) ltac:(lia)).
      unfold common, Rmax, Rmin. repeat destruct (Rle_dec _ _); lra. }
  rewrite G. unfold Rmax, Rmin. repeat destruct (Rle_dec _ _); lra.
Qed.

Lemma common_sym : forall a b c d, common a b c d = common c d a b.
Proof. intros. unfold common. rewrite (Rmin_comm b d), (Rmax_comm a c). reflexivity. Qed.
Lemma common_rng : forall a b c d, a <= b -> 0 <= common a b c d <= b - a.
Proof. intros. unfold common, Rmax, Rmin. repeat destruct (Rle_dec _ _); lra. Qed.

(** ** A solver that is accurate on such systems *)
Lemma quot_near : forall n d, d <> 0%Z -> Rabs (IZR n / IZR d) <= bpow radix2 700 ->
  dbl (quot n d) /\ Rabs (fval (quot n d) - IZR n / IZR d) <= 4 * uround * (1 + Rabs (IZR n / IZR d)).
Proof.
  intros n d Hd B. assert (NZ : IZR d <> 0) by (apply not_0_IZR; auto).
  assert (D : dbl (quot n d)).
  { set (q := ((n * 2 ^ 1200) / d)%Z).
    assert (Q : Rabs (IZR q * bpow radix2 (-1200)) <= bpow radix2 1000).
    { assert (ED : (n * 2 ^ 1200 = d * q + (n * 2 ^ 1200) mod d)%Z) by (apply Z.div_mod; auto).
      assert (RB : Rabs (IZR ((n * 2 ^ 1200) mod d)) <= Rabs (IZR d)).
      { rewrite <- !abs_IZR. apply IZR_le. assert (B1 := Z.mod_pos_bound (n * 2 ^ 1200) d). assert (B' := Z.mod_neg_bound (n * 2 ^ 1200) d). lia. }
      apply (f_equal IZR) in ED. rewrite plus_IZR, !mult_IZR in ED.
      assert (P12 : IZR (2 ^ 1200) = bpow radix2 1200) by (change (2 ^ 1200)%Z with (radix2 ^ 1200)%Z; apply (IZR_Zpower radix2 1200); lia). rewrite P12 in ED. clear P12.
      assert (BI : bpow radix2 1200 * bpow radix2 (-1200) = 1) by (rewrite <- bpow_plus; reflexivity).
      replace (IZR q * bpow radix2 (-1200)) with (IZR n / IZR d - IZR ((n * 2 ^ 1200) mod d) / IZR d * bpow radix2 (-1200)).
      - set (e := bpow radix2 (-1200)) in *. assert (E0 : 0 <= e) by apply bpow_ge_0. assert (E1 : e <= 1) by (change 1 with (bpow radix2 0); apply bpow_le; lia).
        assert (RQ : Rabs (IZR ((n * 2 ^ 1200) mod d) / IZR d) <= 1).
        { unfold Rdiv. rewrite Rabs_mult, Rabs_inv. apply Rmult_le_reg_r with (Rabs (IZR d)); [apply Rabs_pos_lt; auto|]. rewrite Rmult_assoc, Rinv_l by (apply Rabs_no_R0; auto). lra. }
        assert (RE : Rabs (IZR ((n * 2 ^ 1200) mod d) / IZR d * e) <= 1).
        { rewrite Rabs_mult, (Rabs_pos_eq e) by auto. replace 1 with (1 * 1) by ring. apply Rmult_le_compat; auto. apply Rabs_pos. }
        apply Rle_trans with (bpow radix2 700 + 1); [apply Rabs_le_inv in B, RE; apply Rabs_le; lra|].
        apply Rle_trans with (bpow radix2 701); [|apply bpow_le; lia]. replace 701%Z with (700 + 1)%Z by reflexivity. rewrite bpow_plus. change (bpow radix2 1) with 2.
        assert (1 <= bpow radix2 700) by (change 1 with (bpow radix2 0); apply bpow_le; lia). lra.
      - replace (IZR n) with (IZR n * (bpow radix2 1200 * bpow radix2 (-1200))) by (rewrite BI; ring). rewrite <- Rmult_assoc, ED. field. exact NZ. }
    unfold quot. fold q. rewrite normalize_equiv.
    assert (C := binary_normalize_correct fprec femax prec_pos prec_emax mode_NE q (-1200) false). cbv zeta in C.
    change (F2R (Float radix2 q (-1200))) with (IZR q * bpow radix2 (-1200)) in C. fold (rnd (IZR q * bpow radix2 (-1200))) in C.
    rewrite Rlt_bool_true in C by (apply max_exp; auto). destruct C as (_ & C2 & _). apply (B_dbl _ C2). }
  split; auto. assert (E := quot_val n d Hd D). assert (P := u_rng). set (x := IZR n / IZR d) in *. set (v := fval (quot n d)) in *.
  assert (A : Rabs v <= Rabs x + Rabs (v - x)). { replace v with (x + (v - x)) at 1 by ring. apply Rabs_triang. }
  assert (A0 := Rabs_pos x). assert (A1 := Rabs_pos (v - x)).
  assert (uround * Rabs v <= uround * (Rabs x + Rabs (v - x))) by (apply Rmult_le_compat_l; lra).
  assert (uround * Rabs (v - x) <= / 1000000 * Rabs (v - x)) by (apply Rmult_le_compat_r; lra). assert (0 <= uround * Rabs x) by (apply Rmult_le_pos; lra). lra.
Qed.

Theorem exact2_axis : axis2 (4 * uround) exact2.
Proof.
  intros a b z w r s lw Da Db Dz Dw Dr Ds Ez Ew [La Ha] [Lb Hb] Hr Hs good.
  assert (Ua := units_val _ Da). assert (Ub := units_val _ Db). assert (Uz := units_val _ Dz). assert (Uw := units_val _ Dw). assert (Ur := units_val _ Dr). assert (Us := units_val _ Ds).
  rewrite Ez, Rmult_0_l in Uz. rewrite Ew, Rmult_0_l in Uw. apply (eq_IZR (units z) 0) in Uz. apply (eq_IZR (units w) 0) in Uw.
  assert (W : 0 < bpow radix2 1074) by apply bpow_gt_0. set (k := bpow radix2 1074) in *.
  assert (P1 : 0 < bpow radix2 (-100)) by apply bpow_gt_0.
  assert (Na : fval a <> 0) by (intros E; rewrite E, Rabs_R0 in La; lra). assert (Nb : fval b <> 0) by (intros E; rewrite E, Rabs_R0 in Lb; lra).
  assert (Za : units a <> 0%Z) by (intros E; rewrite E in Ua; symmetry in Ua; apply Rmult_integral in Ua; destruct Ua; lra).
  assert (Zb : units b <> 0%Z) by (intros E; rewrite E in Ub; symmetry in Ub; apply Rmult_integral in Ub; destruct Ub; lra).
  assert (BIG : forall x y, bpow radix2 (-100) <= Rabs y -> Rabs x <= bpow radix2 500 -> Rabs (x / y) <= bpow radix2 700).
  { intros x y Ly Lx. assert (y <> 0) by (intros E; rewrite E, Rabs_R0 in Ly; lra). unfold Rdiv. rewrite Rabs_mult, Rabs_inv.
    apply Rmult_le_reg_r with (Rabs y); [apply Rabs_pos_lt; auto|]. rewrite Rmult_assoc, Rinv_l, Rmult_1_r by (apply Rabs_no_R0; auto).
    apply Rle_trans with (bpow radix2 700 * bpow radix2 (-100)); [rewrite <- bpow_plus; apply Rle_trans with (1 := Lx); apply bpow_le; lia|]. apply Rmult_le_compat_l; [apply bpow_ge_0|auto]. }
  assert (QT : forall n d x y, d <> 0%Z -> IZR n / IZR d = x / y -> bpow radix2 (-100) <= Rabs y -> Rabs x <= bpow radix2 500 ->
    dbl (quot n d) /\ Rabs (fval (quot n d) - x / y) <= 4 * uround * (1 + Rabs (x / y))).
  { intros n d x y Nd E Ly Lx. rewrite <- E. apply quot_near; auto. rewrite E. auto. }
  assert (Fa : (units a =? 0)%Z = false) by (apply Z.eqb_neq; auto). assert (Fb : (units b =? 0)%Z = false) by (apply Z.eqb_neq; auto).
  assert (Fab : (units a * units b =? 0)%Z = false) by (apply Z.eqb_neq; nia). assert (Fab' : (- (units a * units b) =? 0)%Z = false) by (apply Z.eqb_neq; nia).
  assert (Ia : IZR (units a) <> 0) by (apply not_0_IZR; auto). assert (Ib : IZR (units b) <> 0) by (apply not_0_IZR; auto).
  assert (I1 : IZR (units r) / IZR (units a) = fval r / fval a) by (rewrite Ur, Ua; field; split; lra).
  assert (I2 : IZR (units s) / IZR (units b) = fval s / fval b) by (rewrite Us, Ub; field; split; lra).
  split; [|split; [|split]]; unfold good, exact2; cbn [nth g_info g_rhs]; rewrite ?Uz, ?Uw, ?Fa, ?Fb; cbn [Z.eqb andb]; rewrite ?Z.mul_0_r, ?Z.mul_0_l, ?Z.sub_0_r, ?Z.sub_0_l.
  - rewrite Fab. split; auto.
    destruct (QT (units r * units b)%Z (units a * units b)%Z (fval r) (fval a) ltac:(nia) ltac:(rewrite !mult_IZR, <- I1; field; auto) La Hr) as [Q1 Q2].
    destruct (QT (units a * units s)%Z (units a * units b)%Z (fval s) (fval b) ltac:(nia) ltac:(rewrite !mult_IZR, <- I2; field; auto) Lb Hs) as [Q3 Q4].
    auto.
  - rewrite Fab'. split; auto.
    destruct (QT (- (units a * units s))%Z (- (units a * units b))%Z (fval s) (fval b) ltac:(nia) ltac:(rewrite !opp_IZR, !mult_IZR, <- I2; field; auto) Lb Hs) as [Q1 Q2].
    destruct (QT (- (units r * units b))%Z (- (units a * units b))%Z (fval r) (fval a) ltac:(nia) ltac:(rewrite !opp_IZR, !mult_IZR, <- I1; field; auto) La Hr) as [Q3 Q4].
    auto.
  - rewrite ?andb_false_r; cbn; lia.
  - rewrite ?andb_false_r; cbn; lia.
Qed.
