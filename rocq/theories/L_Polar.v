(** Angles in the sectors of a polar grid. *)
From Coq Require Import ZArith List Bool Reals Lra Lia.
From Verif Require Import Base Num NumR M_Quad S_Geometry S_Quad S_Flow S_Polar L_FlowGen.
Open Scope R_scope.

Lemma Int_part_eq : forall r z, IZR z <= r < IZR z + 1 -> Int_part r = z.
Proof.
  intros r z H. destruct (base_Int_part r) as [A B].
  assert (Int_part r < z + 1)%Z by (apply lt_IZR; rewrite plus_IZR; lra).
  assert (z < Int_part r + 1)%Z by (apply lt_IZR; rewrite plus_IZR; lra). lia.
Qed.

Section Sector.
Variable M : Z.
Hypothesis HM : (3 <= M)%Z.

Let a := sector_angle M.

Lemma M_pos : 3 <= IZR M.
Proof. apply IZR_le. auto. Qed.

Lemma a_bounds : 0 < a /\ a < PI /\ IZR M * a = 2 * PI.
Proof.
  assert (P := PI_RGT_0). assert (MP := M_pos).
  assert (E : IZR M * a = 2 * PI) by (unfold a, sector_angle; field; lra). split; [|split]; auto.
  - unfold a, sector_angle. apply Rmult_lt_0_compat; [lra|]. apply Rinv_0_lt_compat. lra.
  - nra.
Qed.

Lemma sin_a : 0 < sin a.
Proof. destruct a_bounds as (A & B & _). apply sin_gt_0; auto. Qed.

(** The point u e_j + v e_(j+1). *)
Definition spoke (j : Z) (u v : R) : point :=
  (u * cos (IZR j * a) + v * cos (IZR (j + 1) * a), u * sin (IZR j * a) + v * sin (IZR (j + 1) * a)).

Definition in_band (j n : Z) (th : R) : Prop := IZR j * a + 2 * PI * IZR n <= th <= IZR (j + 1) * a + 2 * PI * IZR n.

Lemma sin_turns : forall x n, sin (x + 2 * PI * IZR n) = sin x /\ cos (x + 2 * PI * IZR n) = cos x.
Proof.
  intros x n. destruct (Z_le_gt_dec 0 n).
  - replace n with (Z.of_nat (Z.to_nat n)) by lia. rewrite <- INR_IZR_INZ.
    replace (x + 2 * PI * INR (Z.to_nat n)) with (x + 2 * INR (Z.to_nat n) * PI) by ring. split; [apply sin_period|apply cos_period].
  - set (k := Z.to_nat (- n)). replace n with (- Z.of_nat k)%Z by lia. rewrite opp_IZR, <- INR_IZR_INZ.
    rewrite <- (sin_period (x + _) k), <- (cos_period (x + _) k). split; f_equal; ring.
Qed.

(** The angle of a point of the sector. *)
Lemma sector_band : forall j u v r th, 0 <= u -> 0 <= v -> 0 < r -> spoke j u v = (r * cos th, r * sin th) ->
  exists n, in_band j n th /\ polygon_turns M th = IZR n + (IZR j + v / (u + v)) / IZR M.
Proof.
  intros j u v r th Hu Hv Hr E. destruct a_bounds as (A & B & C). assert (P := PI_RGT_0). assert (SA := sin_a). assert (MP := M_pos).
  set (d := th - IZR j * a). injection E as EX EY.
  replace th with (IZR j * a + d) in EX, EY by (unfold d; ring).
  rewrite plus_IZR in EX, EY. rewrite Rmult_plus_distr_r, Rmult_1_l in EX, EY.
  rewrite cos_plus, (cos_plus _ d) in EX. rewrite sin_plus, (sin_plus _ d) in EY.
  set (c := cos (IZR j * a)) in *. set (s := sin (IZR j * a)) in *.
  assert (CS : c * c + s * s = 1) by (unfold c, s; assert (X := sin2_cos2 (IZR j * a)); unfold Rsqr in X; lra).
  assert (R1 : r * cos d = u + v * cos a).
  { replace (r * cos d) with ((c * c + s * s) * (r * cos d)) by (rewrite CS; ring).
    replace (u + v * cos a) with ((c * c + s * s) * (u + v * cos a)) by (rewrite CS; ring).
    transitivity (c * (r * (c * cos d - s * sin d)) + s * (r * (s * cos d + c * sin d))); [ring|]. rewrite <- EX, <- EY. ring. }
  assert (R2 : r * sin d = v * sin a).
  { replace (r * sin d) with ((c * c + s * s) * (r * sin d)) by (rewrite CS; ring).
    replace (v * sin a) with ((c * c + s * s) * (v * sin a)) by (rewrite CS; ring).
    transitivity (c * (r * (s * cos d + c * sin d)) - s * (r * (c * cos d - s * sin d))); [ring|]. rewrite <- EX, <- EY. ring. }
  assert (R3 : r * sin (a - d) = u * sin a).
  { rewrite sin_minus. replace (r * (sin a * cos d - cos a * sin d)) with (sin a * (r * cos d) - cos a * (r * sin d)) by ring. rewrite R1, R2. ring. }
  clear EX EY CS. clearbody c s.
  set (n := Int_part (d / (2 * PI))). set (d0 := d - 2 * PI * IZR n).
  assert (D0 : 0 <= d0 < 2 * PI).
  { destruct (base_Int_part (d / (2 * PI))) as [I1 I2]. fold n in I1, I2. unfold d0.
    replace d with (2 * PI * (d / (2 * PI))) at 1 2 by (field; lra). nra. }
  assert (Ed : d = d0 + 2 * PI * IZR n) by (unfold d0; ring).
  rewrite Ed in R1, R2, R3. destruct (sin_turns d0 n) as [S1 S2]. rewrite S1 in R2.
  replace (a - (d0 + 2 * PI * IZR n)) with ((a - d0) + 2 * PI * IZR (- n)) in R3 by (rewrite opp_IZR; ring).
  destruct (sin_turns (a - d0) (- n)) as [S3 _]. rewrite S3 in R3. clear S1 S3.
  assert (Q2 : 0 <= sin d0).
  { destruct (Rle_lt_dec 0 (sin d0)); auto. exfalso. assert (0 <= v * sin a) by (apply Rmult_le_pos; lra). nra. }
  assert (Q3 : 0 <= sin (a - d0)).
  { destruct (Rle_lt_dec 0 (sin (a - d0))); auto. exfalso. assert (0 <= u * sin a) by (apply Rmult_le_pos; lra). nra. }
  assert (DP : d0 <= PI).
  { destruct (Rle_lt_dec d0 PI); auto. exfalso. assert (sin d0 < 0) by (apply sin_lt_0; lra). lra. }
  assert (DA : d0 <= a).
  { destruct (Rle_lt_dec d0 a); auto. exfalso. assert (X : sin (a - d0) < 0) by (apply sin_lt_0_var; lra). lra. }
  assert (Eth : th = IZR j * a + d0 + 2 * PI * IZR n) by (unfold d in Ed; lra).
  exists n. split; [unfold in_band; rewrite plus_IZR; lra|].
  assert (UV : u + v <> 0).
  { intros Z. assert (U0 : u = 0) by lra. assert (V0 : v = 0) by lra. subst u v.
    assert (X : sin d0 = 0) by nra. assert (Y : sin (a - d0) = 0) by nra.
    assert (CC : cos d0 = 0) by (rewrite <- S2; nra).
    assert (T := sin2_cos2 d0). unfold Rsqr in T. rewrite X, CC in T. lra. }
  assert (SH : forall x y, r * x = v * sin a -> r * y = u * sin a -> x / (x + y) = v / (u + v)).
  { intros x y Hx Hy. assert (X : x = v * (sin a / r)) by (apply Rmult_eq_reg_l with r; [rewrite Hx; field; lra|lra]).
    assert (Y : y = u * (sin a / r)) by (apply Rmult_eq_reg_l with r; [rewrite Hy; field; lra|lra]). rewrite X, Y. field. repeat split; try lra.
    replace (v * sin a + u * sin a) with ((u + v) * sin a) by ring. apply Rmult_integral_contrapositive. split; lra. }
  unfold polygon_turns. fold a.
  assert (ES : th / a = IZR (j + n * M) + d0 / a).
  { rewrite Eth, plus_IZR, mult_IZR, <- C. field. lra. }
  destruct (Rle_lt_dec a d0) as [L|L].
  - assert (d0 = a) by lra. subst d0. assert (IP : Int_part (th / a) = (j + n * M + 1)%Z).
    { apply Int_part_eq. rewrite ES, H, !plus_IZR. unfold Rdiv. rewrite Rinv_r by lra. lra. }
    rewrite IP. assert (ED : th - IZR (j + n * M + 1) * a = 0) by (rewrite Eth, H, !plus_IZR, mult_IZR, <- C; ring).
    rewrite ED, sin_0, H in *. rewrite Rminus_diag_eq, sin_0 in R3 by reflexivity. 
    assert (u = 0) by nra. subst u. rewrite !plus_IZR, mult_IZR. replace (v / (0 + v)) with 1 by (field; lra). unfold Rdiv at 2. rewrite Rmult_0_l. field. lra.
  - assert (IP : Int_part (th / a) = (j + n * M)%Z).
    { apply Int_part_eq. rewrite ES. assert (0 <= d0 / a) by (apply Rmult_le_pos; [lra|left; apply Rinv_0_lt_compat; lra]).
      assert (d0 / a < 1); [|lra]. apply Rmult_lt_reg_r with a; auto. unfold Rdiv. rewrite Rmult_assoc, Rinv_l by lra. lra. }
    rewrite IP. assert (ED : th - IZR (j + n * M) * a = d0) by (rewrite Eth, !plus_IZR, mult_IZR, <- C; ring).
    rewrite ED, (SH _ _ R2 R3). rewrite plus_IZR, mult_IZR. field. split; lra.
Qed.

Lemma band_unique : forall j n n' th, in_band j n th -> in_band j n' th -> n = n'.
Proof.
  intros j n n' th [A1 A2] [B1 B2]. destruct a_bounds as (A & B & C). assert (P := PI_RGT_0). rewrite plus_IZR in *.
  assert (IZR n' - IZR n < 1) by nra. assert (IZR n - IZR n' < 1) by nra.
  rewrite <- minus_IZR in *. apply lt_IZR in H. apply lt_IZR in H0. lia.
Qed.

(** Turns are counted. *)
Lemma turns_period : forall th (w : Z), polygon_turns M (th + 2 * PI * IZR w) = polygon_turns M th + IZR w.
Proof.
  intros th w. destruct a_bounds as (A & B & C). assert (MP := M_pos). unfold polygon_turns. fold a.
  replace ((th + 2 * PI * IZR w) / a) with (th / a + IZR (w * M)) by (rewrite mult_IZR, <- C; field; lra).
  assert (IP : Int_part (th / a + IZR (w * M)) = (Int_part (th / a) + w * M)%Z).
  { apply Int_part_eq. destruct (base_Int_part (th / a)) as [I1 I2]. rewrite !plus_IZR. lra. }
  rewrite IP, plus_IZR, mult_IZR.
  replace (th + 2 * PI * IZR w - (IZR (Int_part (th / a)) + IZR w * IZR M) * a) with (th - IZR (Int_part (th / a)) * a) by (rewrite <- C; ring).
  field. split; [|lra].
  set (d := th - IZR (Int_part (th / a)) * a).
  assert (D : 0 <= d < a).
  { destruct (base_Int_part (th / a)) as [I1 I2]. unfold d. replace th with (th / a * a) at 1 3 by (field; lra). nra. }
  assert (0 <= sin d) by (apply sin_ge_0; lra). assert (0 < sin (a - d)) by (apply sin_gt_0; lra). lra.
Qed.

(** ** Along a segment *)
Variables (A B : point) (th : R -> R) (rho : R).
Hypotheses (RP : 0 < rho) (AL : angle_along rho A B th).

Definition meets (j : Z) (t : R) : Prop := 0 <= t <= 1 /\ exists u v, 0 <= u /\ 0 <= v /\ on_seg A B t = spoke j u v.

Lemma meets_convex : forall j t t' z, meets j t -> meets j t' -> t <= z <= t' -> meets j z.
Proof.
  intros j t t' z (Ht & u & v & Hu & Hv & E) (Ht' & u' & v' & Hu' & Hv' & E') Hz.
  split; [lra|]. destruct (Req_dec t t') as [ET|ET].
  - assert (z = t) by lra. subst z. exists u, v. auto.
  - set (w := (z - t) / (t' - t)).
    assert (W : 0 <= w <= 1).
    { assert (I : 0 < / (t' - t)) by (apply Rinv_0_lt_compat; lra). unfold w, Rdiv. split; [apply Rmult_le_pos; lra|].
      apply Rmult_le_reg_r with (t' - t); [lra|]. rewrite Rmult_assoc, Rinv_l by lra. lra. }
    assert (Ez : z = (1 - w) * t + w * t') by (unfold w; field; lra).
    exists ((1 - w) * u + w * u'), ((1 - w) * v + w * v').
    split; [nra|]. split; [nra|].
    transitivity ((1 - w) * fst (on_seg A B t) + w * fst (on_seg A B t'), (1 - w) * snd (on_seg A B t) + w * snd (on_seg A B t')).
    + rewrite Ez. unfold on_seg. cbn [fst snd]. f_equal; ring.
    + rewrite E, E'. unfold spoke. cbn [fst snd]. f_equal; ring.
Qed.

Lemma meets_band : forall j t, meets j t -> exists n, in_band j n (th t).
Proof.
  intros j t (Ht & u & v & Hu & Hv & E). destruct AL as [_ AP]. destruct (AP t Ht) as (r & Hr & Er).
  rewrite E in Er. destruct (sector_band j u v r (th t) Hu Hv ltac:(lra) Er) as (n & Bn & _). eauto.
Qed.

Lemma band_lt : forall j t t' n n', meets j t -> meets j t' -> in_band j n (th t) -> in_band j n' (th t') -> (n < n')%Z -> False.
Proof.
  intros j t t' n n' Mt Mt' Bn Bn' L. destruct a_bounds as (A1 & A2 & A3). assert (P := PI_RGT_0).
  set (c := IZR (j + 1) * a + 2 * PI * IZR n + (2 * PI - a) / 2).
  assert (LN : IZR n + 1 <= IZR n') by (rewrite <- plus_IZR; apply IZR_le; lia).
  unfold in_band in *. rewrite plus_IZR in *.
  assert (C1 : th t < c) by (unfold c; rewrite plus_IZR; lra).
  assert (C2 : c < th t').
  { unfold c. rewrite plus_IZR. assert (2 * PI * (IZR n + 1) <= 2 * PI * IZR n') by nra. lra. }
  assert (CF : continuity (fun x => th x - c)).
  { destruct AL as [CT _]. apply (continuity_minus th (fun _ => c)); auto. apply continuity_const. intros x y. reflexivity. }
  assert (Z : exists z, meets j z /\ th z = c).
  { destruct (Rle_lt_dec t t') as [LT|LT].
    - destruct (IVT_cor (fun x => th x - c) t t' CF LT ltac:(nra)) as (z & Hz & Ez). exists z. split; [apply (meets_convex j t t'); auto|lra].
    - destruct (IVT_cor (fun x => th x - c) t' t CF ltac:(lra) ltac:(nra)) as (z & Hz & Ez). exists z. split; [apply (meets_convex j t' t); auto|lra]. }
  destruct Z as (z & Mz & Ez). destruct (meets_band j z Mz) as (m & Bm). unfold in_band in Bm. rewrite Ez in Bm. unfold c in Bm. rewrite plus_IZR in Bm.
  assert (X1 : IZR m < IZR n + 1) by nra. assert (X2 : IZR n < IZR m) by nra.
  rewrite <- plus_IZR in X1. apply lt_IZR in X1. apply lt_IZR in X2. lia.
Qed.

(** In every sector the number of turns is the position in the sector plus a constant. *)
Lemma sector_turns : forall j, (exists t, meets j t) -> exists n : Z, forall t u v, 0 <= t <= 1 -> 0 <= u -> 0 <= v ->
  on_seg A B t = spoke j u v -> polygon_turns M (th t) = IZR n + (IZR j + v / (u + v)) / IZR M.
Proof.
  intros j (t0 & M0). destruct (meets_band j t0 M0) as (n & Bn). exists n. intros t u v Ht Hu Hv E.
  destruct AL as [CT AP]. destruct (AP t Ht) as (r & Hr & Er).
  assert (E' := E). rewrite E in Er. destruct (sector_band j u v r (th t) Hu Hv ltac:(lra) Er) as (n' & Bn' & EQ).
  assert (Mt : meets j t) by (split; auto; exists u, v; auto).
  enough (n' = n) by (subst; auto). destruct (Z.lt_trichotomy n n') as [L|[L|L]]; auto; exfalso.
  - apply (band_lt j t0 t n n'); auto.
  - apply (band_lt j t t0 n' n); auto.
Qed.

End Sector.
