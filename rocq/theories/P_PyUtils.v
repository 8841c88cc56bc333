(** C70, C71, C72, C74, C75: velocities and basis functions computed by the Python scripts (exact arithmetic). *)
From Coq Require Import ZArith List Bool Reals Lra Lia.
From Verif Require Import Base Num NumR M_Grids TrigR M_PyUtils L_PyUtils.
Import ListNotations.
Open Scope R_scope.

(** ** Specification *)
(** Flux of the uniform flow (u, v) across the segment from (px, py) to (qx, qy), and its stream function. *)
Definition across (u v px py qx qy : R) : R := u * (qy - py) - v * (qx - px).
Definition stream (u v px py : R) : R := v * px - u * py.
(** Components of the lines that join the midpoints of opposite edges of cell (i, j). *)
Definition along0 (c : Z -> Z -> R) (i j : Z) : R := ((c (i + 1)%Z j + c (i + 1)%Z (j + 1)%Z) - (c i j + c i (j + 1)%Z)) / 2.
Definition along1 (c : Z -> Z -> R) (i j : Z) : R := ((c i (j + 1)%Z + c (i + 1)%Z (j + 1)%Z) - (c i j + c (i + 1)%Z j)) / 2.
Definition has_midlines (x y : Z -> Z -> R) i j : Prop :=
  (along0 x i j <> 0 \/ along0 y i j <> 0) /\ (along1 x i j <> 0 \/ along1 y i j <> 0).
Definition perpendicular (x y : Z -> Z -> R) i j : Prop := along0 x i j * along1 x i j + along0 y i j * along1 y i j = 0.
(** Fluxes of a uniform flow across the edges of a grid. *)
Definition ufx0 u v (x y : Z -> Z -> R) (i j : Z) : R := across u v (x i j) (y i j) (x (i + 1)%Z j) (y (i + 1)%Z j).
Definition ufx1 u v (x y : Z -> Z -> R) (i j : Z) : R := across u v (x i j) (y i j) (x i (j + 1)%Z) (y i (j + 1)%Z).
(** The file shows the velocity (u, v) in cell (i, j). *)
Definition shown (r : option (arr R) * option (arr R)) (i j : Z) (u v : R) : Prop :=
  exists VX VY, r = (Some VX, Some VY) /\ a_at VX i j = u /\ a_at VY i j = v.
Definition flow_on (m0 m1 : Z) (x y f0 f1 : Z -> Z -> R) :=
  flow_velocity (mkArr m0 m1 x) (mkArr m0 m1 y) (mkArr (m0 - 1) m1 f0) (mkArr m0 (m1 - 1) f1).
Definition stream_on (m0 m1 : Z) (x y psi : Z -> Z -> R) :=
  stream_velocity (mkArr m0 m1 x) (mkArr m0 m1 y) (mkArr m0 m1 psi).

Lemma shown_fun : forall r i j u v u' v', shown r i j u v -> shown r i j u' v' -> u = u' /\ v = v'.
Proof.
  intros r i j u v u' v' (A & B & -> & <- & <-) (A' & B' & E & <- & <-). injection E as <- <-. now split.
Qed.

(** ** Elements of the arrays *)
Lemma has_shown : forall r m0 m1 f g i j, has (fst r) m0 m1 f -> has (snd r) m0 m1 g -> (0 <= i < m0)%Z -> (0 <= j < m1)%Z ->
  shown r i j (f i j) (g i j).
Proof.
  intros [a b] m0 m1 f g i j H G Hi Hj. cbn [fst snd] in *.
  destruct (has_at _ _ _ _ _ _ H Hi Hj) as (A & -> & EA). destruct (has_at _ _ _ _ _ _ G Hi Hj) as (B & -> & EB).
  exists A, B. auto.
Qed.

Definition mid0 (f : Z -> Z -> R) (i j : Z) : R := (f i j + f i (j + 1)%Z) / 2.
Definition mid1 (f : Z -> Z -> R) (i j : Z) : R := (f i j + f (i + 1)%Z j) / 2.

Lemma mk_suc0 : forall m0 m1 (f : Z -> Z -> R), holds (mkArr m0 m1 f) (m0 - 1 + 1) m1 f.
Proof. intros. replace (m0 - 1 + 1)%Z with m0 by lia. apply holds_mk. Qed.
Lemma mk_suc1 : forall m0 m1 (f : Z -> Z -> R), holds (mkArr m0 m1 f) m0 (m1 - 1 + 1) f.
Proof. intros. replace (m1 - 1 + 1)%Z with m1 by lia. apply holds_mk. Qed.
Lemma mk_suc : forall m0 m1 (f : Z -> Z -> R), holds (mkArr m0 m1 f) (m0 - 1 + 1) (m1 - 1 + 1) f.
Proof. intros. replace (m1 - 1 + 1)%Z with m1 by lia. apply mk_suc0. Qed.


(** One term of the velocity: flux / length * component / length. *)
Definition term (F ax ay c : R) : R := F / sqrt (ax * ax + ay * ay) * (c / sqrt (ax * ax + ay * ay)).
Lemma term_eq : forall F ax ay c, 0 < ax * ax + ay * ay -> term F ax ay c = F * c / (ax * ax + ay * ay).
Proof.
  intros F ax ay c H. unfold term. pose proof (sqrt_lt_R0 _ H) as S. pose proof (sqrt_sqrt (ax * ax + ay * ay) (Rlt_le _ _ H)) as E.
  rewrite <- E at 3. field. lra.
Qed.

Lemma flow_has : forall m0 m1 x y f0 f1, (1 <= m0)%Z -> (1 <= m1)%Z ->
  has (fst (flow_on m0 m1 x y f0 f1)) (m0 - 1) (m1 - 1) (fun i j =>
    term (mid0 f0 i j) (along0 x i j) (along0 y i j) (along0 y i j) + term (mid1 f1 i j) (along1 x i j) (along1 y i j) (along1 y i j)) /\
  has (snd (flow_on m0 m1 x y f0 f1)) (m0 - 1) (m1 - 1) (fun i j =>
    term (mid0 f0 i j) (along0 x i j) (along0 y i j) (- along0 x i j) + term (mid1 f1 i j) (along1 x i j) (along1 y i j) (- along1 x i j)).
Proof.
  intros m0 m1 x y f0 f1 L0 L1.
  assert (P0 : (0 <= m0 - 1)%Z) by lia. assert (P1 : (0 <= m1 - 1)%Z) by lia.
  assert (SX := mk_suc m0 m1 x). assert (SY := mk_suc m0 m1 y). assert (S0 := mk_suc1 (m0 - 1) m1 f0). assert (S1 := mk_suc0 m0 (m1 - 1) f1).
  unfold flow_on, flow_velocity. cbv zeta. cbn [fst snd].
  set (flux0 := mkArr (m0 - 1) m1 f0) in *. set (flux1 := mkArr m0 (m1 - 1) f1) in *.
  set (xx := mkArr m0 m1 x) in *. set (yy := mkArr m0 m1 y) in *.
  assert (A0 : forall A f, holds A (m0 - 1 + 1) (m1 - 1 + 1) f ->
     has (bop nsub (avg (hi0 (lo1 A)) (hi0 (hi1 A))) (avg (lo0 (lo1 A)) (lo0 (hi1 A)))) (m0 - 1) (m1 - 1) (along0 f)).
  { intros A f H. eapply has_ext.
    - apply bop_has; apply avg_has; first [apply hi0_holds|apply lo0_holds]; try assumption; first [apply hi1_holds|apply lo1_holds]; eassumption.
    - intros i j _ _. cbn -[Rplus Rdiv]. unfold along0. lra. }
  assert (A1 : forall A f, holds A (m0 - 1 + 1) (m1 - 1 + 1) f ->
     has (bop nsub (avg (lo0 (hi1 A)) (hi0 (hi1 A))) (avg (lo0 (lo1 A)) (hi0 (lo1 A)))) (m0 - 1) (m1 - 1) (along1 f)).
  { intros A f H. eapply has_ext.
    - apply bop_has; apply avg_has; first [apply hi0_holds|apply lo0_holds]; try assumption; first [apply hi1_holds|apply lo1_holds]; eassumption.
    - intros i j _ _. cbn -[Rplus Rdiv]. unfold along1. lra. }
  assert (X0 := A0 xx x SX). assert (Y0 := A0 yy y SY). assert (X1 := A1 xx x SX). assert (Y1 := A1 yy y SY). clear A0 A1.
  set (dx0 := bop nsub (avg (hi0 (lo1 xx)) (hi0 (hi1 xx))) _) in *. set (dy0 := bop nsub (avg (hi0 (lo1 yy)) (hi0 (hi1 yy))) _) in *.
  set (dx1 := bop nsub (avg (lo0 (hi1 xx)) (hi0 (hi1 xx))) _) in *. set (dy1 := bop nsub (avg (lo0 (hi1 yy)) (hi0 (hi1 yy))) _) in *.
  assert (B0 : has (avg (lo1 flux0) (hi1 flux0)) (m0 - 1) (m1 - 1) (mid0 f0)).
  { eapply has_ext; [apply avg_has; [apply lo1_holds|apply hi1_holds]; eassumption|]. intros i j _ _. reflexivity. }
  assert (B1 : has (avg (lo0 flux1) (hi0 flux1)) (m0 - 1) (m1 - 1) (mid1 f1)).
  { eapply has_ext; [apply avg_has; [apply lo0_holds|apply hi0_holds]; eassumption|]. intros i j _ _. reflexivity. }
  assert (N0 : has (umap nsqrt (bop nadd (bop nmul dx0 dx0) (bop nmul dy0 dy0))) (m0 - 1) (m1 - 1)
    (fun i j => sqrt (along0 x i j * along0 x i j + along0 y i j * along0 y i j))).
  { apply (umap_has sqrt). apply (bop_has Rplus); apply (bop_has Rmult); assumption. }
  assert (N1 : has (umap nsqrt (bop nadd (bop nmul dx1 dx1) (bop nmul dy1 dy1))) (m0 - 1) (m1 - 1)
    (fun i j => sqrt (along1 x i j * along1 x i j + along1 y i j * along1 y i j))).
  { apply (umap_has sqrt). apply (bop_has Rplus); apply (bop_has Rmult); assumption. }
  unfold term. split.
  - apply (bop_has Rplus); apply (bop_has Rmult); apply (bop_has Rdiv); assumption.
  - apply (bop_has Rplus); apply (bop_has Rmult); apply (bop_has Rdiv); try assumption; apply (umap_has Ropp); assumption.
Qed.

Lemma flow_shown : forall m0 m1 x y f0 f1 i j, (0 <= i < m0 - 1)%Z -> (0 <= j < m1 - 1)%Z -> has_midlines x y i j ->
  let ax := along0 x i j in let ay := along0 y i j in let bx := along1 x i j in let bY := along1 y i j in
  let F0 := mid0 f0 i j in let F1 := mid1 f1 i j in
  shown (flow_on m0 m1 x y f0 f1) i j
    (F0 * ay / (ax * ax + ay * ay) + F1 * bY / (bx * bx + bY * bY)) (F0 * - ax / (ax * ax + ay * ay) + F1 * - bx / (bx * bx + bY * bY)).
Proof.
  intros m0 m1 x y f0 f1 i j Hi Hj [NA NB]. cbv zeta.
  destruct (flow_has m0 m1 x y f0 f1 ltac:(lia) ltac:(lia)) as [H G].
  rewrite <- !term_eq by (destruct NA, NB; nra). apply (has_shown _ _ _ _ _ i j H G Hi Hj).
Qed.

(** ** C70: flow_velocity *)
(** The velocity carries the mean fluxes of opposite edges across the lines that join the midpoints. *)
Theorem C70_carries_partial : forall m0 m1 x y i j, (0 <= i < m0 - 1)%Z -> (0 <= j < m1 - 1)%Z -> has_midlines x y i j ->
  (perpendicular x y i j <->
   forall f0 f1, exists u v, shown (flow_on m0 m1 x y f0 f1) i j u v /\
     u * along0 y i j - v * along0 x i j = (f0 i j + f0 i (j + 1)%Z) / 2 /\
     u * along1 y i j - v * along1 x i j = (f1 i j + f1 (i + 1)%Z j) / 2).
Proof.
  intros m0 m1 x y i j Hi Hj M. assert (S := fun f0 f1 => flow_shown m0 m1 x y f0 f1 i j Hi Hj M). cbv zeta in S.
  destruct M as [NA NB]. unfold perpendicular.
  set (ax := along0 x i j) in *. set (ay := along0 y i j) in *. set (bx := along1 x i j) in *. set (bY := along1 y i j) in *.
  assert (QA : 0 < ax * ax + ay * ay) by (destruct NA; nra). assert (QB : 0 < bx * bx + bY * bY) by (destruct NB; nra).
  split.
  - intros P f0 f1. do 2 eexists. split; [apply S|]. fold (mid0 f0 i j) (mid1 f1 i j).
    assert (P' : ay * bY + ax * bx = 0) by lra.
    split.
    + transitivity (mid0 f0 i j + mid1 f1 i j * (ay * bY + ax * bx) / (bx * bx + bY * bY)); [field; lra|]. rewrite P'. lra.
    + transitivity (mid1 f1 i j + mid0 f0 i j * (ay * bY + ax * bx) / (ax * ax + ay * ay)); [field; lra|]. rewrite P'. lra.
  - intros H. destruct (H (fun _ _ => 1) (fun _ _ => 0)) as (u & v & Sh & _ & E1).
    destruct (shown_fun _ _ _ _ _ _ _ Sh (S _ _)) as [Eu Ev]. unfold mid0, mid1 in Eu, Ev.
    assert (Z0 : (ax * bx + ay * bY) / (ax * ax + ay * ay) = 0).
    { rewrite Eu, Ev in E1. transitivity ((0 + 0) / 2); [|lra]. rewrite <- E1. field. lra. }
    apply Rmult_integral in Z0. destruct Z0 as [Z0|Z0]; [lra|]. exfalso. apply Rinv_neq_0_compat in Z0; lra.
Qed.
Print Assumptions C70_carries_partial.

Lemma mid0_uniform : forall u v x y i j, mid0 (ufx0 u v x y) i j = u * along0 y i j - v * along0 x i j.
Proof. intros. unfold mid0, ufx0, across, along0. lra. Qed.
Lemma mid1_uniform : forall u v x y i j, mid1 (ufx1 u v x y) i j = u * along1 y i j - v * along1 x i j.
Proof. intros. unfold mid1, ufx1, across, along1. lra. Qed.

(** A uniform flow is shown exactly when the two lines are perpendicular, and only then. *)
Theorem C70_uniform_partial : forall m0 m1 x y i j, (0 <= i < m0 - 1)%Z -> (0 <= j < m1 - 1)%Z -> has_midlines x y i j ->
  (perpendicular x y i j <-> forall u v, shown (flow_on m0 m1 x y (ufx0 u v x y) (ufx1 u v x y)) i j u v).
Proof.
  intros m0 m1 x y i j Hi Hj M. assert (S := fun f0 f1 => flow_shown m0 m1 x y f0 f1 i j Hi Hj M). cbv zeta in S.
  pose proof (C70_carries_partial m0 m1 x y i j Hi Hj M) as CP.
  destruct M as [NA NB]. unfold perpendicular in *.
  assert (M0 := fun u v => mid0_uniform u v x y i j). assert (M1 := fun u v => mid1_uniform u v x y i j).
  set (ax := along0 x i j) in *. set (ay := along0 y i j) in *. set (bx := along1 x i j) in *. set (bY := along1 y i j) in *.
  assert (QA : 0 < ax * ax + ay * ay) by (destruct NA; nra). assert (QB : 0 < bx * bx + bY * bY) by (destruct NB; nra).
  split.
  - intros P u v. destruct (proj1 CP P (ufx0 u v x y) (ufx1 u v x y)) as (u' & v' & Sh & E0 & E1).
    fold (mid0 (ufx0 u v x y) i j) in E0. fold (mid1 (ufx1 u v x y) i j) in E1. rewrite M0 in E0. rewrite M1 in E1.
    (* u' - u and v' - v are along a and along b *)
    assert (D : (ax * bY - ay * bx) * (ax * bY - ay * bx) <> 0).
    { assert (I : (ax * bY - ay * bx) * (ax * bY - ay * bx) = (ax * ax + ay * ay) * (bx * bx + bY * bY) - (ax * bx + ay * bY) * (ax * bx + ay * bY)) by ring.
      rewrite I, P. pose proof (Rmult_lt_0_compat _ _ QA QB). lra. }
    assert (D' : ax * bY - ay * bx <> 0) by (intros Z0; rewrite Z0 in D; lra).
    assert (U : (u' - u) * (ax * bY - ay * bx) = 0).
    { transitivity (ax * (u' * bY - v' * bx - (u * bY - v * bx)) - bx * (u' * ay - v' * ax - (u * ay - v * ax))); [ring|]. rewrite E0, E1. ring. }
    assert (V : (v' - v) * (ax * bY - ay * bx) = 0).
    { transitivity (ay * (u' * bY - v' * bx - (u * bY - v * bx)) - bY * (u' * ay - v' * ax - (u * ay - v * ax))); [ring|]. rewrite E0, E1. ring. }
    apply Rmult_integral in U. apply Rmult_integral in V. destruct U as [U|U]; [|lra]. destruct V as [V|V]; [|lra].
    replace u with u' at 3 by lra. replace v with v' at 3 by lra. exact Sh.
  - intros H. specialize (H ay (- ax)). destruct (shown_fun _ _ _ _ _ _ _ H (S _ _)) as [Eu Ev]. rewrite M0, M1 in Eu, Ev.
    set (q := ay * bY - - ax * bx) in *. set (L := bx * bx + bY * bY) in *.
    assert (Ea : (ay * ay - - ax * ax) / (ax * ax + ay * ay) = 1) by (field; lra).
    assert (U : q * bY / L = 0).
    { assert (X : (ay * ay - - ax * ax) * ay / (ax * ax + ay * ay) = ay).
      { transitivity ((ay * ay - - ax * ax) / (ax * ax + ay * ay) * ay); [unfold Rdiv; ring|]. rewrite Ea. ring. } lra. }
    assert (V : q * - bx / L = 0).
    { assert (X : (ay * ay - - ax * ax) * - ax / (ax * ax + ay * ay) = - ax).
      { transitivity ((ay * ay - - ax * ax) / (ax * ax + ay * ay) * - ax); [unfold Rdiv; ring|]. rewrite Ea. ring. } lra. }
    assert (IL : / L <> 0) by (apply Rinv_neq_0_compat; lra).
    unfold Rdiv in U, V. apply Rmult_integral in U. apply Rmult_integral in V.
    destruct U as [U|U]; [|contradiction]. destruct V as [V|V]; [|contradiction].
    apply Rmult_integral in U. apply Rmult_integral in V. unfold q in *. destruct U as [U|U]; [lra|]. destruct V as [V|V]; [lra|].
    destruct NB as [NB|NB]; lra.
Qed.
Print Assumptions C70_uniform_partial.

(** Grids of the scripts: uniform flows are shown as they are. *)
Definition flow_of (xy : arr R * arr R) (f0 f1 : Z -> Z -> R) :=
  flow_velocity (fst xy) (snd xy) (mkArr (a_n0 (fst xy) - 1) (a_n1 (fst xy)) f0) (mkArr (a_n0 (fst xy)) (a_n1 (fst xy) - 1) f1).
Definition stream_of (xy : arr R * arr R) (psi : Z -> Z -> R) :=
  stream_velocity (fst xy) (snd xy) (mkArr (a_n0 (fst xy)) (a_n1 (fst xy)) psi).

Lemma rect_x : forall m0 m1 x0 y0 x1 y1 i j, (2 <= m0)%Z -> (0 <= i < m0)%Z ->
  a_at (fst (createRectilinearGrid m0 m1 x0 y0 x1 y1)) i j = x0 + IZR i * ((x1 - x0) / IZR (m0 - 1)).
Proof. intros. cbn -[linspace]. rewrite linspace_R by lia. lra. Qed.
Lemma rect_y : forall m0 m1 x0 y0 x1 y1 i j, (2 <= m1)%Z -> (0 <= j < m1)%Z ->
  a_at (snd (createRectilinearGrid m0 m1 x0 y0 x1 y1)) i j = y0 + IZR j * ((y1 - y0) / IZR (m1 - 1)).
Proof. intros. cbn -[linspace]. rewrite linspace_R by lia. lra. Qed.

Lemma step_nonzero : forall a b n, (2 <= n)%Z -> a <> b -> (b - a) / IZR (n - 1) <> 0.
Proof.
  intros a b n Hn H. apply Rmult_integral_contrapositive_currified; [lra|]. apply Rinv_neq_0_compat. apply not_0_IZR. lia.
Qed.

Lemma rect_cell : forall m0 m1 x0 y0 x1 y1 i j, (2 <= m0)%Z -> (2 <= m1)%Z -> (0 <= i < m0 - 1)%Z -> (0 <= j < m1 - 1)%Z ->
  let xy := createRectilinearGrid m0 m1 x0 y0 x1 y1 in
  along0 (a_at (fst xy)) i j = (x1 - x0) / IZR (m0 - 1) /\ along0 (a_at (snd xy)) i j = 0 /\
  along1 (a_at (fst xy)) i j = 0 /\ along1 (a_at (snd xy)) i j = (y1 - y0) / IZR (m1 - 1).
Proof.
  intros m0 m1 x0 y0 x1 y1 i j H0 H1 Hi Hj xy. unfold along0, along1, xy. rewrite !rect_x, !rect_y by lia.
  rewrite !plus_IZR. split; [lra|]. split; [lra|]. split; lra.
Qed.

Lemma polar_x : forall m0 m1 r e i j, (2 <= m0)%Z -> (2 <= m1)%Z -> (0 <= i < m0)%Z -> (0 <= j < m1)%Z ->
  a_at (fst (createPolarGrid m0 m1 r e)) i j = (e + IZR i * ((r - e) / IZR (m0 - 1))) * cos (IZR j * (2 * PI / IZR (m1 - 1))) /\
  a_at (snd (createPolarGrid m0 m1 r e)) i j = (e + IZR i * ((r - e) / IZR (m0 - 1))) * sin (IZR j * (2 * PI / IZR (m1 - 1))).
Proof.
  intros. cbn -[linspace PI IZR]. rewrite !linspace_R by lia. change (@n0 R NumR) with 0. change (@n1 R NumR) with 1.
  rewrite Rmult_1_r, Rmult_1_l, Rplus_0_l, Rminus_0_r. split; reflexivity.
Qed.

Lemma polar_cell : forall m0 m1 r e i j, (2 <= m0)%Z -> (4 <= m1)%Z -> 0 <= e < r -> (0 <= i < m0 - 1)%Z -> (0 <= j < m1 - 1)%Z ->
  let xy := createPolarGrid m0 m1 r e in
  has_midlines (a_at (fst xy)) (a_at (snd xy)) i j /\ perpendicular (a_at (fst xy)) (a_at (snd xy)) i j.
Proof.
  intros m0 m1 r e i j H0 H1 He Hi Hj xy.
  assert (P0 : 0 < IZR (m0 - 1)) by (apply IZR_lt; lia). assert (P1 : 3 <= IZR (m1 - 1)) by (apply IZR_le; lia).
  assert (NI : 0 <= IZR i) by (apply IZR_le; lia).
  pose proof PI_RGT_0 as PI0.
  set (h := (r - e) / IZR (m0 - 1)). set (d := 2 * PI / IZR (m1 - 1)).
  assert (Hh : 0 < h) by (apply Rdiv_lt_0_compat; lra).
  assert (Hd : 0 < d < PI).
  { split; [apply Rdiv_lt_0_compat; lra|]. apply Rmult_lt_reg_r with (IZR (m1 - 1)); [lra|]. unfold d. field_simplify; [nra|lra]. }
  set (p := e + IZR i * h). assert (Hp : 0 <= p) by (unfold p; pose proof (Rmult_le_pos _ _ NI (Rlt_le _ _ Hh)); lra).
  destruct (polar_x m0 m1 r e i j) as [Xa Ya]; try lia. destruct (polar_x m0 m1 r e (i + 1) j) as [Xb Yb]; try lia.
  destruct (polar_x m0 m1 r e (i + 1) (j + 1)) as [Xc Yc]; try lia. destruct (polar_x m0 m1 r e i (j + 1)) as [Xd Yd]; try lia.
  fold xy h d in Xa, Ya, Xb, Yb, Xc, Yc, Xd, Yd.
  replace (e + IZR (i + 1) * h) with (p + h) in Xb, Yb, Xc, Yc by (rewrite plus_IZR; unfold p; ring).
  fold p in Xa, Ya, Xd, Yd. replace (IZR (j + 1) * d) with (IZR j * d + d) in Xc, Yc, Xd, Yd by (rewrite plus_IZR; ring).
  set (t := IZR j * d) in *.
  pose proof (cos_plus t d) as CP. pose proof (sin_plus t d) as SP. pose proof (sin2_cos2 t) as T1. unfold Rsqr in T1.
  pose proof (sin2_cos2 (t + d)) as T2. unfold Rsqr in T2. pose proof (sin2_cos2 d) as T3. unfold Rsqr in T3.
  assert (CD : -1 < cos d < 1).
  { split; [rewrite <- cos_PI|rewrite <- cos_0]; apply cos_decreasing_1; lra. }
  assert (DOT : cos t * cos (t + d) + sin t * sin (t + d) = cos d).
  { rewrite CP, SP. transitivity ((sin t * sin t + cos t * cos t) * cos d); [ring|]. rewrite T1. ring. }
  unfold has_midlines, perpendicular, along0, along1. rewrite Xa, Xb, Xc, Xd, Ya, Yb, Yc, Yd.
  set (c := cos t) in *. set (s := sin t) in *. set (c' := cos (t + d)) in *. set (s' := sin (t + d)) in *. clearbody c s c' s'. clear CP SP.
  assert (A : (c + c') * (c + c') + (s + s') * (s + s') > 0) by nra.
  assert (B : (c' - c) * (c' - c) + (s' - s) * (s' - s) > 0) by nra.
  split; [split|].
  - destruct (Req_dec (c + c') 0) as [E|E].
    + right. assert (s + s' <> 0) by (intros E2; rewrite E, E2 in A; lra). intros Z0. assert (h * (s + s') = 0) by lra.
      apply Rmult_integral in H2. lra.
    + left. intros Z0. assert (X : h * (c + c') = 0) by lra. apply Rmult_integral in X. lra.
  - destruct (Req_dec (c' - c) 0) as [E|E].
    + right. assert (s' - s <> 0) by (intros E2; rewrite E, E2 in B; lra). intros Z0. assert (X : (2 * p + h) * (s' - s) = 0) by lra.
      apply Rmult_integral in X. lra.
    + left. intros Z0. assert (X : (2 * p + h) * (c' - c) = 0) by lra. apply Rmult_integral in X. lra.
  - transitivity (h * (2 * p + h) / 4 * ((s' * s' + c' * c') - (s * s + c * c))); [field|]. rewrite T1, T2. ring.
Qed.

Theorem C70_grids_partial : forall m0 m1 u v i j, (2 <= m0)%Z -> (2 <= m1)%Z -> (0 <= i < m0 - 1)%Z -> (0 <= j < m1 - 1)%Z ->
  (forall x0 y0 x1 y1, x0 <> x1 -> y0 <> y1 -> let xy := createRectilinearGrid m0 m1 x0 y0 x1 y1 in
     shown (flow_of xy (ufx0 u v (a_at (fst xy)) (a_at (snd xy))) (ufx1 u v (a_at (fst xy)) (a_at (snd xy)))) i j u v) /\
  (forall r e, (4 <= m1)%Z -> 0 <= e < r -> let xy := createPolarGrid m0 m1 r e in
     shown (flow_of xy (ufx0 u v (a_at (fst xy)) (a_at (snd xy))) (ufx1 u v (a_at (fst xy)) (a_at (snd xy)))) i j u v).
Proof.
  intros m0 m1 u v i j H0 H1 Hi Hj. split.
  - intros x0 y0 x1 y1 NX NY xy. destruct (rect_cell m0 m1 x0 y0 x1 y1 i j H0 H1 Hi Hj) as (E1 & E2 & E3 & E4). fold xy in E1, E2, E3, E4.
    apply (proj1 (C70_uniform_partial m0 m1 (a_at (fst xy)) (a_at (snd xy)) i j Hi Hj
      (conj (or_introl (eq_ind_r (fun z => z <> 0) (step_nonzero x0 x1 m0 H0 NX) E1)) (or_intror (eq_ind_r (fun z => z <> 0) (step_nonzero y0 y1 m1 H1 NY) E4))))).
    unfold perpendicular. rewrite E2, E3. ring.
  - intros r e H4 He xy. destruct (polar_cell m0 m1 r e i j H0 H4 He Hi Hj) as [M P]. fold xy in M, P.
    apply (proj1 (C70_uniform_partial m0 m1 (a_at (fst xy)) (a_at (snd xy)) i j Hi Hj M) P).
Qed.
Print Assumptions C70_grids_partial.

(** On every grid of equal parallelograms that are not rectangles, some uniform flow is shown wrongly in every cell. *)
Theorem C70_skewed_refuted : forall m0 m1 ax ay bx bY, ax * bY - ay * bx <> 0 -> ax * bx + ay * bY <> 0 ->
  let x i j := IZR i * ax + IZR j * bx in let y i j := IZR i * ay + IZR j * bY in
  forall i j, (0 <= i < m0 - 1)%Z -> (0 <= j < m1 - 1)%Z ->
  exists u v, ~ shown (flow_on m0 m1 x y (ufx0 u v x y) (ufx1 u v x y)) i j u v.
Proof.
  intros m0 m1 ax ay bx bY D NP x y i j Hi Hj.
  assert (E : along0 x i j = ax /\ along0 y i j = ay /\ along1 x i j = bx /\ along1 y i j = bY).
  { unfold along0, along1, x, y. rewrite !plus_IZR. repeat split; field. }
  destruct E as (E1 & E2 & E3 & E4).
  assert (M : has_midlines x y i j).
  { unfold has_midlines. rewrite E1, E2, E3, E4. split.
    - destruct (Req_dec ax 0) as [->|]; [right|now left]. intros ->. lra.
    - destruct (Req_dec bx 0) as [->|]; [right|now left]. intros ->. lra. }
  assert (S := flow_shown m0 m1 x y (ufx0 ay (- ax) x y) (ufx1 ay (- ax) x y) i j Hi Hj M). cbv zeta in S.
  exists ay, (- ax). intros Sh. destruct (shown_fun _ _ _ _ _ _ _ Sh S) as [Eu Ev]. clear S Sh.
  rewrite !mid0_uniform, !mid1_uniform, E1, E2, E3, E4 in *. destruct M as [NA NB]. rewrite E1, E2 in NA. rewrite E3, E4 in NB.
  assert (QA : 0 < ax * ax + ay * ay) by (destruct NA; nra). assert (QB : 0 < bx * bx + bY * bY) by (destruct NB; nra).
  replace ((ay * ay - - ax * ax) * ay / (ax * ax + ay * ay)) with ay in Eu by (field; lra).
  replace ((ay * ay - - ax * ax) * - ax / (ax * ax + ay * ay)) with (- ax) in Ev by (field; lra).
  assert (U : (ay * bY - - ax * bx) * bY / (bx * bx + bY * bY) = 0) by lra.
  assert (V : (ay * bY - - ax * bx) * - bx / (bx * bx + bY * bY) = 0) by lra.
  assert (IL : / (bx * bx + bY * bY) <> 0) by (apply Rinv_neq_0_compat; lra).
  unfold Rdiv in U, V. apply Rmult_integral in U. apply Rmult_integral in V.
  destruct U as [U|U]; [|contradiction]. destruct V as [V|V]; [|contradiction].
  apply Rmult_integral in U. apply Rmult_integral in V. destruct U as [U|U]; [lra|]. destruct V as [V|V]; [lra|]. destruct NB; lra.
Qed.
Print Assumptions C70_skewed_refuted.

Example C70_nonvacuous : let x i j := IZR i * 2 + IZR j * -1 in let y i j := IZR i * 1 + IZR j * 2 in
  has_midlines x y 1 1 /\ perpendicular x y 1 1 /\ shown (flow_on 3 4 x y (ufx0 5 7 x y) (ufx1 5 7 x y)) 1 1 5 7.
Proof.
  intros x y. assert (M : has_midlines x y 1 1). { unfold has_midlines, along0, along1, x, y. rewrite !plus_IZR. split; left; lra. }
  assert (P : perpendicular x y 1 1) by (unfold perpendicular, along0, along1, x, y; rewrite !plus_IZR; lra).
  split; [exact M|split; [exact P|]]. apply (proj1 (C70_uniform_partial 3 4 x y 1 1 ltac:(lia) ltac:(lia) M) P).
Qed.

(** ** C71: stream_velocity *)
Definition d0 (f : Z -> Z -> R) (i j : Z) : R := f (i + 1)%Z j - f i j.
Definition d1 (f : Z -> Z -> R) (i j : Z) : R := f i (j + 1)%Z - f i j.

Lemma stream_has : forall m0 m1 x y psi, (1 <= m0)%Z -> (1 <= m1)%Z ->
  has (fst (stream_on m0 m1 x y psi)) (m0 - 1) (m1 - 1)
    (fun i j => (- d1 psi i j / d1 y i j + - d1 psi (i + 1)%Z j / d1 y (i + 1)%Z j) / 2) /\
  has (snd (stream_on m0 m1 x y psi)) (m0 - 1) (m1 - 1)
    (fun i j => (d0 psi i j / d0 x i j + d0 psi i (j + 1)%Z / d0 x i (j + 1)%Z) / 2).
Proof.
  intros m0 m1 x y psi L0 L1. assert (P0 : (0 <= m0 - 1)%Z) by lia. assert (P1 : (0 <= m1 - 1)%Z) by lia.
  unfold stream_on, stream_velocity. cbv zeta. cbn [fst snd].
  assert (D1 : forall f, has (bop nsub (Some (hi1 (mkArr m0 m1 f))) (Some (lo1 (mkArr m0 m1 f)))) m0 (m1 - 1) (d1 f)).
  { intros f. apply (bop_has Rminus _ _ _ _ (fun i j => f i (j + 1)%Z) f); [apply hi1_holds|apply lo1_holds]; try assumption; apply mk_suc1. }
  assert (D0 : forall f, has (bop nsub (Some (hi0 (mkArr m0 m1 f))) (Some (lo0 (mkArr m0 m1 f)))) (m0 - 1) m1 (d0 f)).
  { intros f. apply (bop_has Rminus _ _ _ _ (fun i j => f (i + 1)%Z j) f); [apply hi0_holds|apply lo0_holds]; try assumption; apply mk_suc0. }
  split.
  - pose proof (bop_has Rdiv _ _ _ _ _ _ (umap_has Ropp _ _ _ _ (D1 psi)) (D1 y)) as H.
    change (@ndiv R NumR) with Rdiv. change (@nopp R NumR) with Ropp.
    apply has_inv in H. destruct H as (A & -> & H). replace m0 with (m0 - 1 + 1)%Z in H by lia.
    exact (avg_has _ _ _ _ _ _ (lo0_holds _ _ _ _ H P0) (hi0_holds _ _ _ _ H P0)).
  - pose proof (bop_has Rdiv _ _ _ _ _ _ (D0 psi) (D0 x)) as H.
    change (@ndiv R NumR) with Rdiv.
    apply has_inv in H. destruct H as (A & -> & H). replace m1 with (m1 - 1 + 1)%Z in H at 1 by lia.
    exact (avg_has _ _ _ _ _ _ (lo1_holds _ _ _ _ H P1) (hi1_holds _ _ _ _ H P1)).
Qed.

Lemma stream_shown : forall m0 m1 x y psi i j, (0 <= i < m0 - 1)%Z -> (0 <= j < m1 - 1)%Z ->
  shown (stream_on m0 m1 x y psi) i j
    ((- d1 psi i j / d1 y i j + - d1 psi (i + 1)%Z j / d1 y (i + 1)%Z j) / 2)
    ((d0 psi i j / d0 x i j + d0 psi i (j + 1)%Z / d0 x i (j + 1)%Z) / 2).
Proof.
  intros m0 m1 x y psi i j Hi Hj. destruct (stream_has m0 m1 x y psi ltac:(lia) ltac:(lia)) as [H G].
  exact (has_shown _ _ _ _ _ i j H G Hi Hj).
Qed.

(** No division by zero. *)
Definition divides (x y : Z -> Z -> R) (i j : Z) : Prop :=
  d1 y i j <> 0 /\ d1 y (i + 1)%Z j <> 0 /\ d0 x i j <> 0 /\ d0 x i (j + 1)%Z <> 0.
(** The slopes of opposite edges cancel. *)
Definition slopes_cancel (x y : Z -> Z -> R) (i j : Z) : Prop :=
  d1 x i j / d1 y i j + d1 x (i + 1)%Z j / d1 y (i + 1)%Z j = 0 /\
  d0 y i j / d0 x i j + d0 y i (j + 1)%Z / d0 x i (j + 1)%Z = 0.

Theorem C71_uniform_partial : forall m0 m1 x y i j, (0 <= i < m0 - 1)%Z -> (0 <= j < m1 - 1)%Z -> divides x y i j ->
  (slopes_cancel x y i j <-> forall u v c, shown (stream_on m0 m1 x y (fun k l => stream u v (x k l) (y k l) + c)) i j u v).
Proof.
  intros m0 m1 x y i j Hi Hj (N1 & N2 & N3 & N4).
  assert (S := fun u v c => stream_shown m0 m1 x y (fun k l => stream u v (x k l) (y k l) + c) i j Hi Hj). cbv beta in S.
  assert (EX : forall u v c, (- d1 (fun k l => stream u v (x k l) (y k l) + c) i j / d1 y i j
      + - d1 (fun k l => stream u v (x k l) (y k l) + c) (i + 1)%Z j / d1 y (i + 1)%Z j) / 2
      = u - v * ((d1 x i j / d1 y i j + d1 x (i + 1)%Z j / d1 y (i + 1)%Z j)) / 2).
  { intros u v c. unfold d1, stream in *. field. split; assumption. }
  assert (EY : forall u v c, (d0 (fun k l => stream u v (x k l) (y k l) + c) i j / d0 x i j
      + d0 (fun k l => stream u v (x k l) (y k l) + c) i (j + 1)%Z / d0 x i (j + 1)%Z) / 2
      = v - u * ((d0 y i j / d0 x i j + d0 y i (j + 1)%Z / d0 x i (j + 1)%Z)) / 2).
  { intros u v c. unfold d0, stream in *. field. split; assumption. }
  unfold slopes_cancel. split.
  - intros [C1 C2] u v c. specialize (S u v c). rewrite EX, EY, C1, C2 in S.
    replace (u - v * 0 / 2) with u in S by lra. replace (v - u * 0 / 2) with v in S by lra. exact S.
  - intros H. split.
    + destruct (shown_fun _ _ _ _ _ _ _ (H 0 1 0) (S 0 1 0)) as [E _]. rewrite EX in E. lra.
    + destruct (shown_fun _ _ _ _ _ _ _ (H 1 0 0) (S 1 0 0)) as [_ E]. rewrite EY in E. lra.
Qed.
Print Assumptions C71_uniform_partial.

Lemma rect_steps : forall m0 m1 x0 y0 x1 y1 i j, (2 <= m0)%Z -> (2 <= m1)%Z ->
  let xy := createRectilinearGrid m0 m1 x0 y0 x1 y1 in
  ((0 <= i < m0 - 1)%Z -> (0 <= j < m1)%Z -> d0 (a_at (fst xy)) i j = (x1 - x0) / IZR (m0 - 1) /\ d0 (a_at (snd xy)) i j = 0) /\
  ((0 <= i < m0)%Z -> (0 <= j < m1 - 1)%Z -> d1 (a_at (snd xy)) i j = (y1 - y0) / IZR (m1 - 1) /\ d1 (a_at (fst xy)) i j = 0).
Proof.
  intros m0 m1 x0 y0 x1 y1 i j H0 H1 xy. unfold d0, d1, xy. split; intros Hi Hj; rewrite !rect_x, !rect_y by lia; rewrite !plus_IZR; split; lra.
Qed.

Lemma rect_divides : forall m0 m1 x0 y0 x1 y1 i j, (2 <= m0)%Z -> (2 <= m1)%Z -> (0 <= i < m0 - 1)%Z -> (0 <= j < m1 - 1)%Z ->
  x0 <> x1 -> y0 <> y1 -> let xy := createRectilinearGrid m0 m1 x0 y0 x1 y1 in divides (a_at (fst xy)) (a_at (snd xy)) i j.
Proof.
  intros m0 m1 x0 y0 x1 y1 i j H0 H1 Hi Hj NX NY xy. unfold divides, xy.
  rewrite (proj1 (proj2 (rect_steps m0 m1 x0 y0 x1 y1 i j H0 H1) ltac:(lia) ltac:(lia))).
  rewrite (proj1 (proj2 (rect_steps m0 m1 x0 y0 x1 y1 (i + 1) j H0 H1) ltac:(lia) ltac:(lia))).
  rewrite (proj1 (proj1 (rect_steps m0 m1 x0 y0 x1 y1 i j H0 H1) ltac:(lia) ltac:(lia))).
  rewrite (proj1 (proj1 (rect_steps m0 m1 x0 y0 x1 y1 i (j + 1) H0 H1) ltac:(lia) ltac:(lia))).
  repeat split; now apply step_nonzero.
Qed.

Theorem C71_rectilinear_partial : forall m0 m1 x0 y0 x1 y1 u v c i j, (2 <= m0)%Z -> (2 <= m1)%Z -> (0 <= i < m0 - 1)%Z -> (0 <= j < m1 - 1)%Z ->
  x0 <> x1 -> y0 <> y1 -> let xy := createRectilinearGrid m0 m1 x0 y0 x1 y1 in
  shown (stream_of xy (fun k l => stream u v (a_at (fst xy) k l) (a_at (snd xy) k l) + c)) i j u v.
Proof.
  intros m0 m1 x0 y0 x1 y1 u v c i j H0 H1 Hi Hj NX NY xy.
  apply (proj1 (C71_uniform_partial m0 m1 (a_at (fst xy)) (a_at (snd xy)) i j Hi Hj (rect_divides _ _ _ _ _ _ i j H0 H1 Hi Hj NX NY))).
  unfold slopes_cancel. unfold xy.
  rewrite (proj2 (proj2 (rect_steps m0 m1 x0 y0 x1 y1 i j H0 H1) ltac:(lia) ltac:(lia))).
  rewrite (proj2 (proj2 (rect_steps m0 m1 x0 y0 x1 y1 (i + 1) j H0 H1) ltac:(lia) ltac:(lia))).
  rewrite (proj2 (proj1 (rect_steps m0 m1 x0 y0 x1 y1 i j H0 H1) ltac:(lia) ltac:(lia))).
  rewrite (proj2 (proj1 (rect_steps m0 m1 x0 y0 x1 y1 i (j + 1) H0 H1) ltac:(lia) ltac:(lia))).
  split; lra.
Qed.
Print Assumptions C71_rectilinear_partial.

(** On a grid of equal parallelograms, the velocity is wrong unless the edges are parallel to the axes. *)
Theorem C71_skewed_refuted : forall m0 m1 ax ay bx bY, ax <> 0 -> bY <> 0 -> (ay <> 0 \/ bx <> 0) ->
  let x i j := IZR i * ax + IZR j * bx in let y i j := IZR i * ay + IZR j * bY in
  forall i j, (0 <= i < m0 - 1)%Z -> (0 <= j < m1 - 1)%Z ->
  divides x y i j /\ exists u v, ~ shown (stream_on m0 m1 x y (fun k l => stream u v (x k l) (y k l))) i j u v.
Proof.
  intros m0 m1 ax ay bx bY NA NB NE x y i j Hi Hj.
  assert (E : forall k l, d0 x k l = ax /\ d0 y k l = ay /\ d1 x k l = bx /\ d1 y k l = bY).
  { intros k l. unfold d0, d1, x, y. rewrite !plus_IZR. repeat split; ring. }
  assert (D : divides x y i j).
  { unfold divides. destruct (E i j) as (E1 & E2 & E3 & E4). destruct (E (i + 1)%Z j) as (F1 & F2 & F3 & F4).
    destruct (E i (j + 1)%Z) as (G1 & G2 & G3 & G4). rewrite E1, E4, F4, G1. auto. }
  split; [exact D|].
  assert (P : forall u v k l, d1 (fun k l => stream u v (x k l) (y k l)) k l = v * bx - u * bY /\ d0 (fun k l => stream u v (x k l) (y k l)) k l = v * ax - u * ay).
  { intros u v k l. destruct (E k l) as (E1 & E2 & E3 & E4). unfold d0, d1, stream in *. rewrite <- E1, <- E2, <- E3, <- E4. split; ring. }
  assert (S := fun u v => stream_shown m0 m1 x y (fun k l => stream u v (x k l) (y k l)) i j Hi Hj). cbv beta in S.
  destruct NE as [NE|NE].
  - exists 1, 0. intros Sh. destruct (shown_fun _ _ _ _ _ _ _ Sh (S 1 0)) as [_ Ev].
    rewrite !(proj2 (P 1 0 _ _)), !(proj1 (E _ _)) in Ev. assert (ay / ax = 0) by lra.
    apply Rmult_integral in H. destruct H as [H|H]; [lra|]. apply Rinv_neq_0_compat in NA. lra.
  - exists 0, 1. intros Sh. destruct (shown_fun _ _ _ _ _ _ _ Sh (S 0 1)) as [Eu _].
    rewrite !(proj1 (P 0 1 _ _)) in Eu. replace (d1 y i j) with bY in Eu by (symmetry; apply E). replace (d1 y (i + 1)%Z j) with bY in Eu by (symmetry; apply E).
    assert (bx / bY = 0) by lra.
    apply Rmult_integral in H. destruct H as [H|H]; [lra|]. apply Rinv_neq_0_compat in NB. lra.
Qed.
Print Assumptions C71_skewed_refuted.

Example C71_nonvacuous : let xy := createRectilinearGrid 3 4 0 1 2 7 in
  divides (a_at (fst xy)) (a_at (snd xy)) 1 2 /\ shown (stream_of xy (fun k l => stream 5 7 (a_at (fst xy) k l) (a_at (snd xy) k l) + 1)) 1 2 5 7.
Proof.
  intros xy. split; [apply rect_divides; try lia; lra|]. apply C71_rectilinear_partial; try lia; lra.
Qed.

(** ** C72: the two files *)
(** Fluxes from a stream function, as examples/streamFlow.py.in:68-69 computes them. *)
Definition stream_flux0 (psi : Z -> Z -> R) (i j : Z) : R := psi (i + 1)%Z j - psi i j.
Definition stream_flux1 (psi : Z -> Z -> R) (i j : Z) : R := psi i (j + 1)%Z - psi i j.

(** The two velocities are opposite, for every stream function. *)
Theorem C72_opposite_refuted : forall m0 m1 x0 y0 x1 y1 psi i j, (2 <= m0)%Z -> (2 <= m1)%Z -> (0 <= i < m0 - 1)%Z -> (0 <= j < m1 - 1)%Z ->
  x0 <> x1 -> y0 <> y1 -> let xy := createRectilinearGrid m0 m1 x0 y0 x1 y1 in
  exists u v, shown (flow_of xy (stream_flux0 psi) (stream_flux1 psi)) i j u v /\ shown (stream_of xy psi) i j (- u) (- v).
Proof.
  intros m0 m1 x0 y0 x1 y1 psi i j H0 H1 Hi Hj NX NY xy.
  destruct (rect_cell m0 m1 x0 y0 x1 y1 i j H0 H1 Hi Hj) as (E1 & E2 & E3 & E4). fold xy in E1, E2, E3, E4.
  pose proof (step_nonzero x0 x1 m0 H0 NX) as NA. pose proof (step_nonzero y0 y1 m1 H1 NY) as NB.
  assert (M : has_midlines (a_at (fst xy)) (a_at (snd xy)) i j).
  { unfold has_midlines. rewrite E1, E4. split; [now left|now right]. }
  assert (SF := flow_shown m0 m1 (a_at (fst xy)) (a_at (snd xy)) (stream_flux0 psi) (stream_flux1 psi) i j Hi Hj M). cbv zeta in SF.
  assert (SS := stream_shown m0 m1 (a_at (fst xy)) (a_at (snd xy)) psi i j Hi Hj).
  do 2 eexists. split; [exact SF|]. rewrite E1, E2, E3, E4.
  unfold xy in SS.
  rewrite (proj1 (proj2 (rect_steps m0 m1 x0 y0 x1 y1 i j H0 H1) ltac:(lia) ltac:(lia))) in SS.
  rewrite (proj1 (proj2 (rect_steps m0 m1 x0 y0 x1 y1 (i + 1) j H0 H1) ltac:(lia) ltac:(lia))) in SS.
  rewrite (proj1 (proj1 (rect_steps m0 m1 x0 y0 x1 y1 i j H0 H1) ltac:(lia) ltac:(lia))) in SS.
  rewrite (proj1 (proj1 (rect_steps m0 m1 x0 y0 x1 y1 i (j + 1) H0 H1) ltac:(lia) ltac:(lia))) in SS.
  fold xy in SS. set (hx := (x1 - x0) / IZR (m0 - 1)) in *. set (hy := (y1 - y0) / IZR (m1 - 1)) in *. clearbody hx hy.
  match goal with |- shown _ _ _ ?a ?b => match type of SS with shown _ _ _ ?c ?d => replace a with c; [replace b with d; [exact SS|]|] end end.
  - unfold mid0, mid1, stream_flux0, stream_flux1, d0, d1. field. repeat split; first [exact NA|exact NB|nra].
  - unfold mid0, mid1, stream_flux0, stream_flux1, d0, d1. field. repeat split; first [exact NA|exact NB|nra].
Qed.
Print Assumptions C72_opposite_refuted.

(** Stream function x on one cell: (0, -1) in one file, (0, 1) in the other. *)
Example C72_nonvacuous : let xy := createRectilinearGrid 2 2 0 0 1 1 in
  shown (flow_of xy (stream_flux0 (fun i j => IZR i)) (stream_flux1 (fun i j => IZR i))) 0 0 0 (-1) /\
  shown (stream_of xy (fun i j => IZR i)) 0 0 0 1.
Proof.
  intros xy. destruct (rect_cell 2 2 0 0 1 1 0 0) as (E1 & E2 & E3 & E4); try lia. fold xy in E1, E2, E3, E4. change (2 - 1)%Z with 1%Z in E1, E4.
  assert (M : has_midlines (a_at (fst xy)) (a_at (snd xy)) 0 0).
  { unfold has_midlines. rewrite E1, E4. split; [left|right]; lra. }
  assert (SF := flow_shown 2 2 (a_at (fst xy)) (a_at (snd xy)) (stream_flux0 (fun i j => IZR i)) (stream_flux1 (fun i j => IZR i)) 0 0 ltac:(lia) ltac:(lia) M).
  cbv zeta in SF. rewrite E1, E2, E3, E4 in SF.
  destruct (C72_opposite_refuted 2 2 0 0 1 1 (fun i j => IZR i) 0 0) as (u & v & S1 & S2); try lia; try lra. fold xy in S1, S2.
  destruct (shown_fun _ _ _ _ _ _ _ S1 SF) as [-> ->].
  match goal with H : shown (flow_of _ _ _) _ _ ?a ?b |- _ =>
    assert (A : a = 0) by (unfold mid0, mid1, stream_flux0, stream_flux1; rewrite ?plus_IZR; lra);
    assert (B : b = -1) by (unfold mid0, mid1, stream_flux0, stream_flux1; rewrite ?plus_IZR; lra) end.
  rewrite A, B in *. split; [exact S1|]. replace (- 0) with 0 in S2 by lra. replace (- -1) with 1 in S2 by lra. exact S2.
Qed.

(** ** C74: derivatives in scripts/cellFaceBasis.py *)
(** The bilinear map with coefficients a, b, c, d and its derivatives. *)
Definition bilin (a b c d s t : R) : R := a + b * s + c * t + d * s * t.
Definition bilin_ds (a b c d s t : R) : R := b + d * t.
Definition bilin_dt (a b c d s t : R) : R := c + d * s.
(** The array of its values on the grid of the script. *)
Definition values (m0 m1 : Z) (f : R -> R -> R) : arr R :=
  mkArr m0 m1 (fun i j => f (a_at (xi_grid m0 m1) i j) (a_at (eta_grid m0 m1) i j)).
(** The centre of cell (i, j). *)
Definition centre (m i : Z) : R := (IZR i + / 2) / IZR (m - 1).
Definition is_at (a : option (arr R)) (i j : Z) (v : R) : Prop := exists A, a = Some A /\ a_at A i j = v.

Lemma xi_at : forall m0 m1 i j, (2 <= m0)%Z -> (0 <= i < m0)%Z -> a_at (xi_grid m0 m1) i j = IZR i / IZR (m0 - 1).
Proof. intros. cbn -[linspace]. rewrite linspace_R by lia. change (@n0 R NumR) with 0. change (@n1 R NumR) with 1. unfold Rdiv. ring. Qed.
Lemma eta_at : forall m0 m1 i j, (2 <= m1)%Z -> (0 <= j < m1)%Z -> a_at (eta_grid m0 m1) i j = IZR j / IZR (m1 - 1).
Proof. intros. cbn -[linspace]. rewrite linspace_R by lia. change (@n0 R NumR) with 0. change (@n1 R NumR) with 1. unfold Rdiv. ring. Qed.

Lemma derivs_has : forall m0 m1 x y, (2 <= m0)%Z -> (2 <= m1)%Z ->
  let D := face_derivs (mkArr m0 m1 x) (mkArr m0 m1 y) in
  let h0 := 1 / IZR (m0 - 1) in let h1 := 1 / IZR (m1 - 1) in
  has (dxdxi D) (m0 - 1) (m1 - 1) (fun i j => (mid0 x (i + 1) j - mid0 x i j) / h0) /\
  has (dxdeta D) (m0 - 1) (m1 - 1) (fun i j => (mid1 x i (j + 1) - mid1 x i j) / h1) /\
  has (dydxi D) (m0 - 1) (m1 - 1) (fun i j => (mid0 y (i + 1) j - mid0 y i j) / h0) /\
  has (dydeta D) (m0 - 1) (m1 - 1) (fun i j => ((y i (j + 1)%Z + y 0%Z (j + 1)%Z) / 2 - (y i j + y 0%Z j) / 2) / h1).
Proof.
  intros m0 m1 x y L0 L1. cbv zeta. unfold face_derivs. cbn [dxdxi dxdeta dydxi dydeta]. cbv zeta.
  assert (P0 : (0 <= m0 - 1)%Z) by lia. assert (P1 : (0 <= m1 - 1)%Z) by lia.
  assert (A0 : forall f, has (avg (lo1 (mkArr m0 m1 f)) (hi1 (mkArr m0 m1 f))) m0 (m1 - 1) (mid0 f)).
  { intros f. exact (avg_has _ _ _ _ _ _ (lo1_holds _ _ _ _ (mk_suc1 m0 m1 f) P1) (hi1_holds _ _ _ _ (mk_suc1 m0 m1 f) P1)). }
  assert (A1 : forall f, has (avg (lo0 (mkArr m0 m1 f)) (hi0 (mkArr m0 m1 f))) (m0 - 1) m1 (mid1 f)).
  { intros f. exact (avg_has _ _ _ _ _ _ (lo0_holds _ _ _ _ (mk_suc0 m0 m1 f) P0) (hi0_holds _ _ _ _ (mk_suc0 m0 m1 f) P0)). }
  assert (A2 : has (avg (lo0 (mkArr m0 m1 y)) (first0 (mkArr m0 m1 y))) (m0 - 1) m1 (fun i j => (y i j + y 0%Z j) / 2)).
  { unfold avg. eapply has_ext.
    - apply umap_has. apply bop_row_has; [lia| |].
      + exact (lo0_holds _ _ _ _ (mk_suc0 m0 m1 y) P0).
      + exact (first0_holds _ _ _ _ (holds_mk m0 m1 y) ltac:(lia)).
    - intros i j _ _. unfold nhalf. rewrite lit_R. cbn. lra. }
  set (E0 := @ndiv R NumR n1 (nofZ (a_n0 (mkArr m0 m1 x) - 1))). set (E1 := @ndiv R NumR n1 (nofZ (a_n1 (mkArr m0 m1 x) - 1))).
  change (1 / IZR (m0 - 1)) with E0. change (1 / IZR (m1 - 1)) with E1.
  assert (D0 : forall a f, has a m0 (m1 - 1) f ->
    has (match a with Some a => umap (fun v => ndiv v E0) (bop nsub (Some (hi0 a)) (Some (lo0 a))) | None => None end) (m0 - 1) (m1 - 1)
      (fun i j => (f (i + 1)%Z j - f i j) / E0)).
  { intros a f H. apply has_inv in H. destruct H as (A & -> & H). replace m0 with (m0 - 1 + 1)%Z in H by lia.
    apply (umap_has (fun v => v / E0)). apply (bop_has Rminus _ _ _ _ (fun i j => f (i + 1)%Z j) f); [apply hi0_holds|apply lo0_holds]; assumption. }
  assert (D1 : forall a f, has a (m0 - 1) m1 f ->
    has (match a with Some a => umap (fun v => ndiv v E1) (bop nsub (Some (hi1 a)) (Some (lo1 a))) | None => None end) (m0 - 1) (m1 - 1)
      (fun i j => (f i (j + 1)%Z - f i j) / E1)).
  { intros a f H. apply has_inv in H. destruct H as (A & -> & H). replace m1 with (m1 - 1 + 1)%Z in H by lia.
    apply (umap_has (fun v => v / E1)). apply (bop_has Rminus _ _ _ _ (fun i j => f i (j + 1)%Z) f); [apply hi1_holds|apply lo1_holds]; assumption. }
  split; [apply D0, A0|]. split; [apply D1, A1|]. split; [apply D0, A0|].
  exact (D1 _ _ A2).
Qed.

(** What the four arrays contain for a bilinear map: the derivatives at the centre of the cell, but the last one at
    half the first index. *)
Lemma derivs_bilin : forall m0 m1 a b c d a' b' c' d' i j, (2 <= m0)%Z -> (2 <= m1)%Z -> (0 <= i < m0 - 1)%Z -> (0 <= j < m1 - 1)%Z ->
  let D := face_derivs (values m0 m1 (bilin a b c d)) (values m0 m1 (bilin a' b' c' d')) in
  let s := centre m0 i in let t := centre m1 j in
  is_at (dxdxi D) i j (bilin_ds a b c d s t) /\ is_at (dxdeta D) i j (bilin_dt a b c d s t) /\
  is_at (dydxi D) i j (bilin_ds a' b' c' d' s t) /\ is_at (dydeta D) i j (bilin_dt a' b' c' d' (IZR i / 2 / IZR (m0 - 1)) t).
Proof.
  intros m0 m1 a b c d a' b' c' d' i j H0 H1 Hi Hj D s t.
  destruct (derivs_has m0 m1 (a_at (values m0 m1 (bilin a b c d))) (a_at (values m0 m1 (bilin a' b' c' d'))) H0 H1) as (X1 & X2 & X3 & X4).
  fold D in X1, X2, X3, X4.
  assert (N0 : IZR (m0 - 1) <> 0) by (apply not_0_IZR; lia). assert (N1 : IZR (m1 - 1) <> 0) by (apply not_0_IZR; lia).
  assert (V : forall a b c d k l, (0 <= k < m0)%Z -> (0 <= l < m1)%Z -> a_at (values m0 m1 (bilin a b c d)) k l = bilin a b c d (IZR k / IZR (m0 - 1)) (IZR l / IZR (m1 - 1))).
  { intros. unfold values. cbn [a_at]. now rewrite xi_at, eta_at by lia. }
  unfold is_at, s, t, centre.
  split; [|split; [|split]].
  - destruct (has_at _ _ _ _ i j X1 Hi Hj) as (A & EA & VA). exists A. split; [exact EA|]. rewrite VA.
    unfold mid0. rewrite !V by lia. unfold bilin, bilin_ds. rewrite !plus_IZR. field. auto.
  - destruct (has_at _ _ _ _ i j X2 Hi Hj) as (A & EA & VA). exists A. split; [exact EA|]. rewrite VA.
    unfold mid1. rewrite !V by lia. unfold bilin, bilin_dt. rewrite !plus_IZR. field. auto.
  - destruct (has_at _ _ _ _ i j X3 Hi Hj) as (A & EA & VA). exists A. split; [exact EA|]. rewrite VA.
    unfold mid0. rewrite !V by lia. unfold bilin, bilin_ds. rewrite !plus_IZR. field. auto.
  - destruct (has_at _ _ _ _ i j X4 Hi Hj) as (A & EA & VA). exists A. split; [exact EA|]. rewrite VA.
    rewrite !V by lia. unfold bilin, bilin_dt. rewrite !plus_IZR. field. auto.
Qed.

Lemma is_at_fun : forall a i j v w, is_at a i j v -> is_at a i j w -> v = w.
Proof. intros a i j v w (A & -> & <-) (B & E & <-). now injection E as <-. Qed.

(** Three of the derivatives are exact for all bilinear maps, all four for affine maps of y. *)
Theorem C74_derivs_partial : forall m0 m1 a b c d a' b' c' d' i j, (2 <= m0)%Z -> (2 <= m1)%Z -> (0 <= i < m0 - 1)%Z -> (0 <= j < m1 - 1)%Z ->
  let D := face_derivs (values m0 m1 (bilin a b c d)) (values m0 m1 (bilin a' b' c' d')) in
  let s := centre m0 i in let t := centre m1 j in
  is_at (dxdxi D) i j (bilin_ds a b c d s t) /\ is_at (dxdeta D) i j (bilin_dt a b c d s t) /\
  is_at (dydxi D) i j (bilin_ds a' b' c' d' s t) /\ (is_at (dydeta D) i j (bilin_dt a' b' c' d' s t) <-> d' = 0).
Proof.
  intros m0 m1 a b c d a' b' c' d' i j H0 H1 Hi Hj D s t.
  destruct (derivs_bilin m0 m1 a b c d a' b' c' d' i j H0 H1 Hi Hj) as (X1 & X2 & X3 & X4). fold D s t in X1, X2, X3, X4.
  split; [exact X1|split; [exact X2|split; [exact X3|]]].
  assert (P : 0 < IZR (m0 - 1)) by (apply IZR_lt; lia). assert (Q : 0 <= IZR i) by (apply IZR_le; lia).
  split.
  - intros E. pose proof (is_at_fun _ _ _ _ _ E X4) as Z0. unfold bilin_dt, s, centre in Z0.
    assert (Z1 : d' * ((IZR i + 1) / 2 / IZR (m0 - 1)) = 0).
    { transitivity (d' * ((IZR i + / 2) / IZR (m0 - 1)) - d' * (IZR i / 2 / IZR (m0 - 1))); [field; lra|lra]. }
    apply Rmult_integral in Z1. destruct Z1 as [Z1|Z1]; [exact Z1|]. exfalso.
    assert (0 < (IZR i + 1) / 2 / IZR (m0 - 1)) by (apply Rdiv_lt_0_compat; lra). lra.
  - intros ->. unfold bilin_dt in *. rewrite Rmult_0_l in *. exact X4.
Qed.
Print Assumptions C74_derivs_partial.

(** The derivative of y along the second coordinate is wrong in every cell when y is the product of the coordinates. *)
Theorem C74_dydeta_refuted : forall m0 m1 i j, (2 <= m0)%Z -> (2 <= m1)%Z -> (0 <= i < m0 - 1)%Z -> (0 <= j < m1 - 1)%Z ->
  let D := face_derivs (values m0 m1 (bilin 0 1 0 0)) (values m0 m1 (fun s t => s * t)) in
  exists v, is_at (dydeta D) i j v /\ v < centre m0 i.
Proof.
  intros m0 m1 i j H0 H1 Hi Hj D.
  destruct (derivs_bilin m0 m1 0 1 0 0 0 0 0 1 i j H0 H1 Hi Hj) as (_ & _ & _ & X4).
  assert (P : 0 < IZR (m0 - 1)) by (apply IZR_lt; lia). assert (Q : 0 <= IZR i) by (apply IZR_le; lia).
  exists (IZR i / 2 / IZR (m0 - 1)). split.
  - destruct (derivs_has m0 m1 (a_at (values m0 m1 (bilin 0 1 0 0))) (a_at (values m0 m1 (fun s t => s * t))) H0 H1) as (_ & _ & _ & Y4).
    fold D in Y4. destruct (has_at _ _ _ _ i j Y4 Hi Hj) as (A & EA & VA). exists A. split; [exact EA|]. rewrite VA.
    unfold values. cbn [a_at]. rewrite !xi_at, !eta_at by lia. rewrite !plus_IZR.
    assert (IZR (m1 - 1) <> 0) by (apply not_0_IZR; lia). field. repeat split; first [assumption|lra].
  - unfold centre. apply Rmult_lt_compat_r; [now apply Rinv_0_lt_compat|lra].
Qed.
Print Assumptions C74_dydeta_refuted.

(** ** C75: the basis functions *)
(** Flux of the vector (wx, wy) across the vector (rx, ry). *)
Definition cross (wx wy rx ry : R) : R := wx * ry - wy * rx.

Lemma centred_xi : forall m0 m1, (2 <= m0)%Z -> (2 <= m1)%Z -> has (centred (xi_grid m0 m1)) (m0 - 1) (m1 - 1) (fun i _ => centre m0 i).
Proof.
  intros m0 m1 H0 H1. assert (P0 : (0 <= m0 - 1)%Z) by lia. assert (P1 : (0 <= m1 - 1)%Z) by lia.
  unfold centred. eapply has_ext.
  - apply umap_has. apply bop_has; [apply bop_has; [apply bop_has|]|]; apply has_some; first [apply hi0_holds|apply lo0_holds]; try assumption;
      first [apply hi1_holds|apply lo1_holds]; try assumption; apply mk_suc.
  - intros i j Hi Hj. cbv beta. fold (a_at (xi_grid m0 m1) i j). unfold centre. rewrite lit_R.
    change (fun i0 _ : Z => nmul (linspace n0 n1 m0 i0) n1) with (a_at (xi_grid (T:=R) m0 m1)).
    assert (IZR (m0 - 1) <> 0) by (apply not_0_IZR; lia).
    pose proof (xi_at m0 m1 i j H0 ltac:(lia)) as E1. pose proof (xi_at m0 m1 i (j + 1) H0 ltac:(lia)) as E2.
    pose proof (xi_at m0 m1 (i + 1) j H0 ltac:(lia)) as E3. pose proof (xi_at m0 m1 (i + 1) (j + 1) H0 ltac:(lia)) as E4.
    cbn -[linspace IZR Rdiv] in E1, E2, E3, E4 |- *. rewrite ?E1, ?E2, ?E3, ?E4. rewrite !plus_IZR. field. assumption.
Qed.
Lemma centred_eta : forall m0 m1, (2 <= m0)%Z -> (2 <= m1)%Z -> has (centred (eta_grid m0 m1)) (m0 - 1) (m1 - 1) (fun _ j => centre m1 j).
Proof.
  intros m0 m1 H0 H1. assert (P0 : (0 <= m0 - 1)%Z) by lia. assert (P1 : (0 <= m1 - 1)%Z) by lia.
  unfold centred. eapply has_ext.
  - apply umap_has. apply bop_has; [apply bop_has; [apply bop_has|]|]; apply has_some; first [apply hi0_holds|apply lo0_holds]; try assumption;
      first [apply hi1_holds|apply lo1_holds]; try assumption; apply mk_suc.
  - intros i j Hi Hj. cbv beta. unfold centre. rewrite lit_R.
    assert (IZR (m1 - 1) <> 0) by (apply not_0_IZR; lia).
    pose proof (eta_at m0 m1 i j H1 ltac:(lia)) as E1. pose proof (eta_at m0 m1 i (j + 1) H1 ltac:(lia)) as E2.
    pose proof (eta_at m0 m1 (i + 1) j H1 ltac:(lia)) as E3. pose proof (eta_at m0 m1 (i + 1) (j + 1) H1 ltac:(lia)) as E4.
    cbn -[linspace IZR Rdiv] in E1, E2, E3, E4 |- *. rewrite ?E1, ?E2, ?E3, ?E4. rewrite !plus_IZR. field. assumption.
Qed.

(** The vector shown for side k in cell (i, j) has the fluxes f0 and f1 across the two coordinate directions. *)
Definition side_flux (B : list (option (arr R) * option (arr R))) (k : nat) (i j : Z) (rx ry sx sy f0 f1 : R) : Prop :=
  exists wx wy, shown (nth k B (None, None)) i j wx wy /\ cross wx wy rx ry = f0 /\ cross wx wy sx sy = f1.

Lemma bases_has : forall m0 m1 b c b' c' a a', (2 <= m0)%Z -> (2 <= m1)%Z -> b * c' - b' * c <> 0 ->
  let B := face_bases (values m0 m1 (bilin a b c 0)) (values m0 m1 (bilin a' b' c' 0)) in
  forall i j, (0 <= i < m0 - 1)%Z -> (0 <= j < m1 - 1)%Z ->
  let s := centre m0 i in let t := centre m1 j in let J := b * c' - b' * c in
  shown (nth 0 B (None, None)) i j ((1 - t) * c / J) ((1 - t) * c' / J) /\ shown (nth 1 B (None, None)) i j (t * c / J) (t * c' / J) /\
  shown (nth 2 B (None, None)) i j ((1 - s) * b / J) ((1 - s) * b' / J) /\ shown (nth 3 B (None, None)) i j (s * b / J) (s * b' / J).
Proof.
  intros m0 m1 b c b' c' a a' H0 H1 NJ B i0 j0 Hi Hj s t J.
  set (X := values m0 m1 (bilin a b c 0)). set (Y := values m0 m1 (bilin a' b' c' 0)).
  destruct (derivs_has m0 m1 (a_at X) (a_at Y) H0 H1) as (X1 & X2 & X3 & X4).
  change (mkArr m0 m1 (a_at X)) with X in *. change (mkArr m0 m1 (a_at Y)) with Y in *.
  assert (D1 : has (dxdxi (face_derivs X Y)) (m0 - 1) (m1 - 1) (fun _ _ => b)).
  { eapply has_ext; [exact X1|]. intros i j Qi Qj. destruct (derivs_bilin m0 m1 a b c 0 a' b' c' 0 i j H0 H1 Qi Qj) as (E & _).
    destruct (has_at _ _ _ _ i j X1 Qi Qj) as (A & EA & VA). rewrite <- VA.
    transitivity (bilin_ds a b c 0 (centre m0 i) (centre m1 j)); [|unfold bilin_ds; ring].
    apply (is_at_fun (dxdxi (face_derivs X Y)) i j); [now exists A|exact E]. }
  assert (D2 : has (dxdeta (face_derivs X Y)) (m0 - 1) (m1 - 1) (fun _ _ => c)).
  { eapply has_ext; [exact X2|]. intros i j Qi Qj. destruct (derivs_bilin m0 m1 a b c 0 a' b' c' 0 i j H0 H1 Qi Qj) as (_ & E & _).
    destruct (has_at _ _ _ _ i j X2 Qi Qj) as (A & EA & VA). rewrite <- VA.
    transitivity (bilin_dt a b c 0 (centre m0 i) (centre m1 j)); [|unfold bilin_dt; ring].
    apply (is_at_fun (dxdeta (face_derivs X Y)) i j); [now exists A|exact E]. }
  assert (D3 : has (dydxi (face_derivs X Y)) (m0 - 1) (m1 - 1) (fun _ _ => b')).
  { eapply has_ext; [exact X3|]. intros i j Qi Qj. destruct (derivs_bilin m0 m1 a b c 0 a' b' c' 0 i j H0 H1 Qi Qj) as (_ & _ & E & _).
    destruct (has_at _ _ _ _ i j X3 Qi Qj) as (A & EA & VA). rewrite <- VA.
    transitivity (bilin_ds a' b' c' 0 (centre m0 i) (centre m1 j)); [|unfold bilin_ds; ring].
    apply (is_at_fun (dydxi (face_derivs X Y)) i j); [now exists A|exact E]. }
  assert (D4 : has (dydeta (face_derivs X Y)) (m0 - 1) (m1 - 1) (fun _ _ => c')).
  { eapply has_ext; [exact X4|]. intros i j Qi Qj. destruct (derivs_bilin m0 m1 a b c 0 a' b' c' 0 i j H0 H1 Qi Qj) as (_ & _ & _ & E).
    destruct (has_at _ _ _ _ i j X4 Qi Qj) as (A & EA & VA). rewrite <- VA.
    transitivity (bilin_dt a' b' c' 0 (IZR i / 2 / IZR (m0 - 1)) (centre m1 j)); [|unfold bilin_dt; ring].
    apply (is_at_fun (dydeta (face_derivs X Y)) i j); [now exists A|exact E]. }
  pose proof (centred_xi m0 m1 H0 H1) as CX. pose proof (centred_eta m0 m1 H0 H1) as CE.
  assert (JH : has (bop nsub (bop nmul (dxdxi (face_derivs X Y)) (dydeta (face_derivs X Y))) (bop nmul (dydxi (face_derivs X Y)) (dxdeta (face_derivs X Y))))
    (m0 - 1) (m1 - 1) (fun _ _ => J)).
  { apply (bop_has Rminus _ _ _ _ (fun _ _ => b * c') (fun _ _ => b' * c)).
    - apply (bop_has Rmult _ _ _ _ (fun _ _ => b) (fun _ _ => c') D1 D4).
    - apply (bop_has Rmult _ _ _ _ (fun _ _ => b') (fun _ _ => c) D3 D2). }
  assert (Q : forall p q f v, has p (m0 - 1) (m1 - 1) f -> has q (m0 - 1) (m1 - 1) (fun _ _ => v) ->
    has (bop ndiv (bop nmul p q) (bop nsub (bop nmul (dxdxi (face_derivs X Y)) (dydeta (face_derivs X Y))) (bop nmul (dydxi (face_derivs X Y)) (dxdeta (face_derivs X Y)))))
      (m0 - 1) (m1 - 1) (fun i j => f i j * v / J)).
  { intros p q f v Hp Hq. apply (bop_has Rdiv _ _ _ _ (fun i j => f i j * v) (fun _ _ => J)); [|exact JH].
    apply (bop_has Rmult _ _ _ _ f (fun _ _ => v) Hp Hq). }
  assert (LO : forall p f, has p (m0 - 1) (m1 - 1) f -> has (umap (fun v => nsub n1 v) p) (m0 - 1) (m1 - 1) (fun i j => 1 - f i j)).
  { intros p f Hp. apply (umap_has (fun v => 1 - v) _ _ _ _ Hp). }
  assert (HI : forall p f, has p (m0 - 1) (m1 - 1) f -> has (umap (fun v => nadd n0 v) p) (m0 - 1) (m1 - 1) f).
  { intros p f Hp. eapply has_ext; [apply (umap_has (fun v => 0 + v) _ _ _ _ Hp)|]. intros i j _ _. cbv beta. ring. }
  assert (S : forall p q p' q' f g i j, has p (m0 - 1) (m1 - 1) f -> has q (m0 - 1) (m1 - 1) g -> (0 <= i < m0 - 1)%Z -> (0 <= j < m1 - 1)%Z ->
     (p, q) = (p', q') -> shown (p', q') i j (f i j) (g i j)).
  { intros p q p' q' f g i j Hp Hq Qi Qj <-. exact (has_shown (p, q) _ _ f g i j Hp Hq Qi Qj). }
  unfold B. cbn [nth face_bases]. split; [|split; [|split]].
  - exact (S _ _ _ _ _ _ i0 j0 (Q _ _ _ _ (LO _ _ CE) D2) (Q _ _ _ _ (LO _ _ CE) D4) Hi Hj eq_refl).
  - exact (S _ _ _ _ _ _ i0 j0 (Q _ _ _ _ (HI _ _ CE) D2) (Q _ _ _ _ (HI _ _ CE) D4) Hi Hj eq_refl).
  - exact (S _ _ _ _ _ _ i0 j0 (Q _ _ _ _ (LO _ _ CX) D1) (Q _ _ _ _ (LO _ _ CX) D3) Hi Hj eq_refl).
  - exact (S _ _ _ _ _ _ i0 j0 (Q _ _ _ _ (HI _ _ CX) D1) (Q _ _ _ _ (HI _ _ CX) D3) Hi Hj eq_refl).
Qed.

(** Affine maps: the vectors of a side carry flux across lines parallel to it only, growing from 0 on the opposite side to
    1 on the side; for the sides along the first coordinate the flux has the opposite sign. *)
Theorem C75_flux_partial : forall m0 m1 a b c a' b' c', (2 <= m0)%Z -> (2 <= m1)%Z -> b * c' - b' * c <> 0 ->
  let B := face_bases (values m0 m1 (bilin a b c 0)) (values m0 m1 (bilin a' b' c' 0)) in
  forall i j, (0 <= i < m0 - 1)%Z -> (0 <= j < m1 - 1)%Z ->
  let s := centre m0 i in let t := centre m1 j in
  side_flux B 0 i j b b' c c' (- (1 - t)) 0 /\ side_flux B 1 i j b b' c c' (- t) 0 /\
  side_flux B 2 i j b b' c c' 0 (1 - s) /\ side_flux B 3 i j b b' c c' 0 s.
Proof.
  intros m0 m1 a b c a' b' c' H0 H1 NJ B i j Hi Hj s t.
  destruct (bases_has m0 m1 b c b' c' a a' H0 H1 NJ i j Hi Hj) as (S0 & S1 & S2 & S3). fold B s t in S0, S1, S2, S3.
  unfold side_flux, cross. split; [|split; [|split]]; do 2 eexists; (split; [eassumption|]); split; field; exact NJ.
Qed.
Print Assumptions C75_flux_partial.

(** The sign: the flux of the vectors of the first side across that side is not 1 - t, for any affine map. *)
Theorem C75_sign_refuted : forall m0 m1 a b c a' b' c', (2 <= m0)%Z -> (2 <= m1)%Z -> b * c' - b' * c <> 0 ->
  let B := face_bases (values m0 m1 (bilin a b c 0)) (values m0 m1 (bilin a' b' c' 0)) in
  forall i j, (0 <= i < m0 - 1)%Z -> (0 <= j < m1 - 1)%Z -> ~ side_flux B 0 i j b b' c c' (1 - centre m1 j) 0.
Proof.
  intros m0 m1 a b c a' b' c' H0 H1 NJ B i j Hi Hj (wx & wy & Sh & E & _).
  destruct (C75_flux_partial m0 m1 a b c a' b' c' H0 H1 NJ i j Hi Hj) as ((wx' & wy' & Sh' & E' & _) & _).
  destruct (shown_fun _ _ _ _ _ _ _ Sh Sh') as [<- <-].
  assert (L : centre m1 j < 1).
  { unfold centre. assert (P : 0 < IZR (m1 - 1)) by (apply IZR_lt; lia). apply Rmult_lt_reg_r with (IZR (m1 - 1)); [exact P|].
    unfold Rdiv. rewrite Rmult_assoc, Rinv_l by lra. assert (IZR (j + 1) <= IZR (m1 - 1)) by (apply IZR_le; lia). rewrite plus_IZR in *. lra. }
  lra.
Qed.
Print Assumptions C75_sign_refuted.

Example C74_C75_nonvacuous : let B := face_bases (values 3 3 (bilin 0 2 1 0)) (values 3 3 (bilin 0 0 3 0)) in
  side_flux B 3 1 0 2 0 1 3 0 (3 / 4) /\ side_flux B 0 1 0 2 0 1 3 (- (3 / 4)) 0 /\
  is_at (dydeta (face_derivs (values 3 3 (bilin 0 2 1 0)) (values 3 3 (bilin 0 0 3 0)))) 1 0 3.
Proof.
  destruct (C75_flux_partial 3 3 0 2 1 0 0 3 ltac:(lia) ltac:(lia) ltac:(lra) 1 0 ltac:(lia) ltac:(lia)) as (F0 & _ & _ & F3).
  destruct (C74_derivs_partial 3 3 0 2 1 0 0 0 3 0 1 0 ltac:(lia) ltac:(lia) ltac:(lia) ltac:(lia)) as (_ & _ & _ & E).
  unfold centre in *. change (3 - 1)%Z with 2%Z in *.
  replace ((1 + / 2) / 2) with (3 / 4) in * by lra. replace (1 - (0 + / 2) / 2) with (3 / 4) in * by lra.
  split; [exact F3|split; [exact F0|]]. apply proj2 in E. specialize (E eq_refl).
  replace (bilin_dt 0 0 3 0 (3 / 4) ((0 + / 2) / 2)) with 3 in E by (unfold bilin_dt; lra). exact E.
Qed.
