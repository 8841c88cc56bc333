(** Rectilinear grids: pairs of cells, areas and tilings. *)
From Coq Require Import ZArith List Bool Reals Lra Lia Classical Psatz.
From Coquelicot Require Import Coquelicot.
From Verif Require Import Base S_Geometry S_Quad S_Area S_Overlap S_ConserveGrid S_Rectilinear L_Polygon L_Hull L_Area L_AreaPolygon L_Corners.
Import ListNotations.
Open Scope R_scope.

Definition box (x0 x1 y0 y1 : R) : list point := [(x0, y0); (x1, y0); (x1, y1); (x0, y1)].
Definition in_box (x0 x1 y0 y1 : R) (p : point) : Prop := x0 <= fst p <= x1 /\ y0 <= snd p <= y1.

Lemma box_near : forall tol x0 x1 y0 y1 p, 0 <= tol -> x0 <= x1 -> y0 <= y1 -> combination tol (box x0 x1 y0 y1) p ->
  x0 - 2 * tol * (x1 - x0) <= fst p <= x1 + 2 * tol * (x1 - x0) /\ y0 - 2 * tol * (y1 - y0) <= snd p <= y1 + 2 * tol * (y1 - y0).
Proof.
  intros tol x0 x1 y0 y1 p HT HX HY (w & L & F & S & EX & EY).
  destruct w as [|a [|b [|c [|d [|e w]]]]]; try discriminate L. cbn in S, EX, EY.
  inversion F as [|? ? Fa F1]; subst. inversion F1 as [|? ? Fb F2]; subst. inversion F2 as [|? ? Fc F3]; subst. inversion F3 as [|? ? Fd _]; subst.
  replace a with (1 - b - c - d) in * by lra. rewrite EX, EY.
  assert (P1 := Rmult_le_compat_r (x1 - x0) (- (2 * tol)) (b + c) ltac:(lra) ltac:(lra)).
  assert (P2 := Rmult_le_compat_r (x1 - x0) (- (2 * tol)) (1 - b - c) ltac:(lra) ltac:(lra)).
  assert (P3 := Rmult_le_compat_r (y1 - y0) (- (2 * tol)) (c + d) ltac:(lra) ltac:(lra)).
  assert (P4 := Rmult_le_compat_r (y1 - y0) (- (2 * tol)) (1 - c - d) ltac:(lra) ltac:(lra)).
  lra.
Qed.

Lemma box_hull : forall x0 x1 y0 y1 p, x0 < x1 -> y0 < y1 -> in_hull (box x0 x1 y0 y1) p <-> in_box x0 x1 y0 y1 p.
Proof.
  intros x0 x1 y0 y1 [x y] HX HY. split.
  - intros H. apply box_near in H; try lra. unfold in_box. lra.
  - intros [H1 H2]. cbn [fst snd] in *. set (s := (x - x0) / (x1 - x0)). set (t := (y - y0) / (y1 - y0)).
    assert (Es : x = x0 + s * (x1 - x0)) by (unfold s; field; lra). assert (Et : y = y0 + t * (y1 - y0)) by (unfold t; field; lra).
    assert (Hs : 0 <= s <= 1) by nra. assert (Ht : 0 <= t <= 1) by nra.
    exists [(1 - s) * (1 - t); s * (1 - t); s * t; (1 - s) * t]. split; [reflexivity|]. split.
    + repeat (apply List.Forall_cons; [rewrite Ropp_0; apply Rmult_le_pos; lra|]). apply List.Forall_nil.
    + cbn. rewrite Es, Et. clear. repeat split; ring.
Qed.

Lemma box_flat0 : forall x0 x1 y0 y1, x1 < x0 \/ y1 < y0 -> has_area (in_box x0 x1 y0 y1) 0.
Proof.
  intros. exists [], (fun _ => 0), 0, 0. split; [lra|]. split; [intros p [? ?]; lra|]. split.
  - intros x. right. left. split; auto. intros y [? ?]. cbn in *. lra.
  - apply (is_RInt_point (V := R_NormedModule)).
Qed.

Lemma box_area : forall x0 x1 y0 y1, x0 <= x1 -> y0 <= y1 -> has_area (in_box x0 x1 y0 y1) ((x1 - x0) * (y1 - y0)).
Proof.
  intros x0 x1 y0 y1 HX HY. exists [], (fun x => if Rle_dec x0 x then if Rle_dec x x1 then y1 - y0 else 0 else 0), x0, x1.
  split; auto. split; [intros p [? ?]; auto|]. split.
  - intros x. right. destruct (Rle_dec x0 x); [destruct (Rle_dec x x1)|].
    + right. exists y0, y1. split; auto. split; auto. intros y. unfold in_box. cbn. lra.
    + left. split; auto. intros y [? ?]. cbn in *. lra.
    + left. split; auto. intros y [? ?]. cbn in *. lra.
  - apply (is_RInt_ext (V := R_NormedModule) (fun _ => y1 - y0)).
    + intros x [L1 L2]. rewrite Rmin_left in L1 by lra. rewrite Rmax_right in L2 by lra. destruct (Rle_dec x0 x); [|lra]. destruct (Rle_dec x x1); lra.
    + apply (is_RInt_const (V := R_NormedModule)).
Qed.

Lemma box_meet : forall x0 x1 y0 y1 u0 u1 v0 v1 p, x0 < x1 -> y0 < y1 -> u0 < u1 -> v0 < v1 ->
  overlap (box x0 x1 y0 y1) (box u0 u1 v0 v1) p <-> in_box (Rmax x0 u0) (Rmin x1 u1) (Rmax y0 v0) (Rmin y1 v1) p.
Proof.
  intros. unfold overlap. rewrite !box_hull by auto. unfold in_box.
  split.
  - intros [[[? ?] [? ?]] [[? ?] [? ?]]]. repeat split; (apply Rmax_lub || apply Rmin_glb); auto.
  - intros [[A B] [C D]]. assert (K := Rmax_l x0 u0). assert (K1 := Rmax_r x0 u0). assert (K2 := Rmax_l y0 v0). assert (K3 := Rmax_r y0 v0).
    assert (K4 := Rmin_l x1 u1). assert (K5 := Rmin_r x1 u1). assert (K6 := Rmin_l y1 v1). assert (K7 := Rmin_r y1 v1). lra.
Qed.

Lemma meet_area : forall x0 x1 y0 y1 u0 u1 v0 v1, x0 < x1 -> y0 < y1 -> u0 < u1 -> v0 < v1 ->
  has_area (overlap (box x0 x1 y0 y1) (box u0 u1 v0 v1)) (common x0 x1 u0 u1 * common y0 y1 v0 v1).
Proof.
  intros x0 x1 y0 y1 u0 u1 v0 v1 H1 H2 H3 H4. apply (area_ext (in_box (Rmax x0 u0) (Rmin x1 u1) (Rmax y0 v0) (Rmin y1 v1))).
  { intros p. symmetry. apply box_meet; auto. }
  unfold common. destruct (Rle_dec (Rmax x0 u0) (Rmin x1 u1)) as [X|X]; [destruct (Rle_dec (Rmax y0 v0) (Rmin y1 v1)) as [Y|Y]|].
  - rewrite (Rmax_right 0 (Rmin x1 u1 - _)), (Rmax_right 0 (Rmin y1 v1 - _)) by lra. apply box_area; auto.
  - rewrite (Rmax_left 0 (Rmin y1 v1 - _)) by lra. rewrite Rmult_0_r. apply box_flat0. lra.
  - rewrite (Rmax_left 0 (Rmin x1 u1 - _)) by lra. rewrite Rmult_0_l. apply box_flat0. lra.
Qed.

(** ** Regular pairs *)
Definition dlt : R := / 10 ^ 6.
Definition far (a b : R) : Prop := a = b \/ dlt < Rabs (a - b).

Lemma far_cases : forall a b, far a b -> a = b \/ dlt < a - b \/ dlt < b - a.
Proof. intros a b [E|H]; auto. right. destruct (Rle_dec 0 (a - b)); [rewrite Rabs_right in H|rewrite Rabs_left in H]; lra. Qed.

Lemma param : forall a d s u, far a u -> far (a + d) u -> (dlt < d <= 10 ^ 5 \/ dlt < - d <= 10 ^ 5) -> a + s * d = u -> 0 < s < 1 -> / 10 ^ 12 < s < 1 - / 10 ^ 12.
Proof.
  intros a d s u F1 F2 D E Hs. unfold dlt in *. apply far_cases in F1. apply far_cases in F2. unfold dlt in *. subst u.
  destruct D as [D|D].
  - assert (0 < s * d) by (apply Rmult_lt_0_compat; lra). assert (0 < (1 - s) * d) by (apply Rmult_lt_0_compat; lra).
    assert (S1 : / 10 ^ 6 < s * d) by lra. assert (S2 : / 10 ^ 6 < (1 - s) * d) by lra.
    split.
    + apply (Rmult_lt_reg_r d); [lra|]. nra.
    + apply Rplus_lt_reg_l with (- s). apply (Rmult_lt_reg_r d); [lra|]. nra.
  - assert (0 < s * - d) by (apply Rmult_lt_0_compat; lra). assert (0 < (1 - s) * - d) by (apply Rmult_lt_0_compat; lra).
    assert (S1 : / 10 ^ 6 < s * - d) by lra. assert (S2 : / 10 ^ 6 < (1 - s) * - d) by lra.
    split.
    + apply (Rmult_lt_reg_r (- d)); [lra|]. nra.
    + apply Rplus_lt_reg_l with (- s). apply (Rmult_lt_reg_r (- d)); [lra|]. nra.
Qed.

Lemma far_sym : forall a b, far a b -> far b a.
Proof. intros a b [->|H]; [left; auto|right]. rewrite Rabs_minus_sym. auto. Qed.

Lemma box_corner : forall x0 x1 y0 y1 (K : point -> Prop), (forall p, K p <-> in_box x0 x1 y0 y1 p) -> forall p, corner K p ->
  (fst p = x0 \/ fst p = x1) /\ (snd p = y0 \/ snd p = y1) /\ x0 <= x1 /\ y0 <= y1.
Proof.
  intros x0 x1 y0 y1 K HK [x y] [Kp C]. apply HK in Kp. destruct Kp as [HX HY]. cbn [fst snd] in *.
  assert (X : forall h k, K (x - h, y - k) -> K (x + h, y + k) -> h = 0 /\ k = 0).
  { intros h k A B. assert (E := C _ _ (1 / 2) A B ltac:(lra)). unfold on_seg in E. cbn [fst snd] in E.
    assert (E2 := E ltac:(f_equal; lra)). injection E2 as E3 E4. lra. }
  split; [|split; [|lra]].
  - destruct (Req_dec x x0); auto. destruct (Req_dec x x1); auto. exfalso.
    set (h := Rmin (x - x0) (x1 - x)). assert (HH : 0 < h) by (apply Rmin_glb_lt; lra).
    assert (M1 := Rmin_l (x - x0) (x1 - x)). assert (M2 := Rmin_r (x - x0) (x1 - x)). fold h in M1, M2.
    destruct (X h 0); [apply HK; split; cbn; lra|apply HK; split; cbn; lra|lra].
  - destruct (Req_dec y y0); auto. destruct (Req_dec y y1); auto. exfalso.
    set (h := Rmin (y - y0) (y1 - y)). assert (HH : 0 < h) by (apply Rmin_glb_lt; lra).
    assert (M1 := Rmin_l (y - y0) (y1 - y)). assert (M2 := Rmin_r (y - y0) (y1 - y)). fold h in M1, M2.
    destruct (X 0 h); [apply HK; split; cbn; lra|apply HK; split; cbn; lra|lra].
Qed.

Section Boxes.
Variables x0 x1 y0 y1 u0 u1 v0 v1 : R.
Hypothesis HX : dlt < x1 - x0 <= 10 ^ 5.
Hypothesis HY : dlt < y1 - y0 <= 10 ^ 5.
Hypothesis HU : dlt < u1 - u0 <= 10 ^ 5.
Hypothesis HV : dlt < v1 - v0 <= 10 ^ 5.
Hypothesis X0 : far x0 u0. Hypothesis X1 : far x0 u1. Hypothesis X2 : far x1 u0. Hypothesis X3 : far x1 u1.
Hypothesis Y0 : far y0 v0. Hypothesis Y1 : far y0 v1. Hypothesis Y2 : far y1 v0. Hypothesis Y3 : far y1 v1.
Hypothesis TX : x1 = u0 \/ x0 = u1 -> ~ (y0 < v0 /\ v1 < y1).
Hypothesis TY : y1 = v0 \/ y0 = v1 -> ~ (x0 < u0 /\ u1 < x1).

Let W := Rmin x1 u1 - Rmax x0 u0.
Let H := Rmin y1 v1 - Rmax y0 v0.

Lemma wide : 0 <= W -> (W = 0 /\ (x1 = u0 \/ x0 = u1)) \/ dlt < W.
Proof.
  assert (dlt = / 10 ^ 6) by reflexivity.
  intros P. unfold W in *. apply far_cases in X1. apply far_cases in X2.
  unfold Rmin, Rmax in *. destruct (Rle_dec x1 u1), (Rle_dec x0 u0); lra.
Qed.
Lemma high : 0 <= H -> (H = 0 /\ (y1 = v0 \/ y0 = v1)) \/ dlt < H.
Proof.
  assert (dlt = / 10 ^ 6) by reflexivity.
  intros P. unfold H in *. apply far_cases in Y1. apply far_cases in Y2.
  unfold Rmin, Rmax in *. destruct (Rle_dec y1 v1), (Rle_dec y0 v0); lra.
Qed.

Let K := overlap (box x0 x1 y0 y1) (box u0 u1 v0 v1).
Lemma K_box : forall p, K p <-> in_box (Rmax x0 u0) (Rmin x1 u1) (Rmax y0 v0) (Rmin y1 v1) p.
Proof. intros p. unfold K. assert (0 < dlt) by (unfold dlt; lra). apply box_meet; lra. Qed.

Lemma box_sides : forall a b c d, convex_nodes (box a b c d) <-> (b - a) * (d - c) <> 0.
Proof.
  intros a b c d. cbn. unfold convex4, cr. cbn [fst snd]. split; [intros [X|X] E; lra|].
  intros E. destruct (Rdichotomy _ _ E); [right|left]; lra.
Qed.

Lemma in_side : forall e a b c d, In e (sides4 (box a b c d)) ->
  (exists y, (y = c \/ y = d) /\ (e = ((a, y), (b, y)) \/ e = ((b, y), (a, y)))) \/
  (exists x, (x = a \/ x = b) /\ (e = ((x, c), (x, d)) \/ e = ((x, d), (x, c)))).
Proof.
  intros e a b c d I. cbn in I. destruct I as [<-|[<-|[<-|[<-|[]]]]].
  - left. exists c. auto.
  - right. exists b. auto.
  - left. exists d. auto.
  - right. exists a. auto.
Qed.

Lemma crossing : forall a b y u c d s t x x' z z', (x = a /\ x' = b \/ x = b /\ x' = a) -> (z = c /\ z' = d \/ z = d /\ z' = c) ->
  dlt < b - a <= 10 ^ 5 -> dlt < d - c <= 10 ^ 5 -> far a u -> far b u -> far c y -> far d y ->
  on_seg (x, y) (x', y) s = on_seg (u, z) (u, z') t -> 0 < s < 1 -> 0 < t < 1 -> / 10 ^ 12 < s < 1 - / 10 ^ 12 /\ / 10 ^ 12 < t < 1 - / 10 ^ 12.
Proof.
  intros a b y u c d s t x x' z z' EX EZ D1 D2 F1 F2 F3 F4 E Hs Ht. unfold on_seg in E. cbn [fst snd] in E. injection E as E1 E2.
  split.
  - apply (param x (x' - x) s u); auto; try lra.
    + destruct EX as [[-> ->]|[-> ->]]; auto.
    + replace (x + (x' - x)) with x' by ring. destruct EX as [[-> ->]|[-> ->]]; auto.
  - apply (param z (z' - z) t y); auto; try lra.
    + destruct EZ as [[-> ->]|[-> ->]]; auto.
    + replace (z + (z' - z)) with z' by ring. destruct EZ as [[-> ->]|[-> ->]]; auto.
Qed.

Theorem box_pair : regular_pair (/ 10 ^ 12) (/ 10 ^ 12) (box x0 x1 y0 y1) (box u0 u1 v0 v1).
Proof.
  assert (DP : dlt = / 10 ^ 6) by reflexivity.
  assert (CORN := box_corner _ _ _ _ K K_box). assert (WI := wide). assert (HI := high).
  assert (OUT : forall a b c, far a c -> far b c -> dlt < b - a <= 10 ^ 5 -> a - 2 * / 10 ^ 12 * (b - a) <= c <= b + 2 * / 10 ^ 12 * (b - a) -> a <= c <= b).
  { intros a b c A B D E. apply far_cases in A. apply far_cases in B. lra. }
  constructor.
  - apply box_sides. apply Rgt_not_eq. apply Rmult_lt_0_compat; lra.
  - apply box_sides. apply Rgt_not_eq. apply Rmult_lt_0_compat; lra.
  - intros p I C. apply box_near in C; try lra. apply box_hull; try lra.
    cbn in I. destruct I as [<-|[<-|[<-|[<-|[]]]]]; cbn [fst snd] in C; split; cbn [fst snd]; apply OUT; auto using far_sym; apply C.
  - intros p I C. apply box_near in C; try lra. apply box_hull; try lra.
    cbn in I. destruct I as [<-|[<-|[<-|[<-|[]]]]]; cbn [fst snd] in C; split; cbn [fst snd]; apply OUT; auto using far_sym; apply C.
  - intros e f He Hf s t E T Hs Ht. apply in_side in He. apply in_side in Hf.
    destruct He as [(y & Ey & Ee)|(x & Ex & Ee)], Hf as [(v & Ev & Ef)|(u & Eu & Ef)].
    + exfalso. apply T. unfold turn. destruct Ee as [-> | ->], Ef as [-> | ->]; cbn [fst snd]; ring.
    + assert (FY : far v0 y /\ far v1 y) by (destruct Ey as [-> | ->]; auto using far_sym).
      assert (FX : far x0 u /\ far x1 u) by (destruct Eu as [-> | ->]; auto using far_sym).
      assert (EX : exists a b, (a = x0 /\ b = x1 \/ a = x1 /\ b = x0) /\ e = ((a, y), (b, y))) by (destruct Ee as [-> | ->]; eauto 6).
      assert (EZ : exists c d, (c = v0 /\ d = v1 \/ c = v1 /\ d = v0) /\ f = ((u, c), (u, d))) by (destruct Ef as [-> | ->]; eauto 6).
      destruct EX as (a & b & EX & ->). destruct EZ as (c & d & EZ & ->). cbn [fst snd] in E.
      apply (crossing x0 x1 y u v0 v1 s t a b c d); auto; tauto.
    + assert (FY : far y0 v /\ far y1 v) by (destruct Ev as [-> | ->]; auto using far_sym).
      assert (FX : far u0 x /\ far u1 x) by (destruct Ex as [-> | ->]; auto using far_sym).
      assert (EX : exists a b, (a = u0 /\ b = u1 \/ a = u1 /\ b = u0) /\ f = ((a, v), (b, v))) by (destruct Ef as [-> | ->]; eauto 6).
      assert (EZ : exists c d, (c = y0 /\ d = y1 \/ c = y1 /\ d = y0) /\ e = ((x, c), (x, d))) by (destruct Ee as [-> | ->]; eauto 6).
      destruct EX as (a & b & EX & ->). destruct EZ as (c & d & EZ & ->). cbn [fst snd] in E. symmetry in E.
      apply and_comm. apply (crossing u0 u1 v x y0 y1 t s a b c d); auto; tauto.
    + exfalso. apply T. unfold turn. destruct Ee as [-> | ->], Ef as [-> | ->]; cbn [fst snd]; ring.
  - intros [px py] [qx qy] Cp Cq. destruct (CORN _ Cp) as (Px & Py & LX & LY). destruct (CORN _ Cq) as (Qx & Qy & _ & _). cbn [fst snd] in *.
    specialize (WI ltac:(unfold W; lra)). specialize (HI ltac:(unfold H; lra)).
    destruct (Req_dec px qx) as [E|NE]; [destruct (Req_dec py qy) as [E'|NE']; [left; congruence|]|].
    + right. unfold sqdist. cbn [fst snd]. subst. assert (dlt < H) by (unfold H in *; lra).
      assert (Q : (qy - py) ^ 2 = H ^ 2) by (unfold H; destruct Py, Qy; subst; try lra; ring). rewrite Q. replace (/ 10 ^ 12) with (dlt * dlt) by (unfold dlt; lra).
      assert (Z := Rmult_le_0_lt_compat dlt H dlt H ltac:(lra) ltac:(lra) ltac:(lra) ltac:(lra)). assert (Z2 := pow2_ge_0 (qx - qx)). lra.
    + right. unfold sqdist. cbn [fst snd]. assert (dlt < W) by (unfold W in *; lra).
      assert (Q : (qx - px) ^ 2 = W ^ 2) by (unfold W; destruct Px, Qx; subst; try lra; ring). rewrite Q. replace (/ 10 ^ 12) with (dlt * dlt) by (unfold dlt; lra).
      assert (Z := Rmult_le_0_lt_compat dlt W dlt W ltac:(lra) ltac:(lra) ltac:(lra) ltac:(lra)). assert (Z2 := pow2_ge_0 (qy - py)). lra.
  - intros [px py] [qx qy] [rx ry] Cp Cq Cr. destruct (CORN _ Cp) as (Px & Py & LX & LY). destruct (CORN _ Cq) as (Qx & Qy & _ & _). destruct (CORN _ Cr) as (Rx & Ry & _ & _). cbn [fst snd] in *.
    specialize (WI ltac:(unfold W; lra)). specialize (HI ltac:(unfold H; lra)).
    assert (V : cr (px, py) (qx, qy) (rx, ry) = 0 \/ cr (px, py) (qx, qy) (rx, ry) = W * H \/ cr (px, py) (qx, qy) (rx, ry) = - (W * H)).
    { unfold cr, W, H. cbn [fst snd]. destruct Px, Py, Qx, Qy, Rx, Ry; subst;
      first [left; ring | right; left; ring | right; right; ring]. }
    destruct WI as [[WI _]|WI]; [left; rewrite WI in V; lra|]. destruct HI as [[HI _]|HI]; [left; rewrite HI in V; lra|].
    replace (/ 10 ^ 12) with (dlt * dlt) by (unfold dlt; lra).
    assert (Z := Rmult_le_0_lt_compat dlt W dlt H ltac:(lra) ltac:(lra) ltac:(lra) ltac:(lra)). assert (0 < dlt * dlt) by (apply Rmult_lt_0_compat; lra).
    destruct V as [V|[V|V]]; [left; auto|right; rewrite V, Rabs_right by lra; auto|right; rewrite V, Rabs_left by lra; lra].
  - intros FL [px py] [qx qy] Cp Cq NE Ip Iq. destruct (CORN _ Cp) as (Px & Py & LX & LY). destruct (CORN _ Cq) as (Qx & Qy & _ & _). cbn [fst snd] in *.
    specialize (WI ltac:(unfold W; lra)). specialize (HI ltac:(unfold H; lra)).
    set (a := Rmax x0 u0) in *. set (b := Rmin x1 u1) in *. set (c := Rmax y0 v0) in *. set (d := Rmin y1 v1) in *.
    assert (WH : W = 0 \/ H = 0).
    { assert (Z : cr (a, c) (b, c) (a, d) = 0) by (apply FL; apply K_box; fold a b c d; split; cbn [fst snd]; lra).
      unfold cr in Z. cbn [fst snd] in Z. unfold W, H. fold a b c d. apply Rmult_integral. lra. }
    assert (M1 := Rmax_l x0 u0). assert (M2 := Rmax_r x0 u0). assert (M3 := Rmax_l y0 v0). assert (M4 := Rmax_r y0 v0).
    assert (M5 := Rmin_l x1 u1). assert (M6 := Rmin_r x1 u1). assert (M7 := Rmin_l y1 v1). assert (M8 := Rmin_r y1 v1).
    fold a in M1, M2. fold c in M3, M4. fold b in M5, M6. fold d in M7, M8.
    assert (NEc : px <> qx \/ py <> qy) by (destruct (Req_dec px qx); [right; congruence|auto]).
    assert (IW : forall z w, In (z, w) (box u0 u1 v0 v1) -> (z = u0 \/ z = u1) /\ (w = v0 \/ w = v1)).
    { intros z w I. cbn in I. destruct I as [I|[I|[I|[I|[]]]]]; injection I as <- <-; auto. }
    assert (IV : forall z w, (z = x0 \/ z = x1) -> (w = y0 \/ w = y1) -> In (z, w) (box x0 x1 y0 y1)).
    { intros z w [-> | ->] [-> | ->]; cbn; auto. }
    apply IW in Ip. apply IW in Iq. destruct Ip as [Ip1 Ip2]. destruct Iq as [Iq1 Iq2].
    destruct WH as [WH|WH].
    + destruct WI as [[_ TT]|WI]; [|exfalso; clear - WI WH DP; lra]. unfold W in WH. fold a b in WH. assert (AB : a = b) by (clear - WH; lra).
      assert (PX : px = x0 \/ px = x1).
      { assert (EA : px = a) by (clear - Px AB; lra). clear - EA AB TT M1 M2 M3 M4 M5 M6 M7 M8 HX HU HY HV DP. destruct TT; [right|left]; lra. }
      assert (QX : qx = x0 \/ qx = x1).
      { assert (EA : qx = a) by (clear - Qx AB; lra). clear - EA AB TT M1 M2 M3 M4 M5 M6 M7 M8 HX HU HY HV DP. destruct TT; [right|left]; lra. }
      assert (NY : py <> qy) by (clear - NEc Px Qx AB; lra).
      assert (VV : py = v0 /\ qy = v1 \/ py = v1 /\ qy = v0) by (clear - NY Ip2 Iq2; lra).
      assert (YY : y0 <= v0 /\ v1 <= y1) by (clear - VV Py Qy LY M1 M2 M3 M4 M5 M6 M7 M8; lra).
      destruct (Req_dec y0 v0) as [E|N0]; [|destruct (Req_dec y1 v1) as [E|N1]].
      * destruct VV as [[VV _]|[_ VV]]; [left|right]; apply IV; auto; left; congruence.
      * destruct VV as [[_ VV]|[VV _]]; [right|left]; apply IV; auto; right; congruence.
      * exfalso. apply (TX TT). clear - YY N0 N1. lra.
    + destruct HI as [[_ TT]|HI]; [|exfalso; clear - HI WH DP; lra]. unfold H in WH. fold c d in WH. assert (AB : c = d) by (clear - WH; lra).
      assert (PX : py = y0 \/ py = y1).
      { assert (EA : py = c) by (clear - Py AB; lra). clear - EA AB TT M1 M2 M3 M4 M5 M6 M7 M8 HX HU HY HV DP. destruct TT; [right|left]; lra. }
      assert (QX : qy = y0 \/ qy = y1).
      { assert (EA : qy = c) by (clear - Qy AB; lra). clear - EA AB TT M1 M2 M3 M4 M5 M6 M7 M8 HX HU HY HV DP. destruct TT; [right|left]; lra. }
      assert (NY : px <> qx) by (clear - NEc Py Qy AB; lra).
      assert (VV : px = u0 /\ qx = u1 \/ px = u1 /\ qx = u0) by (clear - NY Ip1 Iq1; lra).
      assert (YY : x0 <= u0 /\ u1 <= x1) by (clear - VV Px Qx LX M1 M2 M3 M4 M5 M6 M7 M8; lra).
      destruct (Req_dec x0 u0) as [E|N0]; [|destruct (Req_dec x1 u1) as [E|N1]].
      * destruct VV as [[VV _]|[_ VV]]; [left|right]; apply IV; auto; left; congruence.
      * destruct VV as [[_ VV]|[VV _]]; [right|left]; apply IV; auto; right; congruence.
      * exfalso. apply (TY TT). clear - YY N0 N1. lra.
Qed.
End Boxes.

Lemma box_separated : forall x0 x1 y0 y1, dlt < x1 - x0 -> dlt < y1 - y0 -> separated (/ 10 ^ 12) (box x0 x1 y0 y1).
Proof.
  intros x0 x1 y0 y1 HX HY. assert (DP : dlt = / 10 ^ 6) by reflexivity. assert (DD : dlt * dlt = / 10 ^ 12) by (unfold dlt; lra).
  assert (Z1 := Rmult_le_0_lt_compat dlt (x1 - x0) dlt (x1 - x0) ltac:(lra) ltac:(lra) ltac:(lra) ltac:(lra)).
  assert (Z2 := Rmult_le_0_lt_compat dlt (y1 - y0) dlt (y1 - y0) ltac:(lra) ltac:(lra) ltac:(lra) ltac:(lra)).
  assert (Z3 := Rmult_le_0_lt_compat dlt (x1 - x0) dlt (y1 - y0) ltac:(lra) ltac:(lra) ltac:(lra) ltac:(lra)).
  split.
  - intros a b Ia Ib. cbn in Ia, Ib. destruct Ia as [<-|[<-|[<-|[<-|[]]]]], Ib as [<-|[<-|[<-|[<-|[]]]]]; first [left; reflexivity|right; unfold sqdist; cbn [fst snd]; lra].
  - intros a b c Ia Ib Ic.
    assert (V : cr a b c = 0 \/ cr a b c = (x1 - x0) * (y1 - y0) \/ cr a b c = - ((x1 - x0) * (y1 - y0))).
    { cbn in Ia, Ib, Ic. destruct Ia as [<-|[<-|[<-|[<-|[]]]]], Ib as [<-|[<-|[<-|[<-|[]]]]], Ic as [<-|[<-|[<-|[<-|[]]]]]; unfold cr; cbn [fst snd];
      first [left; ring | right; left; ring | right; right; ring]. }
    assert (0 < dlt * dlt) by (apply Rmult_lt_0_compat; lra).
    destruct V as [V|[V|V]]; [left; auto|right; rewrite V, Rabs_right by lra; lra|right; rewrite V, Rabs_left by lra; lra].
Qed.

(** ** Grids *)
Lemma rect_cell : forall n1 X Y c, grid_cell n1 (fun i _ => X i) (fun _ j => Y j) c =
  box (X (c / (n1 - 1))%Z) (X (c / (n1 - 1) + 1)%Z) (Y (c mod (n1 - 1))%Z) (Y (c mod (n1 - 1) + 1)%Z).
Proof. reflexivity. Qed.

Lemma interval_of : forall n X x, (2 <= n)%Z -> X 0%Z <= x <= X (n - 1)%Z -> exists i, (0 <= i < n - 1)%Z /\ X i <= x <= X (i + 1)%Z.
Proof.
  intros n X x Hn H. assert (E : exists m, n = Z.of_nat m) by (exists (Z.to_nat n); lia). destruct E as (m & ->). revert H. induction m as [|m IH]; [lia|]. intros H.
  destruct (Z_lt_le_dec (Z.of_nat m) 2) as [L|L].
  - exists 0%Z. replace (Z.of_nat (S m)) with 2%Z in * by lia. split; [lia|]. exact H.
  - destruct (Rle_dec x (X (Z.of_nat m - 1)%Z)) as [L1|L1].
    + destruct (IH L) as (i & Hi & Hx); [lra|]. exists i. split; [lia|auto].
    + exists (Z.of_nat m - 1)%Z. split; [lia|]. replace (Z.of_nat m - 1 + 1)%Z with (Z.of_nat (S m) - 1)%Z by lia. lra.
Qed.

Lemma lines_le : forall d D n X, 0 < d -> lines d D n X -> forall i j, (0 <= i <= j)%Z -> (j < n)%Z -> X i <= X j.
Proof.
  intros d D n X P L i j H1 H2. assert (E : exists m, (j = i + Z.of_nat m)%Z) by (exists (Z.to_nat (j - i)); lia). destruct E as (m & ->). revert H2.
  induction m as [|m IH]; intros H2; [replace (i + Z.of_nat 0)%Z with i by lia; lra|].
  assert (A := IH ltac:(lia) ltac:(lia)). assert (B := L (i + Z.of_nat m)%Z ltac:(lia)). replace (i + Z.of_nat (S m))%Z with (i + Z.of_nat m + 1)%Z by lia. lra.
Qed.

Lemma cell_split : forall n0 n1 c, (2 <= n0)%Z -> (2 <= n1)%Z -> (0 <= c < (n0 - 1) * (n1 - 1))%Z ->
  (0 <= c / (n1 - 1) < n0 - 1)%Z /\ (0 <= c mod (n1 - 1) < n1 - 1)%Z.
Proof.
  intros n0 n1 c H0 H1 Hc. assert (Q := Z.mod_pos_bound c (n1 - 1) ltac:(lia)). split; auto.
  split; [apply Z.div_pos; lia|]. apply Z.div_lt_upper_bound; lia.
Qed.

(** A grid covers the boxes between its outer lines. *)
Lemma rect_tiles_any : forall lo hi n0 n1 X Y a b c d, 0 < lo -> (2 <= n0)%Z -> (2 <= n1)%Z -> lines lo hi n0 X -> lines lo hi n1 Y -> a < b -> c < d ->
  X 0%Z <= a -> b <= X (n0 - 1)%Z -> Y 0%Z <= c -> d <= Y (n1 - 1)%Z ->
  tiles ((n0 - 1) * (n1 - 1)) (grid_cell n1 (fun i _ => X i) (fun _ j => Y j)) (box a b c d).
Proof.
  intros lo hi n0 n1 X Y a b c d DP H0 H1 LX LY AB CD A1 A2 A3 A4. split.
  - intros [x y] I. apply box_hull in I; auto. destruct I as [IX IY]. cbn [fst snd] in *.
    destruct (interval_of n0 X x H0 ltac:(lra)) as (i & Hi & Ei). destruct (interval_of n1 Y y H1 ltac:(lra)) as (j & Hj & Ej).
    exists (i * (n1 - 1) + j)%Z. split; [nia|]. rewrite rect_cell.
    replace ((i * (n1 - 1) + j) / (n1 - 1))%Z with i by (apply (Z.div_unique_pos _ _ i j); lia).
    replace ((i * (n1 - 1) + j) mod (n1 - 1))%Z with j by (apply (Z.mod_unique_pos _ _ i j); lia).
    assert (B1 := LX i Hi). assert (B2 := LY j Hj). apply box_hull; try lra. split; auto.
  - intros k k' Hk Hk' NE. destruct (cell_split n0 n1 k H0 H1 Hk) as [S1 S2]. destruct (cell_split n0 n1 k' H0 H1 Hk') as [S3 S4].
    rewrite !rect_cell. set (i := (k / (n1 - 1))%Z) in *. set (j := (k mod (n1 - 1))%Z) in *. set (i' := (k' / (n1 - 1))%Z) in *. set (j' := (k' mod (n1 - 1))%Z) in *.
    assert (B1 := LX i S1). assert (B2 := LY j S2). assert (B3 := LX i' S3). assert (B4 := LY j' S4).
    assert (NN : i <> i' \/ j <> j').
    { destruct (Z.eq_dec i i'); auto. right. intros E. apply NE. rewrite (Z.div_mod k (n1 - 1)), (Z.div_mod k' (n1 - 1)) by lia. fold i j i' j'. congruence. }
    assert (MX := lines_le _ _ _ _ DP LX). assert (MY := lines_le _ _ _ _ DP LY).
    intros p q r P Q R. unfold overlap in P, Q, R. rewrite !box_hull in P, Q, R by lra. unfold in_box in *. unfold cr.
    destruct NN as [NN|NN].
    + assert (E : exists z, fst p = z /\ fst q = z /\ fst r = z).
      { destruct (Z_lt_le_dec i i') as [L|L]; [assert (M := MX (i + 1)%Z i' ltac:(lia) ltac:(lia)); exists (X i')|assert (M := MX (i' + 1)%Z i ltac:(lia) ltac:(lia)); exists (X i)]; lra. }
      destruct E as (z & -> & -> & ->). ring.
    + assert (E : exists z, snd p = z /\ snd q = z /\ snd r = z).
      { destruct (Z_lt_le_dec j j') as [L|L]; [assert (M := MY (j + 1)%Z j' ltac:(lia) ltac:(lia)); exists (Y j')|assert (M := MY (j' + 1)%Z j ltac:(lia) ltac:(lia)); exists (Y j)]; lra. }
      destruct E as (z & -> & -> & ->). ring.
Qed.

Lemma rect_tiles : forall n0 n1 X Y a b c d, (2 <= n0)%Z -> (2 <= n1)%Z -> lines dlt (10 ^ 5) n0 X -> lines dlt (10 ^ 5) n1 Y -> a < b -> c < d ->
  X 0%Z <= a -> b <= X (n0 - 1)%Z -> Y 0%Z <= c -> d <= Y (n1 - 1)%Z ->
  tiles ((n0 - 1) * (n1 - 1)) (grid_cell n1 (fun i _ => X i) (fun _ j => Y j)) (box a b c d).
Proof. intros n0 n1 X Y a b c d H0 H1 LX LY. apply (rect_tiles_any dlt (10 ^ 5)); auto. unfold dlt. lra. Qed.

Lemma rect_pairs : forall d0 d1 X Y e0 e1 U V, (2 <= d0)%Z -> (2 <= d1)%Z -> (2 <= e0)%Z -> (2 <= e1)%Z ->
  lines dlt (10 ^ 5) d0 X -> lines dlt (10 ^ 5) d1 Y -> lines dlt (10 ^ 5) e0 U -> lines dlt (10 ^ 5) e1 V ->
  lines_apart dlt d0 X e0 U -> lines_apart dlt d1 Y e1 V -> common_ok d0 X e0 U d1 Y e1 V -> common_ok d1 Y e1 V d0 X e0 U ->
  forall c k, (0 <= c < (d0 - 1) * (d1 - 1))%Z -> (0 <= k < (e0 - 1) * (e1 - 1))%Z ->
  regular_pair (/ 10 ^ 12) (/ 10 ^ 12) (grid_cell d1 (fun i _ => X i) (fun _ j => Y j) c) (grid_cell e1 (fun i _ => U i) (fun _ j => V j) k).
Proof.
  intros d0 d1 X Y e0 e1 U V D0 D1 E0 E1 LX LY LU LV AX AY CX CY c k Hc Hk. rewrite !rect_cell.
  destruct (cell_split d0 d1 c D0 D1 Hc) as [S1 S2]. destruct (cell_split e0 e1 k E0 E1 Hk) as [S3 S4].
  apply box_pair; auto; try (apply AX; lia); try (apply AY; lia).
  - intros T. apply CX; auto. destruct T as [T|T]; [exists (c / (d1 - 1) + 1)%Z, (k / (e1 - 1))%Z|exists (c / (d1 - 1))%Z, (k / (e1 - 1) + 1)%Z]; repeat split; auto; lia.
  - intros T. apply CY; auto. destruct T as [T|T]; [exists (c mod (d1 - 1) + 1)%Z, (k mod (e1 - 1))%Z|exists (c mod (d1 - 1))%Z, (k mod (e1 - 1) + 1)%Z]; repeat split; auto; lia.
Qed.
