(** A closed line round the hole of a ring of four cells: case for property C76. *)
From Coq Require Import ZArith List Bool Reals Lra Lia.
From Verif Require Import Base Num NumR M_BoxIterator M_LinearSolve M_FindPoint M_Triangulate M_Quad M_QuadLine M_FlowInterp
  S_LinAlg S_Geometry S_Quad S_Grid S_Sort S_Array S_Flow S_FlowTable
  L_LinearSolve L_Hull L_Quad L_QuadLine L_Box2 L_Flow L_FlowFind L_FlowInterp L_FlowGen L_FlowPar L_FlowTrap L_FlowRect P_Flow P_FlowLines.
Import ListNotations.
Open Scope R_scope.

(** The polar grid of 2 x 5 nodes with radii 1 and 3: the angles are the multiples of pi / 2, and the
    last column repeats the first. *)
Definition cx (j : Z) : R := if (j =? 0)%Z then 1 else if (j =? 2)%Z then -1 else if (j =? 4)%Z then 1 else 0.
Definition cy (j : Z) : R := if (j =? 1)%Z then 1 else if (j =? 3)%Z then -1 else 0.
Definition ring_x (i j : Z) : R := (1 + 2 * IZR i) * cx j.
Definition ring_y (i j : Z) : R := (1 + 2 * IZR i) * cy j.
(** A quarter of the flow per cell. *)
Definition ring_psi (i j : Z) : R := IZR j / 4.

Lemma ring_cells : forall i j, is_cell2 2 5 i j -> i = 0%Z /\ (j = 0 \/ j = 1 \/ j = 2 \/ j = 3)%Z.
Proof. intros i j [Hi Hj]. lia. Qed.

(** Coordinates along the directions j and j + 1. *)
Definition ru (j : Z) (p : point) : R := fst p * cx j + snd p * cy j.

Lemma frac_range : forall a b, 0 <= a -> 0 <= b -> 1 <= a + b -> 0 <= b / (a + b) <= 1.
Proof.
  intros a b Ha Hb Hs. split; [apply Rmult_le_pos; [lra|left; apply Rinv_0_lt_compat; lra]|].
  apply Rmult_le_reg_r with (a + b); [lra|]. unfold Rdiv. rewrite Rmult_assoc, Rinv_l by lra. lra.
Qed.

Lemma ctab : cx 0 = 1 /\ cx 1 = 0 /\ cx 2 = -1 /\ cx 3 = 0 /\ cx 4 = 1 /\ cy 0 = 0 /\ cy 1 = 1 /\ cy 2 = 0 /\ cy 3 = -1 /\ cy 4 = 0.
Proof. repeat split; reflexivity. Qed.

Ltac steps := change (0 + 1)%Z with 1%Z in *; change (1 + 1)%Z with 2%Z in *; change (2 + 1)%Z with 3%Z in *; change (3 + 1)%Z with 4%Z in *.
Ltac ringc := steps; unfold ring_x, ring_y in *; 
  destruct ctab as (X0 & X1 & X2 & X3 & X4 & Y0 & Y1 & Y2 & Y3 & Y4);
  rewrite ?X0, ?X1, ?X2, ?X3, ?X4, ?Y0, ?Y1, ?Y2, ?Y3, ?Y4 in *; clear X0 X1 X2 X3 X4 Y0 Y1 Y2 Y3 Y4.

Lemma ring_hull : forall j p, (j = 0 \/ j = 1 \/ j = 2 \/ j = 3)%Z ->
  in_hull (corners ring_x ring_y 0 j) p <-> 0 <= ru j p /\ 0 <= ru (j + 1) p /\ 1 <= ru j p + ru (j + 1) p <= 3.
Proof.
  intros j p Hj. unfold corners. split.
  - intros (w & L & W & S1 & SX & SY). destruct w as [|w0 [|w1 [|w2 [|w3 [|]]]]]; try discriminate L.
    cbn [map wsum fst snd] in *. repeat (apply Forall_cons_iff in W; let H := fresh "W" in destruct W as [H W]).
    unfold ru. rewrite SX, SY. assert (w0 = 1 - w1 - w2 - w3) by lra. subst w0. clear SX SY.
    destruct Hj as [-> | [-> | [-> | ->]]]; ringc; lra.
  - intros (Hu & Hv & Hs).
    set (y := ru (j + 1) p / (ru j p + ru (j + 1) p)). set (x := (ru j p + ru (j + 1) p - 1) / 2).
    assert (Hy : 0 <= y <= 1) by (apply frac_range; lra). assert (Hx : 0 <= x <= 1) by (unfold x; lra).
    assert (Ev : ru (j + 1) p = (1 + 2 * x) * y) by (unfold x, y; field; lra).
    assert (Eu : ru j p = (1 + 2 * x) * (1 - y)) by (unfold x, y; field; lra).
    exists [(1 - x) * (1 - y); x * (1 - y); x * y; (1 - x) * y]. split; [reflexivity|].
    split; [repeat (constructor; [rewrite Ropp_0; apply Rmult_le_pos; lra|]); constructor|].
    cbn [map wsum fst snd]. split; [ring|]. clearbody x y. clear Hu Hv Hs Hx Hy. unfold ru in *.
    destruct Hj as [-> | [-> | [-> | ->]]]; ringc; lra.
Qed.

Lemma ring_trapezoids : trapezoid_cells 2 5 ring_x ring_y.
Proof.
  intros i j HC. destruct (ring_cells i j HC) as [-> Hj]. unfold cr. cbn [fst snd].
  destruct Hj as [-> | [-> | [-> | ->]]]; (split; [|exists 3]); ringc; lra.
Qed.

(** The four corners of the line, 5/4 (+-1, +-1), and back. *)
Definition ring_xs : list R := [5 / 4; - (5 / 4); - (5 / 4); 5 / 4; 5 / 4].
Definition ring_ys : list R := [5 / 4; 5 / 4; - (5 / 4); - (5 / 4); 5 / 4].
Notation RP := (displaced (fun _ : Z => 0) ring_xs ring_ys).

Lemma ring_points : RP 0 = (5 / 4, 5 / 4) /\ RP 1 = (- (5 / 4), 5 / 4) /\ RP 2 = (- (5 / 4), - (5 / 4)) /\
  RP 3 = (5 / 4, - (5 / 4)) /\ RP 4 = (5 / 4, 5 / 4).
Proof.
  unfold displaced, ring_xs, ring_ys. change (Z.to_nat 0) with 0%nat. change (Z.to_nat 1) with 1%nat.
  change (Z.to_nat 2) with 2%nat. change (Z.to_nat 3) with 3%nat. change (Z.to_nat 4) with 4%nat. cbn [nth].
  repeat split; f_equal; ring.
Qed.

Ltac pts := steps; destruct ring_points as (P0 & P1 & P2 & P3 & P4); rewrite ?P0, ?P1, ?P2, ?P3, ?P4 in *; clear P0 P1 P2 P3 P4.

(** The cell after cell k, and the part of segment k in each cell. *)
Definition nextc (k : Z) : Z := if (k =? 3)%Z then 0%Z else (k + 1)%Z.

Lemma ring_meets : forall k j t, (k = 0 \/ k = 1 \/ k = 2 \/ k = 3)%Z -> (j = 0 \/ j = 1 \/ j = 2 \/ j = 3)%Z -> 0 <= t <= 1 ->
  in_hull (corners ring_x ring_y 0 j) (on_seg (RP k) (RP (k + 1)) t) <-> (j = k /\ t <= 1 / 2) \/ (j = nextc k /\ 1 / 2 <= t).
Proof.
  intros k j t Hk Hj Ht. rewrite ring_hull by auto. unfold ru, on_seg.
  destruct Hk as [-> | [-> | [-> | ->]]]; pts; cbn [fst snd];
  (destruct Hj as [-> | [-> | [-> | ->]]]; ringc; unfold nextc; cbn [Z.eqb Pos.eqb]; steps;
   (split; [intros (A1 & A2 & A3); try (left; split; [reflexivity|lra]); try (right; split; [reflexivity|lra]); exfalso; lra|
     intros [[E B]|[E B]]; try discriminate E; lra])).
Qed.

Lemma ring_regular : regular_line 2 5 ring_x ring_y (fun _ _ => 0) 5 ring_xs ring_ys.
Proof.
  intros k Hk. cbv zeta. assert (Ck : (k = 0 \/ k = 1 \/ k = 2 \/ k = 3)%Z) by lia.
  split; [|split].
  - intros t Ht. assert (CN : is_cell2 2 5 0 k /\ is_cell2 2 5 0 (nextc k)) by (unfold is_cell2, nextc; destruct Ck as [-> | [-> | [-> | ->]]]; cbn [Z.eqb Pos.eqb]; lia).
    destruct (Rle_dec t (1 / 2)).
    + exists 0%Z, k. split; [tauto|]. apply ring_meets; auto.
    + exists 0%Z, (nextc k). split; [tauto|]. apply ring_meets; auto.
      * unfold nextc. destruct Ck as [-> | [-> | [-> | ->]]]; cbn [Z.eqb Pos.eqb]; lia.
      * right. split; [reflexivity|lra].
  - intros i j i' j' t t' HC HC' NE Ht Ht' A1 A2 A3 A4.
    destruct (ring_cells i j HC) as [-> Hj]. destruct (ring_cells i' j' HC') as [-> Hj'].
    apply ring_meets in A1, A2, A3, A4; auto.
    assert (NJ : j <> j') by congruence. assert (NK : nextc k <> k) by (unfold nextc; destruct Ck as [-> | [-> | [-> | ->]]]; cbn [Z.eqb Pos.eqb]; lia).
    assert (t = 1 / 2) by (destruct A1 as [[? ?]|[? ?]], A2 as [[? ?]|[? ?]]; subst; try congruence; lra).
    assert (t' = 1 / 2) by (destruct A3 as [[? ?]|[? ?]], A4 as [[? ?]|[? ?]]; subst; try congruence; lra).
    lra.
  - intros i j HC. destruct (ring_cells i j HC) as [-> Hj]. assert (T := tol_small). revert T. generalize (100 * / 2 ^ 52). intros tol T.
    split.
    + intros p Hp (w & L & W & S1 & SX & SY). destruct w as [|w0 [|w1 [|w2 [|w3 [|]]]]]; try discriminate L.
      apply ring_hull; auto. cbn [map wsum fst snd] in *.
      repeat (apply Forall_cons_iff in W; let H := fresh "W" in destruct W as [H W]). unfold ru.
      destruct Ck as [-> | [-> | [-> | ->]]]; pts;
      (destruct Hj as [-> | [-> | [-> | ->]]]; ringc; destruct Hp as [-> | ->]; cbn [fst snd] in *; lra).
    + intros e He s t EQ TR Hs Ht. unfold on_seg in EQ.
      destruct Ck as [-> | [-> | [-> | ->]]]; pts;
      (destruct Hj as [-> | [-> | [-> | ->]]]; ringc;
       (destruct He as [<-|[<-|[<-|[<-|[]]]]]; cbn [fst snd] in EQ; injection EQ as EX EY; lra)).
Qed.

(** The share of the quarter turn from direction j to direction j + 1. *)
Definition share (u v : R) : R := v / (u + v).

(** The branch of the stream function along segment k. *)
Definition ring_F (k : Z) (p : point) : R :=
  let u := ru k p in let v := ru (k + 1) p in
  if Rle_dec 0 u then IZR k / 4 + share u v / 4 else (IZR k + 1) / 4 + share v (- u) / 4.

(** Coordinates in the next cell. *)
Lemma ru_next : forall k p, (k = 0 \/ k = 1 \/ k = 2 \/ k = 3)%Z -> ru (nextc k) p = ru (k + 1) p /\ ru (nextc k + 1) p = - ru k p.
Proof.
  intros k p Hk. unfold ru. destruct Hk as [-> | [-> | [-> | ->]]]; unfold nextc; cbn [Z.eqb Pos.eqb]; ringc; split; ring.
Qed.

Lemma ring_F_cell : forall k j p, (k = 0 \/ k = 1 \/ k = 2 \/ k = 3)%Z -> j = k \/ j = nextc k ->
  0 <= ru j p -> 0 <= ru (j + 1) p -> 1 <= ru j p + ru (j + 1) p ->
  ring_F k p = (IZR k + (if (j =? k)%Z then 0 else 1)) / 4 + share (ru j p) (ru (j + 1) p) / 4.
Proof.
  intros k j p Hk Hj Hu Hv Hs. unfold ring_F. destruct Hj as [-> | ->].
  - rewrite Z.eqb_refl. destruct (Rle_dec 0 (ru k p)); [|lra]. unfold Rdiv. ring.
  - destruct (ru_next k p Hk) as [E1 E2]. rewrite E1, E2 in *.
    assert (NK : (nextc k =? k)%Z = false) by (unfold nextc; destruct Hk as [-> | [-> | [-> | ->]]]; reflexivity). rewrite NK.
    destruct (Rle_dec 0 (ru k p)) as [L|L]; [|unfold Rdiv; ring].
    assert (Z0 : ru k p = 0) by lra. rewrite Z0 in *. unfold share. field. lra.
Qed.

Lemma share_lipschitz : forall u v u' v' d, 0 <= u -> 0 <= v -> 1 <= u + v -> 0 <= u' -> 0 <= v' -> 1 <= u' + v' ->
  Rabs (u - u') <= d -> Rabs (v - v') <= d -> Rabs (share u v - share u' v') <= 2 * d.
Proof.
  intros u v u' v' d Hu Hv Hs Hu' Hv' Hs' Du Dv. unfold share.
  assert (V := frac_range u' v' Hu' Hv' Hs').
  assert (EQ : v / (u + v) - v' / (u' + v') = ((1 - v' / (u' + v')) * (v - v') - v' / (u' + v') * (u - u')) * / (u + v)) by (field; lra).
  rewrite EQ. clear EQ.
  assert (W : 0 < / (u + v) <= 1) by (split; [apply Rinv_0_lt_compat; lra|]; rewrite <- Rinv_1; apply Rinv_le_contravar; lra).
  revert V W. generalize (v' / (u' + v')) (/ (u + v)). intros a w V W.
  rewrite Rabs_mult, (Rabs_right w) by lra.
  assert (B : Rabs ((1 - a) * (v - v') - a * (u - u')) <= 2 * d).
  { unfold Rminus at 1. eapply Rle_trans; [apply Rabs_triang|]. rewrite Rabs_Ropp, !Rabs_mult, (Rabs_right a), (Rabs_right (1 - a)) by lra.
    assert (0 <= Rabs (u - u')) by apply Rabs_pos. assert (0 <= Rabs (v - v')) by apply Rabs_pos. nra. }
  assert (0 <= Rabs ((1 - a) * (v - v') - a * (u - u'))) by apply Rabs_pos. nra.
Qed.

Lemma ru_dist : forall j p p', (j = 0 \/ j = 1 \/ j = 2 \/ j = 3 \/ j = 4)%Z -> Rabs (ru j p - ru j p') <= sqrt (sqdist p p').
Proof.
  intros j [x y] [x' y'] Hj.
  assert (D : Rabs (x - x') <= sqrt (sqdist (x, y) (x', y')) /\ Rabs (y - y') <= sqrt (sqdist (x, y) (x', y'))).
  { assert (U := Rle_0_sqr (x - x')). assert (V := Rle_0_sqr (y - y')). unfold sqdist, Rsqr in *. cbn [fst snd]. split; rewrite <- sqrt_Rsqr_abs; apply sqrt_le_1_alt; unfold Rsqr; nra. }
  destruct D as [DX DY]. unfold ru. cbn [fst snd].
  destruct Hj as [-> | [-> | [-> | [-> | ->]]]]; ringc;
  match goal with |- Rabs ?z <= _ => first [replace z with (x - x') by ring; exact DX | replace z with (y - y') by ring; exact DY |
    replace z with (- (x - x')) by ring; rewrite Rabs_Ropp; exact DX | replace z with (- (y - y')) by ring; rewrite Rabs_Ropp; exact DY] end.
Qed.

Lemma ring_met : forall k i j, (0 <= k < 4)%Z -> is_cell2 2 5 i j ->
  (exists t, 0 <= t <= 1 /\ in_hull (corners ring_x ring_y i j) (on_seg (RP k) (RP (k + 1)) t)) ->
  i = 0%Z /\ (j = 0 \/ j = 1 \/ j = 2 \/ j = 3)%Z /\ (k = 0 \/ k = 1 \/ k = 2 \/ k = 3)%Z /\ (j = k \/ j = nextc k).
Proof.
  intros k i j Hk HC (t & Ht & HH). destruct (ring_cells i j HC) as [-> Hj].
  assert (Ck : (k = 0 \/ k = 1 \/ k = 2 \/ k = 3)%Z) by lia. apply ring_meets in HH; auto. tauto.
Qed.

Lemma ring_interp : forall k, (0 <= k < 4)%Z -> interpolates_along 2 5 ring_x ring_y ring_psi (RP k) (RP (k + 1)) (ring_F k).
Proof.
  intros k Hk i j HC M. destruct (ring_met k i j Hk HC M) as (-> & Hj & Ck & JK).
  exists ((IZR k + (if (j =? k)%Z then 0 else 1) - IZR j) / 4). intros x y Hx Hy.
  set (p := bilinear_map _ _ _ _ x y).
  assert (EU : ru j p = (1 + 2 * x) * (1 - y) /\ ru (j + 1) p = (1 + 2 * x) * y).
  { unfold p, ru, bilinear_map, bilinear. cbn [fst snd]. clear - Hj. destruct Hj as [-> | [-> | [-> | ->]]]; ringc; split; ring. }
  destruct EU as [EU EV].
  rewrite (ring_F_cell k j p Ck JK) by (rewrite ?EU, ?EV; nra). rewrite EU, EV. unfold share, bilinear, ring_psi. rewrite plus_IZR. field. nra.
Qed.

Lemma ring_lipschitz : forall k, (0 <= k < 4)%Z -> lipschitz_along 2 5 ring_x ring_y 1 (RP k) (RP (k + 1)) (ring_F k).
Proof.
  intros k Hk i j HC M p p' Hp Hp'. destruct (ring_met k i j Hk HC M) as (-> & Hj & Ck & JK).
  apply ring_hull in Hp, Hp'; auto. destruct Hp as (A1 & A2 & A3), Hp' as (B1 & B2 & B3).
  rewrite (ring_F_cell k j p Ck JK), (ring_F_cell k j p' Ck JK) by lra.
  assert (S := share_lipschitz (ru j p) (ru (j + 1) p) (ru j p') (ru (j + 1) p') (sqrt (sqdist p p')) A1 A2 ltac:(lra) B1 B2 ltac:(lra)
    (ru_dist j p p' ltac:(lia)) (ru_dist (j + 1) p p' ltac:(lia))).
  match goal with |- Rabs ?z <= _ => replace z with ((share (ru j p) (ru (j + 1) p) - share (ru j p') (ru (j + 1) p')) * / 4) by field end.
  rewrite Rabs_mult, (Rabs_right (/ 4)) by lra. assert (0 <= sqrt (sqdist p p')) by apply sqrt_pos. lra.
Qed.

(** The line goes once round the hole: each flux is 1/4 within 8e-10, the total 1. *)
Example C76_case : exists out', flow_run insertion gels2 (fun _ _ => 0) 2 5 (array2 2 5 ring_x) (array2 2 5 ring_y)
    5 ring_xs ring_ys 1 (array2 1 5 (edges0 ring_psi)) (array2 2 4 (edges1 ring_psi)) [7; 7; 7; 7] = Ret out' /\
  (forall k, (0 <= k < 4)%Z -> Rabs (nth (Z.to_nat k) out' 0 - 1 / 4) <= 8 / 10 ^ 10) /\
  Rabs (fold_right Rplus 0 out' - 1) <= 32 / 10 ^ 10.
Proof.
  assert (VAL : forall k, (0 <= k < 4)%Z -> ring_F k (RP k) = IZR k / 4 + 1 / 8 /\ ring_F k (RP (k + 1)) = IZR k / 4 + 3 / 8).
  { intros k Hk. assert (Ck : (k = 0 \/ k = 1 \/ k = 2 \/ k = 3)%Z) by lia. unfold ring_F, ru, share.
    destruct Ck as [-> | [-> | [-> | ->]]]; pts; ringc; cbn [fst snd];
    (split; [match goal with |- context [Rle_dec 0 ?z] => destruct (Rle_dec 0 z) as [Q|Q] end; [field|exfalso; apply Q; lra]|
             match goal with |- context [Rle_dec 0 ?z] => destruct (Rle_dec 0 z) as [Q|Q] end; [exfalso; lra|field]]). }
  destruct (C76_circulation gels2 insertion (fun _ _ => 0) 2 5 ring_x ring_y ring_psi ring_F 1 5
    (array2 2 5 ring_x) (array2 2 5 ring_y) ring_xs ring_ys (array2 1 5 (edges0 ring_psi)) (array2 2 4 (edges1 ring_psi)) [7; 7; 7; 7])
    as (out' & E & L & K & S); try (apply array2_stores; lia); try reflexivity; try lia; try lra; try (unfold int_max; lia).
  - exact gels2_spec22.
  - apply insertion_sorts.
  - exact ring_trapezoids.
  - exact ring_regular.
  - intros k Hk. split; [apply ring_interp; auto|apply ring_lipschitz; auto].
  - exists out'. split; auto. change ((2 - 1) * (5 - 1))%Z with 4%Z in *. change (5 - 1)%Z with 4%Z in *. change (5 - 2)%Z with 3%Z in *. split.
    + intros k Hk. specialize (K k Hk). destruct (VAL k Hk) as [V0 V1]. rewrite V0, V1 in K.
      replace (IZR k / 4 + 3 / 8 - (IZR k / 4 + 1 / 8)) with (1 / 4) in K by field. lra.
    + assert (C : forall k, (0 <= k < 3)%Z -> ring_F k (RP (k + 1)) = ring_F (k + 1) (RP (k + 1))).
      { intros k Hk. destruct (VAL k ltac:(lia)) as [_ V1]. destruct (VAL (k + 1)%Z ltac:(lia)) as [V0 _]. rewrite V1, V0, plus_IZR. field. }
      specialize (S C). destruct (VAL 0%Z ltac:(lia)) as [V0 _]. destruct (VAL 3%Z ltac:(lia)) as [_ V1].
      change (3 + 1)%Z with 4%Z in V1. rewrite V0, V1 in S. replace (3 / 4 + 3 / 8 - (0 / 4 + 1 / 8)) with 1 in S by field. lra.
Qed.
