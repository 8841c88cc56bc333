(** Property C79: the program polarFlow. *)
From Coq Require Import ZArith List Bool Reals Lra Lia.
From Verif Require Import Base Num NumR TrigR M_BoxIterator M_LinearSolve M_FindPoint M_Triangulate M_Quad M_QuadLine M_FlowInterp M_Grids M_PyUtils M_Examples
  S_LinAlg S_Geometry S_Quad S_Grid S_Sort S_Array S_Flow S_FlowTable S_Rectilinear S_Polar
  L_LinearSolve L_Hull L_Quad L_QuadLine L_Box2 L_Flow L_FlowFind L_FlowInterp L_FlowGen L_FlowPar L_FlowTrap L_FlowTri L_Polar P_Flow P_FlowLines P_FlowRing L_PyUtils P_PyUtils P_Examples.
Import ListNotations.
Open Scope R_scope.

(** ** Polar grids with the centre *)
Section Grid.
Variables (K M : Z) (radius : R).
Hypotheses (HK : (1 <= K)%Z) (HM : (3 <= M)%Z) (HR : 0 < radius).

Notation px := (disc_x K M radius).
Notation py := (disc_y K M radius).
Let a := sector_angle M.
Let rad (i : Z) : R := radius * IZR i / IZR K.

Lemma ring_step : forall i, (0 <= i)%Z -> 0 <= rad i < rad (i + 1).
Proof.
  intros i Hi. assert (KP : 0 < IZR K) by (apply IZR_lt; lia). assert (I0 : 0 <= IZR i) by (apply IZR_le; lia).
  assert (IK : 0 < / IZR K) by (apply Rinv_0_lt_compat; auto). unfold rad, Rdiv. rewrite plus_IZR. split.
  - apply Rmult_le_pos; [|lra]. apply Rmult_le_pos; lra.
  - apply Rmult_lt_compat_r; auto. nra.
Qed.

Lemma ring_pos : forall i, (0 < i)%Z -> 0 < rad i.
Proof. intros i Hi. assert (H := ring_step (i - 1) ltac:(lia)). replace (i - 1 + 1)%Z with i in H by lia. lra. Qed.

Lemma ring_0 : rad 0 = 0.
Proof. unfold rad. assert (KP : 0 < IZR K) by (apply IZR_lt; lia). field. lra. Qed.

Lemma node_spoke : forall i j : Z, (px i j, py i j) = spoke M j (rad i) 0 /\ (px i (j + 1)%Z, py i (j + 1)%Z) = spoke M j 0 (rad i).
Proof. intros i j. unfold spoke, disc_x, disc_y, rad. split; f_equal; ring. Qed.

Lemma spoke_cr : forall j u v u' v' u'' v'',
  cr (spoke M j u v) (spoke M j u' v') (spoke M j u'' v'') = ((u' - u) * (v'' - v) - (v' - v) * (u'' - u)) * sin a.
Proof.
  intros. unfold cr, spoke. cbn [fst snd]. fold a. rewrite plus_IZR, Rmult_plus_distr_r, Rmult_1_l, sin_plus, cos_plus.
  set (c := cos (IZR j * a)). set (s := sin (IZR j * a)).
  assert (CS : c * c = 1 - s * s) by (unfold c, s; assert (X := sin2_cos2 (IZR j * a)); unfold Rsqr in X; lra).
  match goal with |- ?l = ?r => transitivity (r + (c * c - (1 - s * s)) * r); [ring|rewrite CS; ring] end.
Qed.

Lemma polar_quad : forall i j, let q := cell_quad px py i j in
  q0 q = spoke M j (rad i) 0 /\ q1 q = spoke M j (rad (i + 1)) 0 /\ q2 q = spoke M j 0 (rad (i + 1)) /\ q3 q = spoke M j 0 (rad i).
Proof.
  intros i j q. destruct (node_spoke i j) as [A B]. destruct (node_spoke (i + 1) j) as [C D].
  rewrite <- A, <- B, <- C, <- D. repeat split.
Qed.

Lemma sin_a_pos : 0 < sin a.
Proof. apply sin_a. auto. Qed.

Lemma polar_cell : forall g i j, gels_spec g 2 2 -> (0 <= i)%Z ->
  flow_cell g (cell_quad px py i j) /\ (forall p, in_hull (nodes (cell_quad px py i j)) p -> locates g (cell_quad px py i j) p).
Proof.
  intros g i j G Hi. set (q := cell_quad px py i j). destruct (polar_quad i j) as (E0 & E1 & E2 & E3). fold q in E0, E1, E2, E3.
  assert (SA := sin_a_pos). destruct (ring_step i Hi) as [R0 R1].
  destruct (Z.eq_dec i 0) as [-> |NZ].
  - rewrite ring_0 in *.
    assert (E30 : q3 q = q0 q) by (rewrite E3, E0; reflexivity).
    assert (D : cr (q0 q) (q1 q) (q2 q) <> 0).
    { rewrite E0, E1, E2, spoke_cr. apply Rgt_not_eq. apply Rmult_lt_0_compat; auto. nra. }
    split; [apply tri_flow_cell; auto|]. intros p Hp. apply tri_locates; auto.
  - assert (RP := ring_pos i ltac:(lia)).
    assert (TZ : trapezoid q).
    { split.
      - rewrite E0, E1, E3, spoke_cr. apply Rgt_not_eq. apply Rmult_lt_0_compat; auto. nra.
      - exists (rad (i + 1) / rad i). split; [apply Rmult_lt_0_compat; [lra|apply Rinv_0_lt_compat; lra]|].
        rewrite E0, E1, E2, E3. unfold spoke. cbn [fst snd]. split; field; lra. }
    split; [|intros p Hp; apply trapezoid_locates; auto].
    destruct TZ as (D & lam & HL & P1 & P2). destruct (trap_convexq q lam D HL P1 P2) as (sg & CQ). apply (convex_flow_cell g sg); auto.
Qed.

(** Points of a cell. *)
Lemma polar_hull : forall i j p, (0 <= i)%Z -> in_hull (corners px py i j) p -> exists u v, 0 <= u /\ 0 <= v /\ p = spoke M j u v.
Proof.
  intros i j p Hi (w & L & W & S1 & SX & SY). destruct w as [|w0 [|w1 [|w2 [|w3 [|]]]]]; try discriminate L.
  unfold corners in SX, SY. cbn [map wsum fst snd] in *. repeat (apply Forall_cons_iff in W; let H := fresh "W" in destruct W as [H W]).
  destruct (ring_step i Hi) as [R0 R1].
  exists (w0 * rad i + w1 * rad (i + 1)), (w2 * rad (i + 1) + w3 * rad i).
  split; [assert (0 <= w0 * rad i) by (apply Rmult_le_pos; lra); assert (0 <= w1 * rad (i + 1)) by (apply Rmult_le_pos; lra); lra|].
  split; [assert (0 <= w2 * rad (i + 1)) by (apply Rmult_le_pos; lra); assert (0 <= w3 * rad i) by (apply Rmult_le_pos; lra); lra|].
  rewrite (surjective_pairing p), SX, SY. unfold spoke, disc_x, disc_y, rad. f_equal; ring.
Qed.

Lemma polar_map : forall i j x y, let q := cell_quad px py i j in let s := (1 - x) * rad i + x * rad (i + 1) in
  bilinear_map (q0 q) (q1 q) (q2 q) (q3 q) x y = spoke M j (s * (1 - y)) (s * y).
Proof.
  intros i j x y q s. destruct (polar_quad i j) as (E0 & E1 & E2 & E3). unfold q. rewrite E0, E1, E2, E3.
  unfold bilinear_map, bilinear, spoke, s. cbn [fst snd]. f_equal; ring.
Qed.

(** Distances of points of a sector. *)
Lemma proj_le : forall x y c s, c * c + s * s = 1 -> Rabs (x * s - y * c) <= sqrt (x * x + y * y).
Proof.
  intros x y c s E. rewrite <- sqrt_Rsqr_abs. apply sqrt_le_1_alt. unfold Rsqr.
  assert (0 <= (x * c + y * s) * (x * c + y * s)) by apply Rle_0_sqr.
  replace (x * x + y * y) with ((x * x + y * y) * (c * c + s * s)) by (rewrite E; ring). nra.
Qed.

Lemma spoke_dist : forall j u v u' v', let d := sqrt (sqdist (spoke M j u v) (spoke M j u' v')) in
  Rabs (u - u') * sin a <= d /\ Rabs (v - v') * sin a <= d.
Proof.
  intros j u v u' v' d. assert (SA := sin_a_pos).
  set (x := fst (spoke M j u v) - fst (spoke M j u' v')). set (y := snd (spoke M j u v) - snd (spoke M j u' v')).
  assert (Ed : d = sqrt (x * x + y * y)) by (unfold d, sqdist, x, y; f_equal; ring). rewrite Ed.
  set (c := cos (IZR j * a)) in *. set (s := sin (IZR j * a)) in *.
  assert (CS : c * c + s * s = 1) by (unfold c, s; assert (X := sin2_cos2 (IZR j * a)); unfold Rsqr in X; lra).
  assert (CA : cos a * cos a + sin a * sin a = 1) by (assert (X := sin2_cos2 a); unfold Rsqr in X; lra).
  set (c' := cos (IZR (j + 1) * a)). set (s' := sin (IZR (j + 1) * a)).
  assert (CS' : c' * c' + s' * s' = 1) by (unfold c', s'; assert (X := sin2_cos2 (IZR (j + 1) * a)); unfold Rsqr in X; lra).
  assert (Ec : c' = c * cos a - s * sin a) by (unfold c', c, s; rewrite plus_IZR, Rmult_plus_distr_r, Rmult_1_l; apply cos_plus).
  assert (Es : s' = s * cos a + c * sin a) by (unfold s', c, s; rewrite plus_IZR, Rmult_plus_distr_r, Rmult_1_l; apply sin_plus).
  assert (Ex : x = (u - u') * c + (v - v') * c') by (unfold x, spoke, c, c'; cbn [fst snd]; fold a; ring).
  assert (Ey : y = (u - u') * s + (v - v') * s') by (unfold y, spoke, s, s'; cbn [fst snd]; fold a; ring).
  assert (X1 : x * s' - y * c' = (u - u') * sin a).
  { rewrite Ex, Ey. transitivity ((u - u') * (c * s' - s * c')); [ring|]. rewrite Ec, Es.
    transitivity ((u - u') * sin a * (c * c + s * s)); [ring|rewrite CS; ring]. }
  assert (X2 : x * s - y * c = - ((v - v') * sin a)).
  { rewrite Ex, Ey. transitivity ((v - v') * (c' * s - s' * c)); [ring|]. rewrite Ec, Es.
    transitivity (- ((v - v') * sin a * (c * c + s * s))); [ring|rewrite CS; ring]. }
  assert (B1 := proj_le x y c' s' CS'). assert (B2 := proj_le x y c s CS). rewrite X1 in B1. rewrite X2, Rabs_Ropp in B2.
  rewrite Rabs_mult, (Rabs_right (sin a)) in B1, B2 by lra. auto.
Qed.

Lemma spoke_norm : forall j u v r th, 0 <= u -> 0 <= v -> 0 < r -> spoke M j u v = (r * cos th, r * sin th) -> r <= u + v.
Proof.
  intros j u v r th Hu Hv Hr E. injection E as EX EY. fold a in EX, EY.
  assert (N : r * r = (r * cos th) * (r * cos th) + (r * sin th) * (r * sin th)).
  { assert (X := sin2_cos2 th). unfold Rsqr in X. transitivity (r * r * (sin th * sin th + cos th * cos th)); [rewrite X; ring|ring]. }
  rewrite <- EX, <- EY in N. set (c := cos (IZR j * a)) in *. set (s := sin (IZR j * a)) in *.
  set (c' := cos (IZR (j + 1) * a)) in *. set (s' := sin (IZR (j + 1) * a)) in *.
  assert (CS : c * c + s * s = 1) by (unfold c, s; assert (X := sin2_cos2 (IZR j * a)); unfold Rsqr in X; lra).
  assert (CS' : c' * c' + s' * s' = 1) by (unfold c', s'; assert (X := sin2_cos2 (IZR (j + 1) * a)); unfold Rsqr in X; lra).
  assert (CC : c * c' + s * s' <= 1).
  { assert (0 <= (c - c') * (c - c')) by apply Rle_0_sqr. assert (0 <= (s - s') * (s - s')) by apply Rle_0_sqr. nra. }
  assert (N' : r * r <= (u + v) * (u + v)).
  { rewrite N. apply Rle_trans with (u * u * (c * c + s * s) + v * v * (c' * c' + s' * s') + 2 * (u * v) * (c * c' + s * s')); [right; ring|].
    rewrite CS, CS'. assert (0 <= u * v) by (apply Rmult_le_pos; auto). nra. }
  destruct (Rle_lt_dec r (u + v)); auto. exfalso. nra.
Qed.

(** The number of turns follows the uniform flow. *)
Definition uniform (i j : Z) : R := IZR j / IZR M.

Lemma turns_follow : forall d0 d1 A B th rho, 0 < rho -> angle_along rho A B th ->
  follows (/ 10 ^ 10 / (IZR M * rho * sin a)) d0 d1 px py uniform A B (fun t => polygon_turns M (th t)).
Proof.
  intros d0 d1 A B th rho HP AL i j [Hi Hj] (t0 & Ht0 & H0). assert (MP := M_pos M HM). assert (SA := sin_a_pos).
  assert (TP : 0 < / 10 ^ 10) by (apply Rinv_0_lt_compat, pow_lt; lra). revert TP. generalize (/ 10 ^ 10). intros tol TP.
  assert (ME : exists t, meets M A B j t).
  { exists t0. split; auto. apply (polar_hull i j _ ltac:(lia) H0). }
  destruct (sector_turns M HM A B th rho HP AL j ME) as (n & HN). exists (- IZR n).
  intros t x y Ht HH Hx Hy q DD. destruct (polar_hull i j _ ltac:(lia) HH) as (u & v & Hu & Hv & E).
  rewrite (HN t u v Ht Hu Hv E). destruct AL as [_ AP]. destruct (AP t Ht) as (r & Hr & Er). rewrite E in Er.
  assert (RU := spoke_norm j u v r (th t) Hu Hv ltac:(lra) Er).
  rewrite E in DD. unfold q in DD. rewrite polar_map in DD. set (s := (1 - x) * rad i + x * rad (i + 1)) in DD.
  destruct (spoke_dist j u v (s * (1 - y)) (s * y)) as [B1 B2].
  set (d := sqrt _) in *. clearbody d s.
  match goal with |- Rabs ?z <= _ => replace z with (((1 - y) * - (v - s * y) + y * (u - s * (1 - y))) / (u + v) / IZR M) end.
  2:{ unfold bilinear, uniform. rewrite plus_IZR. field. split; lra. }
  set (N := (1 - y) * - (v - s * y) + y * (u - s * (1 - y))).
  assert (NB : Rabs N * sin a <= tol).
  { assert (T : Rabs N <= (1 - y) * Rabs (v - s * y) + y * Rabs (u - s * (1 - y))).
    { unfold N. eapply Rle_trans; [apply Rabs_triang|]. rewrite !Rabs_mult, Rabs_Ropp, (Rabs_right y), (Rabs_right (1 - y)) by lra. lra. }
    assert (W1 : (1 - y) * (Rabs (v - s * y) * sin a) <= (1 - y) * tol) by (apply Rmult_le_compat_l; lra).
    assert (W2 : y * (Rabs (u - s * (1 - y)) * sin a) <= y * tol) by (apply Rmult_le_compat_l; lra).
    assert (W3 : Rabs N * sin a <= ((1 - y) * Rabs (v - s * y) + y * Rabs (u - s * (1 - y))) * sin a) by (apply Rmult_le_compat_r; lra). lra. }
  unfold Rdiv. rewrite !Rabs_mult, (Rabs_right (/ (u + v))), (Rabs_right (/ IZR M)) by (apply Rle_ge; left; apply Rinv_0_lt_compat; lra).
  assert (N0 := Rabs_pos N). set (b := Rabs N) in *. clearbody b. clear N.
  apply Rmult_le_reg_r with (IZR M * rho * sin a); [repeat apply Rmult_lt_0_compat; lra|].
  replace (tol * / (IZR M * rho * sin a) * (IZR M * rho * sin a)) with tol by (field; repeat split; lra).
  replace (b * / (u + v) * / IZR M * (IZR M * rho * sin a)) with (b * sin a * (rho * / (u + v))) by (field; split; lra).
  assert (Q : 0 <= rho * / (u + v) <= 1).
  { assert (I : 0 < / (u + v)) by (apply Rinv_0_lt_compat; lra). split; [apply Rmult_le_pos; lra|].
    apply Rmult_le_reg_r with (u + v); [lra|]. rewrite Rmult_assoc, Rinv_l by lra. lra. }
  assert (0 <= b * sin a) by (apply Rmult_le_pos; lra). nra.
Qed.

End Grid.

Lemma chain_sum : forall (lo hi : Z -> R) (e : R) l a, 0 <= e ->
  (forall k, (k < length l)%nat -> Rabs (nth k l 0 - (hi (a + Z.of_nat k)%Z - lo (a + Z.of_nat k)%Z)) <= e) ->
  (forall k, (S k < length l)%nat -> hi (a + Z.of_nat k)%Z = lo (a + Z.of_nat k + 1)%Z) -> l <> [] ->
  Rabs (fold_right Rplus 0 l - (hi (a + Z.of_nat (length l) - 1)%Z - lo a)) <= INR (length l) * e.
Proof.
  intros lo hi e l a He HV HC NE.
  assert (D0 : forall k (x y : R), (if Rlt_dec 0 (IZR k - IZR k) then x else y) = y) by (intros k x y; destruct (Rlt_dec _ _) as [C|C]; [exfalso; lra|reflexivity]).
  assert (D1 : forall k (x y : R), (if Rlt_dec 0 (IZR (k + 1) - IZR k) then x else y) = x) by (intros k x y; rewrite plus_IZR; destruct (Rlt_dec _ _) as [C|C]; [reflexivity|exfalso; lra]).
  assert (S := branch_sum (fun k p => if Rlt_dec 0 (fst p - IZR k) then hi k else lo k) (fun k => (IZR k, 0)) e l a He). cbn [fst] in S.
  assert (D2 := D1 (a + Z.of_nat (length l) - 1)%Z). replace (a + Z.of_nat (length l) - 1 + 1)%Z with (a + Z.of_nat (length l))%Z in D2 by lia.
  rewrite D0, D2 in S. apply S; auto.
  - intros k Hk. rewrite D0, D1. auto.
  - intros k Hk. rewrite D0, D1. auto.
Qed.

(** The line is in the grid and regular: its segments have a length, are covered by the cells, do not run
    along grid lines, and miss no cell by less than the tolerance. *)
Definition line_regular (cosv : Z -> Z -> R) (m0 m1 : Z) (radius : R) (n : Z) (xline yline : R -> R) : Prop :=
  forall k, (0 <= k < n)%Z ->
  let A := line_point cosv n xline yline k in let B := line_point cosv n xline yline (k + 1) in
  let X := disc_x (m0 - 1) (m1 - 1) radius in let Y := disc_y (m0 - 1) (m1 - 1) radius in
  A <> B /\ cells_cover m0 m1 X Y A B /\ cells_share_once m0 m1 X Y A B /\ cells_no_near_miss (100 * / 2 ^ 52) m0 m1 X Y A B.

(** th k is an angle along segment k, and the angles of consecutive segments agree at their common
    point. *)
Definition line_angles (rho : R) (cosv : Z -> Z -> R) (n : Z) (xline yline : R -> R) (th : Z -> R -> R) : Prop :=
  (forall k, (0 <= k < n)%Z -> angle_along rho (line_point cosv n xline yline k) (line_point cosv n xline yline (k + 1)) (th k)) /\
  (forall k, (0 <= k < n - 1)%Z -> th k 1 = th (k + 1)%Z 0).

(** C79.  The number printed is the number of turns round the centre from the first to the last point of
    the line, within the accuracy of the point searches. *)
Theorem C79_turns : forall g srt cosv m0 m1 radius n xline yline rho th,
  gels_spec g 2 2 -> sorts srt -> (2 <= m0)%Z -> (4 <= m1)%Z -> (m0 * m1 <= int_max)%Z -> (1 <= n)%Z -> (n + 1 <= int_max)%Z ->
  0 < radius -> 0 < rho -> line_regular cosv m0 m1 radius n xline yline -> line_angles rho cosv n xline yline th ->
  exists flux, polarFlow srt g cosv m0 m1 radius n xline yline = Ret flux /\
    Rabs (flux - (polygon_turns (m1 - 1) (th (n - 1)%Z 1) - polygon_turns (m1 - 1) (th 0%Z 0)))
    <= IZR n * (2 * IZR (m0 - 1) / (rho * sin (sector_angle (m1 - 1))) / 10 ^ 10).
Proof.
  intros g srt cosv m0 m1 radius n xline yline rho th G ST H0 H1 HI Hn HN HR HP SEG [ANG CH].
  assert (HK : (1 <= m0 - 1)%Z) by lia. assert (HM : (3 <= m1 - 1)%Z) by lia.
  set (X := disc_x (m0 - 1) (m1 - 1) radius) in *. set (Y := disc_y (m0 - 1) (m1 - 1) radius) in *.
  assert (SA := sin_a_pos (m1 - 1) HM). assert (MP := M_pos (m1 - 1) HM).
  unfold polarFlow. set (CR := createPolarGrid m0 m1 radius n0). rewrite (surjective_pairing CR).
  assert (NODE : forall i j, (0 <= i < m0)%Z -> (0 <= j < m1)%Z -> a_at (fst CR) i j = X i j /\ a_at (snd CR) i j = Y i j).
  { intros i j Hi Hj. unfold CR, createPolarGrid. cbn [fst snd a_at]. rewrite !linspace_R by lia.
    cbn [mcos msin mpi TrigR]. unfold X, Y, disc_x, disc_y, sector_angle. change (@n0 R NumR) with 0. change (@n1 R NumR) with 1. cbn [nmul nofZ NumR].
    assert (0 < IZR (m0 - 1)) by (apply IZR_lt; lia).
    replace (1 * (0 + IZR j * ((2 * PI - 0) / IZR (m1 - 1)))) with (IZR j * (2 * PI / IZR (m1 - 1))) by (field; lra).
    split; f_equal; field; lra. }
  assert (SX : stores m0 m1 X (contiguous (fst CR))).
  { apply (stores_ext m0 m1 (a_at (fst CR))); [intros i j Hi Hj; apply NODE; lia|]. apply (contiguous_stores (fst CR)); simpl; lia. }
  assert (SY : stores m0 m1 Y (contiguous (snd CR))).
  { apply (stores_ext m0 m1 (a_at (snd CR))); [intros i j Hi Hj; apply NODE; lia|]. apply (contiguous_stores (snd CR)); simpl; lia. }
  set (fx := mkArr (m0 - 1) m1 (fun _ _ => n0) : arr R). set (fy := mkArr m0 (m1 - 1) (fun _ _ => n1 / nofZ (m1 - 1) * n1)%num : arr R).
  set (ps := uniform (m1 - 1)).
  assert (D0 : stores (m0 - 1) m1 (dpsi0 ps) (contiguous fx)).
  { apply (stores_ext _ _ (a_at fx)); [|apply (contiguous_stores fx); simpl; lia].
    intros i j Hi Hj. unfold dpsi0, ps, uniform, fx. cbn [a_at]. change (@n0 R NumR) with 0. ring. }
  assert (D1 : stores m0 (m1 - 1) (dpsi1 ps) (contiguous fy)).
  { apply (stores_ext _ _ (a_at fy)); [|apply (contiguous_stores fy); simpl; lia].
    intros i j Hi Hj. unfold dpsi1, ps, uniform, fy. cbn [a_at]. change (@n1 R NumR) with 1. cbn [nmul ndiv nofZ NumR]. rewrite plus_IZR. field. lra. }
  set (dx := map (fun i => xline (linspace n0 n1 (n + 1) i)) (range (n + 1))). set (dy := map (fun i => yline (linspace n0 n1 (n + 1) i)) (range (n + 1))).
  assert (PT : forall k, (0 <= k <= n)%Z -> displaced (fun i => cosv i (n + 1)%Z) dx dy k = line_point cosv n xline yline k).
  { intros k Hk. unfold displaced, line_point, dx, dy.
    assert (NT : forall f : R -> R, nth (Z.to_nat k) (map (fun i => f (linspace n0 n1 (n + 1) i)) (range (n + 1))) 0 = f (IZR k / IZR n)).
    { intros f. apply nth_error_nth. rewrite nth_error_map, range_nth by lia. cbn [option_map]. f_equal. f_equal.
      rewrite linspace_R by lia. change (@n0 R NumR) with 0. change (@n1 R NumR) with 1. replace (n + 1 - 1)%Z with n by lia. field. apply not_0_IZR. lia. }
    rewrite !NT. reflexivity. }
  set (delta := / 10 ^ 10 / (IZR (m1 - 1) * rho * sin (sector_angle (m1 - 1)))).
  assert (DP : 0 <= delta).
  { unfold delta. apply Rmult_le_pos; [left; apply Rinv_0_lt_compat, pow_lt; lra|]. left. apply Rinv_0_lt_compat. repeat apply Rmult_lt_0_compat; lra. }
  destruct (flux_cells g srt cosv m0 m1 X Y ps (fun k t => polygon_turns (m1 - 1) (th k t)) delta (n + 1) 1 (contiguous (fst CR)) (contiguous (snd CR)) dx dy
    (contiguous fx) (contiguous fy) (map (fun _ => n0) (range n))) as (s1 & s2 & s3 & out' & E1 & E2 & E3 & E4 & LO & K); auto.
  - lia.
  - lia.
  - unfold dx. rewrite map_length, range_length. lia.
  - unfold dy. rewrite map_length, range_length. lia.
  - rewrite map_length, range_length. lia.
  - intros i j [Hi Hj]. apply (polar_cell (m0 - 1) (m1 - 1) radius HK HM HR g i j G). lia.
  - intros k Hk. rewrite !PT by lia. cbv zeta. destruct (SEG k ltac:(lia)) as (NE & S1 & S2 & S3). cbv zeta in *.
    split; [intros i j e _ _ [_ C]; exact (NE C)|].
    split; [apply (turns_follow (m0 - 1) (m1 - 1) radius HK HM HR); auto; apply ANG; lia|].
    split; auto. split; auto. split; auto.
    intros i j t [Hi Hj] Ht HH. apply (polar_cell (m0 - 1) (m1 - 1) radius HK HM HR g i j G); [lia|exact HH].
  - cbv zeta. fold dx dy. rewrite E1. cbn [bind]. rewrite E2. cbn [bind].
    unfold fl_computeN in E3. change (zseq 1) with [0%Z] in E3. cbn [foldM] in E3.
    apply bind_ret_inv in E3. destruct E3 as (s3' & E3 & EQ). injection EQ as ->. rewrite E3. cbn [bind]. fold fx fy. rewrite E4. cbn [bind].
    eexists. split; [reflexivity|]. unfold numpy_sum.
    change (fold_left nadd out' n0) with (fold_left Rplus out' 0). rewrite sum_left, Rplus_0_l.
    assert (LE : length out' = Z.to_nat n) by lia.
    assert (S := chain_sum (fun k => polygon_turns (m1 - 1) (th k 0)) (fun k => polygon_turns (m1 - 1) (th k 1)) (2 * delta * IZR ((m0 - 1) * (m1 - 1))) out' 0%Z).
    rewrite LE in S. rewrite INR_IZR_INZ, Z2Nat.id in S by lia. replace (0 + n - 1)%Z with (n - 1)%Z in S by lia.
    replace (2 * IZR (m0 - 1) / (rho * sin (sector_angle (m1 - 1))) / 10 ^ 10) with (2 * delta * IZR ((m0 - 1) * (m1 - 1))).
    2:{ unfold delta. rewrite mult_IZR. assert (T : 10 ^ 10 <> 0) by (apply pow_nonzero; lra). revert T. generalize (10 ^ 10). intros T HT. field. repeat split; try lra. }
    apply S.
    + apply Rmult_le_pos; [lra|]. apply IZR_le. nia.
    + intros k Hk. specialize (K (Z.of_nat k) ltac:(lia)). rewrite Nat2Z.id in K. cbn [INR] in K. rewrite !Rmult_1_l in K. exact K.
    + intros k Hk. replace (0 + Z.of_nat k + 1)%Z with (0 + Z.of_nat k + 1)%Z by lia. f_equal. apply CH. lia.
    + intros C. subst out'. cbn [length] in LE. lia.
Qed.
Print Assumptions C79_turns.

(** For a closed line: the winding number round the centre. *)
Theorem C79_winding : forall g srt cosv m0 m1 radius n xline yline rho th w,
  gels_spec g 2 2 -> sorts srt -> (2 <= m0)%Z -> (4 <= m1)%Z -> (m0 * m1 <= int_max)%Z -> (1 <= n)%Z -> (n + 1 <= int_max)%Z ->
  0 < radius -> 0 < rho -> line_regular cosv m0 m1 radius n xline yline -> line_angles rho cosv n xline yline th ->
  th (n - 1)%Z 1 = th 0%Z 0 + 2 * PI * IZR w ->
  exists flux, polarFlow srt g cosv m0 m1 radius n xline yline = Ret flux /\
    Rabs (flux - IZR w) <= IZR n * (2 * IZR (m0 - 1) / (rho * sin (sector_angle (m1 - 1))) / 10 ^ 10).
Proof.
  intros g srt cosv m0 m1 radius n xline yline rho th w G ST H0 H1 HI Hn HN HR HP SEG ANG CL.
  destruct (C79_turns g srt cosv m0 m1 radius n xline yline rho th) as (flux & E & B); auto. exists flux. split; auto.
  rewrite CL, turns_period in B by lia.
  match type of B with Rabs (_ - ?z) <= _ => replace z with (IZR w) in B by ring end. exact B.
Qed.
Print Assumptions C79_winding.

(** ** Non-trivial case: four sectors and a square round the centre *)
Definition sq_x (t : R) : R := / sqrt 2 * cos (2 * PI * t + PI / 4).
Definition sq_y (t : R) : R := / sqrt 2 * sin (2 * PI * t + PI / 4).
Notation SQ := (line_point (fun _ _ : Z => 0) 4 sq_x sq_y).

Lemma half_turns : forall x, (cos (x + PI / 2) = - sin x /\ sin (x + PI / 2) = cos x) /\ (cos (x + PI) = - cos x /\ sin (x + PI) = - sin x) /\
  (cos (x + 3 * (PI / 2)) = sin x /\ sin (x + 3 * (PI / 2)) = - cos x).
Proof.
  intros x.
  assert (Q : forall y, cos (y + PI / 2) = - sin y /\ sin (y + PI / 2) = cos y).
  { intros y. rewrite cos_plus, sin_plus, cos_PI2, sin_PI2. split; ring. }
  split; [apply Q|]. split; [split; [apply neg_cos|apply neg_sin]|].
  replace (x + 3 * (PI / 2)) with (x + PI + PI / 2) by lra. destruct (Q (x + PI)) as [-> ->]. rewrite neg_cos, neg_sin. split; ring.
Qed.

Lemma sin_shift2 : forall x, sin (x + 2 * PI) = sin x /\ cos (x + 2 * PI) = cos x.
Proof. intros x. assert (H := sin_turns x 1). rewrite Rmult_1_r in H. exact H. Qed.

Lemma sq_points : SQ 0 = (1 / 2, 1 / 2) /\ SQ 1 = (- (1 / 2), 1 / 2) /\ SQ 2 = (- (1 / 2), - (1 / 2)) /\
  SQ 3 = (1 / 2, - (1 / 2)) /\ SQ 4 = (1 / 2, 1 / 2).
Proof.
  unfold line_point, sq_x, sq_y. rewrite !Rmult_0_r, !Rplus_0_r.
  assert (S2 : sqrt 2 * sqrt 2 = 2) by (apply sqrt_sqrt; lra). assert (SP : 0 < sqrt 2) by (apply sqrt_lt_R0; lra).
  assert (H : / sqrt 2 * (1 / sqrt 2) = 1 / 2) by (replace (1 / 2) with (/ (sqrt 2 * sqrt 2)) by (rewrite S2; field); field; lra).
  destruct (half_turns (PI / 4)) as ((C1 & D1) & (C2 & D2) & (C3 & D3)).
  replace (2 * PI * (0 / 4) + PI / 4) with (PI / 4) by field. replace (2 * PI * (1 / 4) + PI / 4) with (PI / 4 + PI / 2) by field.
  replace (2 * PI * (2 / 4) + PI / 4) with (PI / 4 + PI) by field. replace (2 * PI * (3 / 4) + PI / 4) with (PI / 4 + 3 * (PI / 2)) by field.
  replace (2 * PI * (4 / 4) + PI / 4) with (PI / 4 + 2 * PI) by field. 
  rewrite (proj2 (sin_shift2 (PI / 4))), (proj1 (sin_shift2 (PI / 4))).
  rewrite C1, D1, C2, D2, C3, D3, cos_PI4, sin_PI4. rewrite <- !Ropp_mult_distr_r, H. repeat split.
Qed.

Notation DX := (disc_x 1 4 2).
Notation DY := (disc_y 1 4 2).

Lemma disc_nodes : forall i j, (j = 0 \/ j = 1 \/ j = 2 \/ j = 3 \/ j = 4)%Z -> DX i j = 2 * IZR i * cx j /\ DY i j = 2 * IZR i * cy j.
Proof.
  intros i j Hj. unfold disc_x, disc_y, sector_angle. destruct (half_turns 0) as ((C1 & D1) & (C2 & D2) & (C3 & D3)).
  rewrite Rplus_0_l in *. destruct ctab as (X0 & X1 & X2 & X3 & X4 & Y0 & Y1 & Y2 & Y3 & Y4).
  destruct Hj as [-> | [-> | [-> | [-> | ->]]]]; rewrite ?X0, ?X1, ?X2, ?X3, ?X4, ?Y0, ?Y1, ?Y2, ?Y3, ?Y4.
  - replace (0 * (2 * PI / 4)) with 0 by ring. rewrite cos_0, sin_0. split; field.
  - replace (1 * (2 * PI / 4)) with (PI / 2) by field. rewrite C1, D1, cos_0, sin_0. split; field.
  - replace (2 * (2 * PI / 4)) with PI by field. rewrite C2, D2, cos_0, sin_0. split; field.
  - replace (3 * (2 * PI / 4)) with (3 * (PI / 2)) by field. rewrite C3, D3, cos_0, sin_0. split; field.
  - replace (4 * (2 * PI / 4)) with (0 + 2 * PI) by field. destruct (sin_shift2 0) as [-> ->]. rewrite cos_0, sin_0. split; field.
Qed.

Ltac disc j := 
  destruct (disc_nodes 0 j ltac:(lia)) as [A1 A2]; destruct (disc_nodes (0 + 1) j ltac:(lia)) as [B1 B2];
  destruct (disc_nodes 0 (j + 1) ltac:(lia)) as [C1 C2]; destruct (disc_nodes (0 + 1) (j + 1) ltac:(lia)) as [D1 D2];
  rewrite ?A1, ?A2, ?B1, ?B2, ?C1, ?C2, ?D1, ?D2 in *; clear A1 A2 B1 B2 C1 C2 D1 D2.

Lemma disc_hull : forall j p, (j = 0 \/ j = 1 \/ j = 2 \/ j = 3)%Z ->
  in_hull (corners DX DY 0 j) p <-> 0 <= ru j p /\ 0 <= ru (j + 1) p /\ ru j p + ru (j + 1) p <= 2.
Proof.
  intros j p Hj. unfold corners. disc j. split.
  - intros (w & L & W & S1 & SX & SY). destruct w as [|w0 [|w1 [|w2 [|w3 [|]]]]]; try discriminate L.
    cbn [map wsum fst snd] in *. repeat (apply Forall_cons_iff in W; let H := fresh "W" in destruct W as [H W]).
    unfold ru. rewrite SX, SY. assert (w0 = 1 - w1 - w2 - w3) by lra. subst w0. clear SX SY.
    destruct Hj as [-> | [-> | [-> | ->]]]; ringc; lra.
  - intros (Hu & Hv & Hs).
    exists [1 - ru j p / 2 - ru (j + 1) p / 2; ru j p / 2; ru (j + 1) p / 2; 0]. split; [reflexivity|].
    split; [repeat (constructor; [lra|]); constructor|].
    cbn [map wsum fst snd]. split; [ring|]. clear Hu Hv Hs. unfold ru in *.
    destruct Hj as [-> | [-> | [-> | ->]]]; ringc; lra.
Qed.

Ltac sqs := steps; destruct sq_points as (P0 & P1 & P2 & P3 & P4); rewrite ?P0, ?P1, ?P2, ?P3, ?P4 in *; clear P0 P1 P2 P3 P4.

Lemma sq_meets : forall k j t, (k = 0 \/ k = 1 \/ k = 2 \/ k = 3)%Z -> (j = 0 \/ j = 1 \/ j = 2 \/ j = 3)%Z -> 0 <= t <= 1 ->
  in_hull (corners DX DY 0 j) (on_seg (SQ k) (SQ (k + 1)) t) <-> (j = k /\ t <= 1 / 2) \/ (j = nextc k /\ 1 / 2 <= t).
Proof.
  intros k j t Hk Hj Ht. rewrite disc_hull by auto. unfold ru, on_seg.
  destruct Hk as [-> | [-> | [-> | ->]]]; sqs; cbn [fst snd];
  (destruct Hj as [-> | [-> | [-> | ->]]]; ringc; unfold nextc; cbn [Z.eqb Pos.eqb]; steps;
   (split; [intros (A1 & A2 & A3); try (left; split; [reflexivity|lra]); try (right; split; [reflexivity|lra]); exfalso; lra|
     intros [[E B]|[E B]]; try discriminate E; lra])).
Qed.

Lemma sq_regular : line_regular (fun _ _ => 0) 2 5 2 4 sq_x sq_y.
Proof.
  intros k Hk. cbv zeta. assert (Ck : (k = 0 \/ k = 1 \/ k = 2 \/ k = 3)%Z) by lia.
  change (2 - 1)%Z with 1%Z. change (5 - 1)%Z with 4%Z.
  split; [|split; [|split]].
  - intros E. destruct Ck as [-> | [-> | [-> | ->]]]; sqs; injection E; lra.
  - intros t Ht. assert (CN : is_cell2 2 5 0 k /\ is_cell2 2 5 0 (nextc k)) by (unfold is_cell2, nextc; destruct Ck as [-> | [-> | [-> | ->]]]; cbn [Z.eqb Pos.eqb]; lia).
    destruct (Rle_dec t (1 / 2)).
    + exists 0%Z, k. split; [tauto|]. apply sq_meets; auto.
    + exists 0%Z, (nextc k). split; [tauto|]. apply sq_meets; auto.
      * unfold nextc. destruct Ck as [-> | [-> | [-> | ->]]]; cbn [Z.eqb Pos.eqb]; lia.
      * right. split; [reflexivity|lra].
  - intros i j i' j' t t' HC HC' NE Ht Ht' A1 A2 A3 A4.
    destruct (ring_cells i j HC) as [-> Hj]. destruct (ring_cells i' j' HC') as [-> Hj'].
    apply sq_meets in A1, A2, A3, A4; auto.
    assert (NJ : j <> j') by congruence. assert (NK : nextc k <> k) by (unfold nextc; destruct Ck as [-> | [-> | [-> | ->]]]; cbn [Z.eqb Pos.eqb]; lia).
    assert (t = 1 / 2) by (destruct A1 as [[? ?]|[? ?]], A2 as [[? ?]|[? ?]]; subst; try congruence; lra).
    assert (t' = 1 / 2) by (destruct A3 as [[? ?]|[? ?]], A4 as [[? ?]|[? ?]]; subst; try congruence; lra).
    lra.
  - intros i j HC. destruct (ring_cells i j HC) as [-> Hj]. assert (T := tol_small). revert T. generalize (100 * / 2 ^ 52). intros tol T.
    split.
    + intros p Hp (w & L & W & S1 & SX & SY). destruct w as [|w0 [|w1 [|w2 [|w3 [|]]]]]; try discriminate L.
      apply disc_hull; auto. cbn [map wsum fst snd] in *. disc j.
      repeat (apply Forall_cons_iff in W; let H := fresh "W" in destruct W as [H W]). unfold ru.
      destruct Ck as [-> | [-> | [-> | ->]]]; sqs;
      (destruct Hj as [-> | [-> | [-> | ->]]]; ringc; destruct Hp as [-> | ->]; cbn [fst snd] in *; lra).
    + disc j. intros e He s t EQ TR Hs Ht. unfold on_seg in EQ.
      destruct Ck as [-> | [-> | [-> | ->]]]; sqs;
      (destruct Hj as [-> | [-> | [-> | ->]]]; ringc;
       (destruct He as [<-|[<-|[<-|[<-|[]]]]]; cbn [fst snd] in EQ; injection EQ as EX EY; lra)).
Qed.

(** The angle along side k. *)
Definition sq_th (k : Z) (t : R) : R := PI / 2 - atan (1 - 2 * t) + IZR k * (PI / 2).

Lemma sq_angles : line_angles (1 / 2) (fun _ _ => 0) 4 sq_x sq_y sq_th.
Proof.
  split.
  - intros k Hk. assert (Ck : (k = 0 \/ k = 1 \/ k = 2 \/ k = 3)%Z) by lia. split.
    + unfold sq_th. intros t. apply continuity_pt_plus; [|apply continuity_pt_const; intros x y; reflexivity].
      apply continuity_pt_minus; [apply continuity_pt_const; intros x y; reflexivity|].
      apply (continuity_pt_comp (fun t => 1 - 2 * t) atan); [|apply derivable_continuous_pt, derivable_pt_atan].
      apply derivable_continuous_pt. reg.
    + intros t Ht. set (m := 1 - 2 * t). set (q := sqrt (1 + m²)). exists (1 / 2 * q).
      assert (M0 : 0 <= m²) by apply Rle_0_sqr.
      assert (Q1 : 1 <= q) by (unfold q; rewrite <- sqrt_1 at 1; apply sqrt_le_1_alt; lra).
      split; [lra|]. assert (CA : q * cos (atan m) = 1) by (rewrite cos_atan; fold q; field; lra).
      assert (SA : q * sin (atan m) = m) by (rewrite sin_atan; fold q; field; lra).
      assert (CB : cos (PI / 2 - atan m) = sin (atan m)) by (rewrite cos_shift; reflexivity).
      assert (SB : sin (PI / 2 - atan m) = cos (atan m)) by (rewrite sin_shift; reflexivity).
      unfold sq_th. fold m. destruct (half_turns (PI / 2 - atan m)) as ((C1 & D1) & (C2 & D2) & (C3 & D3)).
      rewrite CB, SB in *.
      destruct Ck as [-> | [-> | [-> | ->]]]; sqs; unfold on_seg; cbn [fst snd].
      * rewrite Rmult_0_l, Rplus_0_r, CB, SB. f_equal; [|lra]. transitivity (1 / 2 * m); [unfold m; field|rewrite <- SA at 1; ring].
      * rewrite Rmult_1_l, C1, D1. f_equal; [lra|]. transitivity (1 / 2 * m); [unfold m; field|rewrite <- SA at 1; ring].
      * replace (2 * (PI / 2)) with PI by field. rewrite C2, D2. f_equal; [|lra]. transitivity (- (1 / 2 * m)); [unfold m; field|rewrite <- SA at 1; ring].
      * rewrite C3, D3. f_equal; [lra|]. transitivity (- (1 / 2 * m)); [unfold m; field|rewrite <- SA at 1; ring].
  - intros k Hk. unfold sq_th. replace (1 - 2 * 1) with (- (1)) by ring. replace (1 - 2 * 0) with 1 by ring.
    rewrite atan_opp, atan_1, plus_IZR. field.
Qed.

(** The square goes once round the centre: the number printed is 1 within 2e-9. *)
Example C79_case : exists flux, polarFlow insertion gels2 (fun _ _ => 0) 2 5 2 4 sq_x sq_y = Ret flux /\ Rabs (flux - 1) <= 2 / 10 ^ 9.
Proof.
  destruct (C79_winding gels2 insertion (fun _ _ => 0) 2 5 2 4 sq_x sq_y (1 / 2) sq_th 1) as (flux & E & B); try lia; try lra; try (unfold int_max; lia).
  - exact gels2_spec22.
  - apply insertion_sorts.
  - exact sq_regular.
  - exact sq_angles.
  - unfold sq_th. replace (1 - 2 * 1) with (- (1)) by ring. replace (1 - 2 * 0) with 1 by ring. rewrite atan_opp, atan_1. change (4 - 1)%Z with 3%Z. field.
  - exists flux. split; auto. change (2 - 1)%Z with 1%Z in B. change (5 - 1)%Z with 4%Z in B.
    replace (sector_angle 4) with (PI / 2) in B by (unfold sector_angle; field). rewrite sin_PI2 in B.
    eapply Rle_trans; [exact B|]. lra.
Qed.
