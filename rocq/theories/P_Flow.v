(** Properties C33 to C36 and C59: flow interpolation. *)
From Coq Require Import ZArith List Bool Reals Lra Lia Floats.SpecFloat FinFun.
From Verif Require Import Base Num NumR NumF M_BoxIterator M_LinearSolve M_FindPoint M_Triangulate M_Quad M_QuadLine M_FlowInterp
  S_LinAlg S_Geometry S_Quad S_Grid S_Sort S_Array S_Flow S_FlowTable
  L_LinearSolve L_Cramer L_Hull L_Quad L_QuadLine L_Box2 L_Flow L_FlowFind L_FlowInterp L_FlowTable L_FlowGen L_FlowPar L_FlowTrap L_FlowTotal.
Import ListNotations.
Open Scope R_scope.

(** A client: a new object, the source grid, the line, computeWeights m times, apply. *)
Definition flow_run {T} {N : Num T} (srt : (T -> T -> bool) -> list T -> list T) (g : gels T) (cosv : Z -> Z -> T)
  (d0 d1 : Z) (xs ys : list T) (n : Z) (dxs dys : list T) (m : nat) (data0 data1 out : list T) : exec (list T) :=
  let! s1 := fl_setSrcGrid fl_new d0 d1 [xs; ys] in
  let! s2 := fl_setDstGrid cosv s1 n [dxs; dys] in
  let! s3 := foldM (fun s (_ : Z) => fl_computeWeights srt g s) (zseq m) s2 in
  fl_apply s3 data0 data1 out.

Lemma foldM_const : forall {A} (f : A -> exec A) m s,
  foldM (fun s (_ : Z) => f s) (zseq m) s = (fix go m s := match m with O => Ret s | S m' => let! s' := f s in go m' s' end) m s.
Proof.
  intros A f m. unfold zseq. generalize 0%nat. induction m as [|m IH]; intros a s; [reflexivity|].
  cbn [seq map foldM]. destruct (f s); cbn [bind]; auto.
Qed.

Lemma flow_run_ok : forall srt g cosv d0 d1 xs ys n dxs dys m data0 data1 out s1 s2 s3 out',
  fl_setSrcGrid fl_new d0 d1 [xs; ys] = Ret s1 -> fl_setDstGrid cosv s1 n [dxs; dys] = Ret s2 ->
  fl_computeN g srt m s2 = Ret s3 -> fl_apply s3 data0 data1 out = Ret out' ->
  flow_run srt g cosv d0 d1 xs ys n dxs dys m data0 data1 out = Ret out'.
Proof.
  intros srt g cosv d0 d1 xs ys n dxs dys m data0 data1 out s1 s2 s3 out' E1 E2 E3 E4.
  unfold flow_run. rewrite E1. cbn [bind]. rewrite E2. cbn [bind]. rewrite foldM_const.
  assert (X : forall m s, (fix go m s := match m with O => Ret s | S m' => let! s' := fl_computeWeights srt g s in go m' s' end) m s = fl_computeN g srt m s).
  { induction m0 as [|m0 IH]; intros s; [reflexivity|]. cbn. destruct (fl_computeWeights srt g s); cbn [bind]; auto. }
  rewrite X, E3. cbn [bind]. exact E4.
Qed.

(** Edge values of a stream function with nodal values psi. *)
Definition edges0 (psi : Z -> Z -> R) (i j : Z) : R := psi (i + 1)%Z j - psi i j.
Definition edges1 (psi : Z -> Z -> R) (i j : Z) : R := psi i (j + 1)%Z - psi i j.

(** Hypotheses on the segments of the line: every segment is in the grid, meets two different cells
    together in at most one point, and misses no cell by less than the tolerance. *)
Definition regular_line (d0 d1 : Z) (nx ny : Z -> Z -> R) (cosv : Z -> Z -> R) (n : Z) (dxs dys : list R) : Prop :=
  forall k, (0 <= k < n - 1)%Z ->
  let A := displaced (fun i => cosv i n) dxs dys k in let B := displaced (fun i => cosv i n) dxs dys (k + 1) in
  cells_cover d0 d1 nx ny A B /\ cells_share_once d0 d1 nx ny A B /\ cells_no_near_miss (100 * / 2 ^ 52) d0 d1 nx ny A B.


(** Every cell is a parallelogram; every cell has two parallel sides (in the second direction). *)
Definition parallelogram_cells (d0 d1 : Z) (nx ny : Z -> Z -> R) : Prop :=
  forall i j, is_cell2 d0 d1 i j ->
  nx (i + 1)%Z (j + 1)%Z = nx (i + 1)%Z j + nx i (j + 1)%Z - nx i j /\
  ny (i + 1)%Z (j + 1)%Z = ny (i + 1)%Z j + ny i (j + 1)%Z - ny i j /\
  cr (nx i j, ny i j) (nx (i + 1)%Z j, ny (i + 1)%Z j) (nx i (j + 1)%Z, ny i (j + 1)%Z) <> 0.
Definition trapezoid_cells (d0 d1 : Z) (nx ny : Z -> Z -> R) : Prop :=
  forall i j, is_cell2 d0 d1 i j ->
  cr (nx i j, ny i j) (nx (i + 1)%Z j, ny (i + 1)%Z j) (nx i (j + 1)%Z, ny i (j + 1)%Z) <> 0 /\
  exists lam, 0 < lam /\ nx (i + 1)%Z (j + 1)%Z - nx (i + 1)%Z j = lam * (nx i (j + 1)%Z - nx i j) /\
    ny (i + 1)%Z (j + 1)%Z - ny (i + 1)%Z j = lam * (ny i (j + 1)%Z - ny i j).

(** C33.  Parallelogram cells (rectilinear, sheared, rotated grids): the flux of every segment is
    the difference of the interpolated stream function. *)
Theorem C33_flux_parallelograms : forall g srt cosv d0 d1 nx ny psi F n xs ys dxs dys data0 data1 out,
  gels_spec g 2 2 -> sorts srt -> (2 <= d0)%Z -> (2 <= d1)%Z -> (d0 * d1 <= int_max)%Z -> (2 <= n <= int_max)%Z ->
  stores d0 d1 nx xs -> stores d0 d1 ny ys -> Z.of_nat (length dxs) = n -> Z.of_nat (length dys) = n ->
  stores (d0 - 1) d1 (edges0 psi) data0 -> stores d0 (d1 - 1) (edges1 psi) data1 -> Z.of_nat (length out) = (n - 1)%Z ->
  parallelogram_cells d0 d1 nx ny -> interpolates d0 d1 nx ny psi F -> regular_line d0 d1 nx ny cosv n dxs dys ->
  exists out', flow_run srt g cosv d0 d1 xs ys n dxs dys 1 data0 data1 out = Ret out' /\ length out' = length out /\
    forall k, (0 <= k < n - 1)%Z -> nth (Z.to_nat k) out' 0 =
      F (displaced (fun i => cosv i n) dxs dys (k + 1)) - F (displaced (fun i => cosv i n) dxs dys k).
Proof.
  intros g srt cosv d0 d1 nx ny psi F n xs ys dxs dys data0 data1 out G ST H0 H1 HI Hn SX SY LX LY D0 D1 LO PAR INT SEG.
  destruct (flux_parallelograms g srt cosv d0 d1 nx ny psi (fun _ => F) n 1 xs ys dxs dys data0 data1 out) as (s1 & s2 & s3 & out' & E1 & E2 & E3 & E4 & L & K); auto.
  { intros k Hk A B. split; [apply interpolates_one; auto|apply (SEG k Hk)]. }
  exists out'. split; [apply (flow_run_ok _ _ _ _ _ _ _ _ _ _ _ _ _ _ s1 s2 s3); auto|]. split; [lia|].
    intros k Hk. rewrite K by auto. cbn [INR]. ring.
Qed.
Print Assumptions C33_flux_parallelograms.

(** The total over the line is the difference between its ends, zero when it is closed. *)
Theorem C33_total : forall g srt cosv d0 d1 nx ny psi F n xs ys dxs dys data0 data1 out,
  gels_spec g 2 2 -> sorts srt -> (2 <= d0)%Z -> (2 <= d1)%Z -> (d0 * d1 <= int_max)%Z -> (2 <= n <= int_max)%Z ->
  stores d0 d1 nx xs -> stores d0 d1 ny ys -> Z.of_nat (length dxs) = n -> Z.of_nat (length dys) = n ->
  stores (d0 - 1) d1 (edges0 psi) data0 -> stores d0 (d1 - 1) (edges1 psi) data1 -> Z.of_nat (length out) = (n - 1)%Z ->
  parallelogram_cells d0 d1 nx ny -> interpolates d0 d1 nx ny psi F -> regular_line d0 d1 nx ny cosv n dxs dys ->
  let P := displaced (fun i => cosv i n) dxs dys in
  exists out', flow_run srt g cosv d0 d1 xs ys n dxs dys 1 data0 data1 out = Ret out' /\
    fold_right Rplus 0 out' = F (P (n - 1)%Z) - F (P 0%Z) /\ (P (n - 1)%Z = P 0%Z -> fold_right Rplus 0 out' = 0).
Proof.
  intros g srt cosv d0 d1 nx ny psi F n xs ys dxs dys data0 data1 out G ST H0 H1 HI Hn SX SY LX LY D0 D1 LO PAR INT SEG P.
  destruct (C33_flux_parallelograms g srt cosv d0 d1 nx ny psi F n xs ys dxs dys data0 data1 out) as (out' & E & L & K); auto.
  exists out'. split; auto. fold P in K.
  enough (S : fold_right Rplus 0 out' = F (P (n - 1)%Z) - F (P 0%Z)) by (split; [exact S|intros X; rewrite S, X; ring]).
  assert (T : forall l a, (forall k, (k < length l)%nat -> nth k l 0 = F (P (a + Z.of_nat k + 1)%Z) - F (P (a + Z.of_nat k)%Z)) ->
    fold_right Rplus 0 l = F (P (a + Z.of_nat (length l))%Z) - F (P a)).
  { clear. induction l as [|x l IH]; intros a H.
    - cbn [fold_right length]. rewrite Z.add_0_r. ring.
    - cbn [fold_right]. rewrite (IH (a + 1)%Z).
      + assert (X := H 0%nat ltac:(simpl; lia)). cbn [nth] in X. rewrite X, Z.add_0_r. cbn [length].
        replace (a + 1 + Z.of_nat (length l))%Z with (a + Z.of_nat (S (length l)))%Z by lia. ring.
      + intros k Hk. specialize (H (S k) ltac:(simpl; lia)). cbn [nth] in H. rewrite H. replace (a + 1 + Z.of_nat k)%Z with (a + Z.of_nat (S k))%Z by lia. reflexivity. }
  rewrite (T out' 0%Z).
  - replace (0 + Z.of_nat (length out'))%Z with (n - 1)%Z by lia. reflexivity.
  - intros k Hk. specialize (K (Z.of_nat k) ltac:(lia)). rewrite Nat2Z.id in K. rewrite K. reflexivity.
Qed.
Print Assumptions C33_total.

(** C33, cells with two parallel sides: the same within the accuracy of the point search, for a
    stream function changing in a cell by at most L per unit length. *)
Theorem C33_flux_trapezoids : forall g srt cosv d0 d1 nx ny psi F L n xs ys dxs dys data0 data1 out,
  gels_spec g 2 2 -> sorts srt -> (2 <= d0)%Z -> (2 <= d1)%Z -> (d0 * d1 <= int_max)%Z -> (2 <= n <= int_max)%Z ->
  stores d0 d1 nx xs -> stores d0 d1 ny ys -> Z.of_nat (length dxs) = n -> Z.of_nat (length dys) = n ->
  stores (d0 - 1) d1 (edges0 psi) data0 -> stores d0 (d1 - 1) (edges1 psi) data1 -> Z.of_nat (length out) = (n - 1)%Z ->
  trapezoid_cells d0 d1 nx ny -> interpolates d0 d1 nx ny psi F -> lipschitz d0 d1 nx ny L F -> 0 <= L ->
  regular_line d0 d1 nx ny cosv n dxs dys ->
  exists out', flow_run srt g cosv d0 d1 xs ys n dxs dys 1 data0 data1 out = Ret out' /\ length out' = length out /\
    forall k, (0 <= k < n - 1)%Z -> Rabs (nth (Z.to_nat k) out' 0 -
      (F (displaced (fun i => cosv i n) dxs dys (k + 1)) - F (displaced (fun i => cosv i n) dxs dys k)))
      <= 2 * (L * / 10 ^ 10) * IZR ((d0 - 1) * (d1 - 1)).
Proof.
  intros g srt cosv d0 d1 nx ny psi F L n xs ys dxs dys data0 data1 out G ST H0 H1 HI Hn SX SY LX LY D0 D1 LO TR INT LIP LP SEG.
  destruct (flux_convex g srt cosv d0 d1 nx ny psi (fun _ => F) L n 1 xs ys dxs dys data0 data1 out) as (s1 & s2 & s3 & out' & E1 & E2 & E3 & E4 & LL & K); auto.
  - intros i j Hc. destruct (TR i j Hc) as (C & lam & HL & P1 & P2). apply (trap_convexq (cell_quad nx ny i j) lam); auto.
  - intros k Hk A B. destruct (SEG k Hk) as (S1 & S2 & S3). split; [apply interpolates_one; auto|]. split; [apply lipschitz_one; auto|]. split; auto. split; [auto|]. split; [auto|].
    intros i j t Hc Ht HH. apply trapezoid_locates; auto. apply (TR i j Hc).
  - exists out'. split; [apply (flow_run_ok _ _ _ _ _ _ _ _ _ _ _ _ _ _ s1 s2 s3); auto|]. split; [lia|].
    intros k Hk. specialize (K k Hk). cbn [INR] in K. rewrite !Rmult_1_l in K. exact K.
Qed.
Print Assumptions C33_flux_trapezoids.

(** C33, any strictly convex cells: the same when the search succeeds, that is when
    computeProjections of a new SgQuadLineFlows object reports 0 for the points of the segments in
    the cell. *)
Theorem C33_flux_convex : forall g srt cosv d0 d1 nx ny psi F L n xs ys dxs dys data0 data1 out,
  gels_spec g 2 2 -> sorts srt -> (2 <= d0)%Z -> (2 <= d1)%Z -> (d0 * d1 <= int_max)%Z -> (2 <= n <= int_max)%Z ->
  stores d0 d1 nx xs -> stores d0 d1 ny ys -> Z.of_nat (length dxs) = n -> Z.of_nat (length dys) = n ->
  stores (d0 - 1) d1 (edges0 psi) data0 -> stores d0 (d1 - 1) (edges1 psi) data1 -> Z.of_nat (length out) = (n - 1)%Z ->
  (forall i j, is_cell2 d0 d1 i j -> convex4 (nx i j, ny i j) (nx (i + 1)%Z j, ny (i + 1)%Z j)
     (nx (i + 1)%Z (j + 1)%Z, ny (i + 1)%Z (j + 1)%Z) (nx i (j + 1)%Z, ny i (j + 1)%Z)) ->
  interpolates d0 d1 nx ny psi F -> lipschitz d0 d1 nx ny L F -> 0 <= L ->
  regular_line d0 d1 nx ny cosv n dxs dys ->
  (forall k i j t, (0 <= k < n - 1)%Z -> is_cell2 d0 d1 i j -> 0 <= t <= 1 ->
     let p := on_seg (displaced (fun i => cosv i n) dxs dys k) (displaced (fun i => cosv i n) dxs dys (k + 1)) t in
     in_hull (corners nx ny i j) p -> exists s1 s2, qf_setQuadPoints qf_new (cell_quad nx ny i j) = Ret s1 /\
       qf_computeProjections g (qf_setLinePoints s1 (p, p)) = Ret (0%Z, s2)) ->
  exists out', flow_run srt g cosv d0 d1 xs ys n dxs dys 1 data0 data1 out = Ret out' /\ length out' = length out /\
    forall k, (0 <= k < n - 1)%Z -> Rabs (nth (Z.to_nat k) out' 0 -
      (F (displaced (fun i => cosv i n) dxs dys (k + 1)) - F (displaced (fun i => cosv i n) dxs dys k)))
      <= 2 * (L * / 10 ^ 10) * IZR ((d0 - 1) * (d1 - 1)).
Proof.
  intros g srt cosv d0 d1 nx ny psi F L n xs ys dxs dys data0 data1 out G ST H0 H1 HI Hn SX SY LX LY D0 D1 LO CVX INT LIP LP SEG LOC.
  destruct (flux_convex g srt cosv d0 d1 nx ny psi (fun _ => F) L n 1 xs ys dxs dys data0 data1 out) as (s1 & s2 & s3 & out' & E1 & E2 & E3 & E4 & LL & K); auto.
  - intros i j Hc. apply convex4_convexq. apply (CVX i j Hc).
  - intros k Hk A B. destruct (SEG k Hk) as (S1 & S2 & S3). split; [apply interpolates_one; auto|]. split; [apply lipschitz_one; auto|]. split; auto. split; [auto|]. split; [auto|].
    intros i j t Hc Ht HH. apply (LOC k i j t Hk Hc Ht HH).
  - exists out'. split; [apply (flow_run_ok _ _ _ _ _ _ _ _ _ _ _ _ _ _ s1 s2 s3); auto|]. split; [lia|].
    intros k Hk. specialize (K k Hk). cbn [INR] in K. rewrite !Rmult_1_l in K. exact K.
Qed.
Print Assumptions C33_flux_convex.

(** C35 is false, and always: on parallelogram cells m calls of computeWeights give m times the flux. *)
Theorem C35_recompute_refuted : forall g srt cosv d0 d1 nx ny psi F n m xs ys dxs dys data0 data1 out,
  gels_spec g 2 2 -> sorts srt -> (2 <= d0)%Z -> (2 <= d1)%Z -> (d0 * d1 <= int_max)%Z -> (2 <= n <= int_max)%Z -> m <> 0%nat ->
  stores d0 d1 nx xs -> stores d0 d1 ny ys -> Z.of_nat (length dxs) = n -> Z.of_nat (length dys) = n ->
  stores (d0 - 1) d1 (edges0 psi) data0 -> stores d0 (d1 - 1) (edges1 psi) data1 -> Z.of_nat (length out) = (n - 1)%Z ->
  parallelogram_cells d0 d1 nx ny -> interpolates d0 d1 nx ny psi F -> regular_line d0 d1 nx ny cosv n dxs dys ->
  exists out', flow_run srt g cosv d0 d1 xs ys n dxs dys m data0 data1 out = Ret out' /\ length out' = length out /\
    forall k, (0 <= k < n - 1)%Z -> nth (Z.to_nat k) out' 0 =
      INR m * (F (displaced (fun i => cosv i n) dxs dys (k + 1)) - F (displaced (fun i => cosv i n) dxs dys k)).
Proof.
  intros g srt cosv d0 d1 nx ny psi F n m xs ys dxs dys data0 data1 out G ST H0 H1 HI Hn Hm SX SY LX LY D0 D1 LO PAR INT SEG.
  destruct (flux_parallelograms g srt cosv d0 d1 nx ny psi (fun _ => F) n m xs ys dxs dys data0 data1 out) as (s1 & s2 & s3 & out' & E1 & E2 & E3 & E4 & L & K); auto.
  { intros k Hk A B. split; [apply interpolates_one; auto|apply (SEG k Hk)]. }
  exists out'. split; [apply (flow_run_ok _ _ _ _ _ _ _ _ _ _ _ _ _ _ s1 s2 s3); auto|]. split; [lia|exact K].
Qed.
Print Assumptions C35_recompute_refuted.

(** ** Non-trivial cases: two cells side by side with nodes (i, j (1 + c i)), squares for c = 0 and
    trapezoids for c = 1, and the segment from (1/2, 1/4) to (3/2, 3/4), not displaced. *)
Definition ex_x (i j : Z) : R := IZR i.
Definition ex_y (c : R) (i j : Z) : R := IZR j * (1 + c * IZR i).

Lemma ex_cells : forall i j, is_cell2 3 2 i j -> (i = 0 \/ i = 1)%Z /\ j = 0%Z.
Proof. intros i j [Hi Hj]. lia. Qed.

Lemma ex_hull : forall c i j p, 0 <= c -> is_cell2 3 2 i j ->
  in_hull (corners ex_x (ex_y c) i j) p <-> IZR i <= fst p <= IZR i + 1 /\ 0 <= snd p <= 1 + c * fst p.
Proof.
  intros c i j p Hc HC. destruct (ex_cells i j HC) as [Hi ->].
  assert (I0 : 0 <= IZR i) by (destruct Hi as [-> | ->]; lra).
  unfold corners, ex_x, ex_y. cbn [Z.add]. rewrite !plus_IZR. split.
  - intros (w & L & W & S1 & SX & SY). destruct w as [|w0 [|w1 [|w2 [|w3 [|]]]]]; try discriminate L.
    cbn [map wsum fst snd] in *. repeat (apply Forall_cons_iff in W; let H := fresh "W" in destruct W as [H W]).
    rewrite SX, SY. assert (w0 = 1 - w1 - w2 - w3) by lra. subst w0.
    split; [destruct Hi as [-> | ->]; lra|].
    assert (0 <= c * IZR i) by (apply Rmult_le_pos; auto).
    assert (E : forall x, c * (x + 1) = c * x + c) by (intros; ring).
    nra.
  - intros [Hx Hy]. destruct p as [x y]. cbn [fst snd] in *.
    assert (D : 1 + c * x > 0) by (assert (0 <= c * x) by (apply Rmult_le_pos; lra); lra).
    set (a := x - IZR i). set (v := y / (1 + c * x)).
    assert (Ha : 0 <= a <= 1) by (unfold a; lra).
    assert (Hv : 0 <= v <= 1).
    { unfold v. split; [apply Rmult_le_pos; [lra|left; apply Rinv_0_lt_compat; lra]|].
      apply Rmult_le_reg_r with (1 + c * x); [lra|]. unfold Rdiv. rewrite Rmult_assoc, Rinv_l by lra. lra. }
    assert (Ey : y = v * (1 + c * (IZR i + a))) by (unfold v, a; replace (IZR i + (x - IZR i)) with x by ring; field; lra).
    exists [(1 - a) * (1 - v); a * (1 - v); a * v; (1 - a) * v]. split; [reflexivity|].
    split; [repeat (constructor; [rewrite Ropp_0; apply Rmult_le_pos; lra|]); constructor|].
    cbn [map wsum fst snd]. split; [ring|]. split; [unfold a; ring|]. rewrite Ey. ring.
Qed.

Lemma ex_regular : forall c, c = 0 \/ c = 1 ->
  regular_line 3 2 ex_x (ex_y c) (fun _ _ => 0) 2 [1 / 2; 3 / 2] [1 / 4; 3 / 4].
Proof.
  intros c Hc k Hk. assert (k = 0%Z) by lia. subst k.
  assert (C0 : 0 <= c <= 1) by (destruct Hc; lra).
  assert (EA : displaced (fun _ => 0) [1 / 2; 3 / 2] [1 / 4; 3 / 4] 0 = (1 / 2, 1 / 4)) by (unfold displaced; change (Z.to_nat 0) with 0%nat; cbn [nth]; f_equal; ring).
  assert (EB : displaced (fun _ => 0) [1 / 2; 3 / 2] [1 / 4; 3 / 4] (0 + 1) = (3 / 2, 3 / 4)).
  { unfold displaced. change (Z.to_nat (0 + 1)) with 1%nat. cbn [nth]. f_equal; ring. }
  rewrite EA, EB. clear EA EB. cbv zeta.
  assert (ES : forall t, on_seg (1 / 2, 1 / 4) (3 / 2, 3 / 4) t = (1 / 2 + t, 1 / 4 + t / 2)).
  { intros t. unfold on_seg. cbn [fst snd]. f_equal; field. }
  split; [|split].
  - intros t Ht. rewrite ES. destruct (Rle_dec t (1 / 2)).
    + exists 0%Z, 0%Z. assert (HC : is_cell2 3 2 0 0) by (unfold is_cell2; lia). split; auto. apply ex_hull; auto; [lra|]. cbn [fst snd].
      destruct Hc as [-> | ->]; lra.
    + exists 1%Z, 0%Z. assert (HC : is_cell2 3 2 1 0) by (unfold is_cell2; lia). split; auto. apply ex_hull; auto; [lra|]. cbn [fst snd].
      destruct Hc as [-> | ->]; lra.
  - intros i j i' j' t t' HC HC' NE Ht Ht' A1 A2 A3 A4.
    apply ex_hull in A1; [|lra|auto]. apply ex_hull in A2; [|lra|auto]. apply ex_hull in A3; [|lra|auto]. apply ex_hull in A4; [|lra|auto].
    rewrite ES in *. cbn [fst snd] in *. destruct (ex_cells i j HC) as [Hi ->]. destruct (ex_cells i' j' HC') as [Hi' ->].
    destruct Hi as [-> | ->], Hi' as [-> | ->]; try congruence; lra.
  - intros i j HC. destruct (ex_cells i j HC) as [Hi ->].
    assert (T : 0 < 100 * / 2 ^ 52 < / 100).
    { assert (X : / 2 ^ 52 < / 10000) by (apply Rinv_lt_contravar; [lra|]; lra).
      assert (Y : 0 < / 2 ^ 52) by (apply Rinv_0_lt_compat; lra). lra. }
    revert T. generalize (100 * / 2 ^ 52). intros tol T.
    unfold ex_x, ex_y. cbn [Z.add]. rewrite !plus_IZR. split.
    + intros p Hp (w & L & W & S1 & SX & SY). destruct w as [|w0 [|w1 [|w2 [|w3 [|]]]]]; try discriminate L.
      assert (G := ex_hull c i 0 p ltac:(lra) HC). unfold corners, ex_x, ex_y in G. cbn [Z.add] in G. rewrite !plus_IZR in G. apply G. clear G.
      cbn [map wsum fst snd] in *. repeat (apply Forall_cons_iff in W; let H := fresh "W" in destruct W as [H W]).
      destruct Hp as [-> | ->]; cbn [fst snd] in *; destruct Hi as [-> | ->]; destruct Hc as [-> | ->]; lra.
    + intros e He s t EQ _ Hs Ht. rewrite ES in EQ. unfold on_seg in EQ.
      destruct He as [<-|[<-|[<-|[<-|[]]]]]; cbn [fst snd] in EQ; injection EQ as EX EY;
      destruct Hi as [-> | ->]; destruct Hc as [-> | ->]; lra.
Qed.

Lemma ex_interp : forall c psi (F : point -> R), c = 0 \/ c = 1 ->
  (forall i x y, (i = 0 \/ i = 1)%Z -> 0 <= x <= 1 -> 0 <= y <= 1 -> F (IZR i + x, y * (1 + c * (IZR i + x))) =
     bilinear (psi i 0%Z) (psi (i + 1)%Z 0%Z) (psi i 1%Z) (psi (i + 1)%Z 1%Z) x y) ->
  interpolates 3 2 ex_x (ex_y c) psi F.
Proof.
  intros c psi F Hc H i j x y HC Hx Hy. destruct (ex_cells i j HC) as [Hi ->]. cbn [Z.add]. rewrite <- H by auto. f_equal.
  unfold bilinear_map, bilinear, ex_x, ex_y. cbn [fst snd]. rewrite !plus_IZR. f_equal; ring.
Qed.

(** Squares, stream function x y: flux 3/2 * 3/4 - 1/2 * 1/4 = 1. *)
Example C33_case : exists out', flow_run insertion gels2 (fun _ _ => 0) 3 2 (array2 3 2 ex_x) (array2 3 2 (ex_y 0))
    2 [1 / 2; 3 / 2] [1 / 4; 3 / 4] 1 (array2 2 2 (edges0 (fun i j => IZR i * IZR j))) (array2 3 1 (edges1 (fun i j => IZR i * IZR j))) [7] = Ret out' /\
  nth 0 out' 0 = 1.
Proof.
  set (F := fun p : point => fst p * snd p).
  destruct (C33_flux_parallelograms gels2 insertion (fun _ _ => 0) 3 2 ex_x (ex_y 0) (fun i j => IZR i * IZR j) F 2
    (array2 3 2 ex_x) (array2 3 2 (ex_y 0)) [1 / 2; 3 / 2] [1 / 4; 3 / 4]
    (array2 2 2 (edges0 (fun i j => IZR i * IZR j))) (array2 3 1 (edges1 (fun i j => IZR i * IZR j))) [7]) as (out' & E & L & K);
    try (apply array2_stores; lia); try reflexivity; try lia; try (unfold int_max; lia).
  - exact gels2_spec22.
  - apply insertion_sorts.
  - intros i j HC. destruct (ex_cells i j HC) as [Hi ->]. unfold ex_x, ex_y, cr. cbn [Z.add fst snd]. rewrite !plus_IZR. lra.
  - apply ex_interp; auto. intros i x y Hi Hx Hy. unfold F, bilinear. cbn [fst snd]. rewrite plus_IZR. ring.
  - apply ex_regular. auto.
  - exists out'. split; auto. specialize (K 0%Z ltac:(lia)). change (Z.to_nat 0) with 0%nat in K. rewrite K. unfold F, displaced.
    change (Z.to_nat (0 + 1)) with 1%nat. change (Z.to_nat 0) with 0%nat. cbn [nth fst snd]. field.
Qed.

(** The same called three times: 3. *)
Example C35_case : exists out', flow_run insertion gels2 (fun _ _ => 0) 3 2 (array2 3 2 ex_x) (array2 3 2 (ex_y 0))
    2 [1 / 2; 3 / 2] [1 / 4; 3 / 4] 3 (array2 2 2 (edges0 (fun i j => IZR i * IZR j))) (array2 3 1 (edges1 (fun i j => IZR i * IZR j))) [7] = Ret out' /\
  nth 0 out' 0 = 3.
Proof.
  set (F := fun p : point => fst p * snd p).
  destruct (C35_recompute_refuted gels2 insertion (fun _ _ => 0) 3 2 ex_x (ex_y 0) (fun i j => IZR i * IZR j) F 2 3
    (array2 3 2 ex_x) (array2 3 2 (ex_y 0)) [1 / 2; 3 / 2] [1 / 4; 3 / 4]
    (array2 2 2 (edges0 (fun i j => IZR i * IZR j))) (array2 3 1 (edges1 (fun i j => IZR i * IZR j))) [7]) as (out' & E & L & K);
    try (apply array2_stores; lia); try reflexivity; try lia; try (unfold int_max; lia).
  - exact gels2_spec22.
  - apply insertion_sorts.
  - intros i j HC. destruct (ex_cells i j HC) as [Hi ->]. unfold ex_x, ex_y, cr. cbn [Z.add fst snd]. rewrite !plus_IZR. lra.
  - apply ex_interp; auto. intros i x y Hi Hx Hy. unfold F, bilinear. cbn [fst snd]. rewrite plus_IZR. ring.
  - apply ex_regular. auto.
  - exists out'. split; auto. specialize (K 0%Z ltac:(lia)). change (Z.to_nat 0) with 0%nat in K. rewrite K. unfold F, displaced.
    change (Z.to_nat (0 + 1)) with 1%nat. change (Z.to_nat 0) with 0%nat. cbn [nth fst snd INR]. field.
Qed.

(** Trapezoids, stream function y / (1 + x): flux 3/4 / (5/2) - 1/4 / (3/2) = 2/15 within 8e-10. *)
Example C33_trapezoid_case : exists out', flow_run insertion gels2 (fun _ _ => 0) 3 2 (array2 3 2 ex_x) (array2 3 2 (ex_y 1))
    2 [1 / 2; 3 / 2] [1 / 4; 3 / 4] 1 (array2 2 2 (edges0 (fun i j => IZR j))) (array2 3 1 (edges1 (fun i j => IZR j))) [7] = Ret out' /\
  Rabs (nth 0 out' 0 - 2 / 15) <= 8 / 10 ^ 10.
Proof.
  set (F := fun p : point => snd p / (1 + fst p)).
  destruct (C33_flux_trapezoids gels2 insertion (fun _ _ => 0) 3 2 ex_x (ex_y 1) (fun i j => IZR j) F 2 2
    (array2 3 2 ex_x) (array2 3 2 (ex_y 1)) [1 / 2; 3 / 2] [1 / 4; 3 / 4]
    (array2 2 2 (edges0 (fun i j => IZR j))) (array2 3 1 (edges1 (fun i j => IZR j))) [7]) as (out' & E & L & K);
    try (apply array2_stores; lia); try reflexivity; try lia; try lra; try (unfold int_max; lia).
  - exact gels2_spec22.
  - apply insertion_sorts.
  - intros i j HC. destruct (ex_cells i j HC) as [Hi ->]. unfold ex_x, ex_y, cr. cbn [Z.add fst snd]. rewrite !plus_IZR.
    assert (0 <= IZR i) by (destruct Hi as [-> | ->]; lra). split; [lra|].
    exists ((2 + IZR i) / (1 + IZR i)). split; [apply Rdiv_lt_0_compat; lra|]. split; [ring|]. field. lra.
  - apply ex_interp; auto. intros i x y Hi Hx Hy. unfold F, bilinear. cbn [fst snd].
    assert (0 <= IZR i) by (destruct Hi as [-> | ->]; lra). field. lra.
  - intros i j p p' HC A1 A2. apply ex_hull in A1; [|lra|auto]. apply ex_hull in A2; [|lra|auto].
    destruct (ex_cells i j HC) as [Hi ->]. assert (I0 : 0 <= IZR i) by (destruct Hi as [-> | ->]; lra).
    destruct p as [x y], p' as [x' y']. unfold F. cbn [fst snd] in *.
    set (d := sqrt (sqdist (x, y) (x', y'))).
    assert (DX : Rabs (x - x') <= d /\ Rabs (y - y') <= d).
    { assert (U := Rle_0_sqr (x - x')). assert (V := Rle_0_sqr (y - y')). unfold d, sqdist, Rsqr in *. cbn [fst snd]. split; rewrite <- sqrt_Rsqr_abs; apply sqrt_le_1_alt; unfold Rsqr; nra. }
    assert (EQ : y / (1 + x) - y' / (1 + x') = ((y - y') - y' / (1 + x') * (x - x')) * / (1 + x)) by (field; lra).
    rewrite EQ. clear EQ.
    assert (V : 0 <= y' / (1 + x') <= 1).
    { split; [apply Rmult_le_pos; [lra|left; apply Rinv_0_lt_compat; lra]|].
      apply Rmult_le_reg_r with (1 + x'); [lra|]. unfold Rdiv. rewrite Rmult_assoc, Rinv_l by lra. lra. }
    assert (W : 0 < / (1 + x) <= 1).
    { split; [apply Rinv_0_lt_compat; lra|]. rewrite <- Rinv_1. apply Rinv_le_contravar; lra. }
    revert V W. generalize (y' / (1 + x')) (/ (1 + x)). intros v w V W.
    rewrite Rabs_mult, (Rabs_right w) by lra.
    assert (Rabs (y - y' - v * (x - x')) <= 2 * d).
    { unfold Rminus at 1. eapply Rle_trans; [apply Rabs_triang|]. rewrite Rabs_Ropp, Rabs_mult, (Rabs_right v) by lra.
      assert (0 <= Rabs (x - x')) by apply Rabs_pos. nra. }
    assert (0 <= Rabs (y - y' - v * (x - x'))) by apply Rabs_pos. nra.
  - apply ex_regular. auto.
  - exists out'. split; auto. specialize (K 0%Z ltac:(lia)). change (Z.to_nat 0) with 0%nat in K. unfold F, displaced in K.
    change (Z.to_nat (0 + 1)) with 1%nat in K. change (Z.to_nat 0) with 0%nat in K. cbn [nth fst snd] in K.
    replace ((3 / 4 + 20 * / 2 ^ 52 * 0) / (1 + (3 / 2 + 10 * / 2 ^ 52 * 0)) - (1 / 4 + 20 * / 2 ^ 52 * 0) / (1 + (1 / 2 + 10 * / 2 ^ 52 * 0)))
      with (2 / 15) in K by (rewrite !Rmult_0_r; field).
    eapply Rle_trans; [exact K|]. change ((3 - 1) * (2 - 1))%Z with 2%Z. lra.
Qed.

(** ** C34 *)

(** Segment k of the line given by the arrays, displaced as in setDstGrid. *)
Definition dst_point {T} {N : Num T} (c : Z -> T) (xs ys : list T) (k : Z) : pt T :=
  (nadd (nth (Z.to_nat k) xs n0) (nmul (nmul (nmul (nofZ 10) neps) (nofZ 1)) (c k)),
   nadd (nth (Z.to_nat k) ys n0) (nmul (nmul (nmul (nofZ 10) neps) (nofZ 2)) (c k))).
Definition dst_segment {T} {N : Num T} (c : Z -> T) (xs ys : list T) (k : Z) : pt T * pt T :=
  (dst_point c xs ys k, dst_point c xs ys (k + 1)).

(** Cell number c of the grid. *)
Definition cell_no {T} (d1 : Z) (nx ny : Z -> Z -> T) (c : Z) : quad T :=
  let i := (c / (d1 - 1))%Z in let j := (c mod (d1 - 1))%Z in
  mkQuad (nx i j, ny i j) (nx (i + 1) j, ny (i + 1) j)%Z (nx (i + 1) (j + 1), ny (i + 1) (j + 1))%Z (nx i (j + 1), ny i (j + 1))%Z.

Lemma edge_sum_row : forall {T} {N : Num T} d1 h0 h1 es (acc : T),
  edge_sum d1 h0 h1 acc es = fold_left (fun acc e => let i := (fst e / (d1 - 1))%Z in let j := (fst e mod (d1 - 1))%Z in
    let w k := nth k (snd e) n0 in
    nadd (nadd (nadd (nadd acc (nmul (w 0%nat) (h0 i j))) (nmul (w 1%nat) (h0 i (j + 1)%Z)))
      (nmul (w 2%nat) (h1 i j))) (nmul (w 3%nat) (h1 (i + 1)%Z j))) es acc.
Proof. intros T N d1 h0 h1. induction es as [|[c w] es IH]; intros acc; [reflexivity|]. cbn [edge_sum fold_left fst snd]. apply IH. Qed.

Lemma grid_setup : forall {T} {N : Num T} cosv d0 d1 nx ny n (xs ys dxs dys : list T),
  (2 <= d0)%Z -> (2 <= d1)%Z -> (d0 * d1 <= int_max)%Z -> (2 <= n <= int_max)%Z ->
  stores d0 d1 nx xs -> stores d0 d1 ny ys -> Z.of_nat (length dxs) = n -> Z.of_nat (length dys) = n ->
  exists s1 s2, fl_setSrcGrid fl_new d0 d1 [xs; ys] = Ret s1 /\ fl_setDstGrid cosv s1 n [dxs; dys] = Ret s2 /\
    src_ok d0 d1 nx ny s2 /\ fl_weights s2 = [] /\ fl_dstNumCells s2 = Some (n - 1)%Z /\
    (forall k, (0 <= k < n - 1)%Z -> fl_dstLine s2 k = Ret (dst_segment (fun i => cosv i n) dxs dys k)) /\
    (forall c, (0 <= c < (d0 - 1) * (d1 - 1))%Z -> fl_srcQuad s2 c = Ret (cell_no d1 nx ny c)).
Proof.
  intros T N cosv d0 d1 nx ny n xs ys dxs dys H0 H1 HI Hn SX SY LX LY.
  destruct (setSrcGrid_ok fl_new d0 d1 nx ny xs ys H0 H1 HI SX SY) as (s1 & E1 & O1 & A1 & A2 & A3).
  destruct (setDstGrid_ok cosv s1 n dxs dys ltac:(lia) LX LY) as (s2 & E2 & B1 & B2 & B3 & B4 & B5 & B6 & B7 & B8 & B9).
  assert (O2 : src_ok d0 d1 nx ny s2) by (unfold src_ok in *; rewrite B4, B5, B7, B8, B9; exact O1).
  exists s1, s2. split; auto. split; auto. split; auto. split; [rewrite B6, A3; reflexivity|]. split; auto. split.
  - intros k Hk. unfold fl_dstLine, dst_segment, dst_point.
    assert (G : forall k, (0 <= k < n)%Z -> vget (fl_dst s2) k = Ret (dst_point (fun i => cosv i n) dxs dys k)).
    { intros j Hj. etransitivity; [apply (vget_nth (A := pt T) _ _ (n0, n0)); lia|]. f_equal. etransitivity; [apply B3; lia|].
      unfold dst_point. rewrite Z2Nat.id by lia. reflexivity. }
    rewrite (G k) by lia. cbn [bind]. rewrite (G (k + 1)%Z) by lia. reflexivity.
  - intros c Hc. destruct (cell_range (d0 - 1) (d1 - 1) c ltac:(lia) Hc) as (C1 & C2 & C3).
    etransitivity; [rewrite C3 at 1; apply (srcQuad_ok d0 d1 nx ny s2); auto|]. reflexivity.
Qed.

(** C34.  In any arithmetic, whenever computeWeights returns, apply returns for all edge arrays of
    the right sizes (no access outside them), and the flux of a segment is the sum over the cells in
    order, each contributing its projections times the values of the edges they were computed for;
    segments to which no cell contributes keep the old value of the output array. *)
Theorem C34_edges : forall T (N : Num T) g srt cosv d0 d1 nx ny n (xs ys dxs dys : list T),
  (2 <= d0)%Z -> (2 <= d1)%Z -> (d0 * d1 <= int_max)%Z -> (2 <= n <= int_max)%Z ->
  stores d0 d1 nx xs -> stores d0 d1 ny ys -> Z.of_nat (length dxs) = n -> Z.of_nat (length dys) = n ->
  exists s1 s2, fl_setSrcGrid fl_new d0 d1 [xs; ys] = Ret s1 /\ fl_setDstGrid cosv s1 n [dxs; dys] = Ret s2 /\
  forall s3, fl_computeWeights srt g s2 = Ret s3 ->
  exists table : Z -> list (Z * list T),
  (forall k, (0 <= k < n - 1)%Z ->
     contributions srt g (cell_no d1 nx ny) (dst_segment (fun i => cosv i n) dxs dys k) (range ((d0 - 1) * (d1 - 1))) (table k)) /\
  forall h0 h1 data0 data1 out, stores (d0 - 1) d1 h0 data0 -> stores d0 (d1 - 1) h1 data1 -> Z.of_nat (length out) = (n - 1)%Z ->
  exists out', fl_apply s3 data0 data1 out = Ret out' /\ length out' = length out /\
  forall k, (0 <= k < n - 1)%Z -> nth (Z.to_nat k) out' n0 =
    match table k with [] => nth (Z.to_nat k) out n0 | es => edge_sum d1 h0 h1 n0 es end.
Proof.
  intros T N g srt cosv d0 d1 nx ny n xs ys dxs dys H0 H1 HI Hn SX SY LX LY.
  destruct (grid_setup cosv d0 d1 nx ny n xs ys dxs dys H0 H1 HI Hn SX SY LX LY) as (s1 & s2 & E1 & E2 & O2 & EW & EN & EL & EC).
  exists s1, s2. split; auto. split; auto. intros s3 E3.
  assert (ES : fl_srcNumCells s2 = Some ((d0 - 1) * (d1 - 1))%Z) by apply O2.
  assert (SM : sorted_map (fl_weights s2)) by (rewrite EW; exists 0%Z; exact I).
  assert (ROW := computeWeights_rows srt g s2 s3 _ _ _ _ EN ES EL EC SM E3).
  exists (row (fl_weights s3)). split.
  - intros k Hk. destruct (ROW k Hk) as (es & R & C). rewrite EW in R. cbn [row app] in R. rewrite R. exact C.
  - intros h0 h1 data0 data1 out D0 D1 LO.
    destruct (computeWeights_frame srt g s2 s3 E3) as (F1 & F2 & F3 & F4 & F5 & F6 & F7).
    assert (O3 : src_ok d0 d1 nx ny s3) by (unfold src_ok in *; rewrite F1, F2, F5, F6, F7; exact O2).
    assert (TB : table_ok (n - 1) ((d0 - 1) * (d1 - 1)) (fl_weights s3)).
    { apply (computeWeights_table srt g s2 s3); auto. rewrite EW. split; [exists 0%Z; exact I|intros k r []]. }
    destruct (apply_ok d0 d1 nx ny s3 h0 h1 data0 data1 out (n - 1) O3 D0 D1 TB ltac:(lia)) as (out' & EA & L & K).
    exists out'. split; auto. split; auto. intros k Hk. rewrite K, Z2Nat.id by lia.
    destruct (row (fl_weights s3) k) as [|e es]; [reflexivity|]. rewrite edge_sum_row. reflexivity.
Qed.
Print Assumptions C34_edges.

(** C34.  In exact arithmetic computeWeights returns, whatever the shape of the cells and the line
    and whatever the linear solver does. *)
Theorem C34_defined : forall g srt cosv d0 d1 nx ny n (xs ys dxs dys : list R),
  (2 <= d0)%Z -> (2 <= d1)%Z -> (d0 * d1 <= int_max)%Z -> (2 <= n <= int_max)%Z ->
  stores d0 d1 nx xs -> stores d0 d1 ny ys -> Z.of_nat (length dxs) = n -> Z.of_nat (length dys) = n ->
  exists s1 s2 s3, fl_setSrcGrid fl_new d0 d1 [xs; ys] = Ret s1 /\ fl_setDstGrid cosv s1 n [dxs; dys] = Ret s2 /\
    fl_computeWeights srt g s2 = Ret s3.
Proof.
  intros g srt cosv d0 d1 nx ny n xs ys dxs dys H0 H1 HI Hn SX SY LX LY.
  destruct (grid_setup cosv d0 d1 nx ny n xs ys dxs dys H0 H1 HI Hn SX SY LX LY) as (s1 & s2 & E1 & E2 & O2 & EW & EN & EL & EC).
  destruct (computeWeights_total srt g s2 (n - 1) ((d0 - 1) * (d1 - 1)) _ _ EN ltac:(apply O2) EL EC) as (s3 & E3).
  exists s1, s2, s3. auto.
Qed.
Print Assumptions C34_defined.

(** A run in IEEE arithmetic on two cells, with a segment through both: each contributes, in order. *)
Definition FZ (z : Z) : spec_float := nofZ z.
Example C34_case : exists s1 s2 s3 w0 w1,
  fl_setSrcGrid fl_new 3 2 [map FZ [0; 0; 1; 1; 2; 2]; map FZ [0; 1; 0; 1; 0; 1]]%Z = Ret s1 /\
  fl_setDstGrid (fun _ _ => FZ 0) s1 2 [[lit 1 2; lit 3 2]; [lit 1 4; lit 3 4]] = Ret s2 /\
  fl_computeWeights insertion cramer s2 = Ret s3 /\ fl_weights s3 = [(0%Z, [(0%Z, w0); (1%Z, w1)])] /\
  fl_apply s3 (map FZ [0; 1; 0; 1]%Z) (map FZ [0; 1; 2]%Z) [FZ 7] = Ret [FZ 1].
Proof. do 5 eexists. repeat (split; [vm_compute; reflexivity|]). vm_compute. reflexivity. Qed.

(** ** C36 is false: a segment on the edge shared by two cells, away from the origin where the
    displacement of the points is lost in rounding.  The edge values of the second direction are 1, so
    the flux through half an edge should be 1/2; it is 1.  [cos2]: the cosines of the two points. *)
Definition cos2 (i n : Z) : spec_float := if (i =? 0)%Z then lit 1 1 else lit 9995065603657316 10000000000000000.

Theorem C36_shared_edge_refuted :
  flow_run insertion cramer cos2 3 2 (map FZ [1024; 1024; 1025; 1025; 1026; 1026]%Z) (map FZ [1024; 1025; 1024; 1025; 1024; 1025]%Z)
    2 [FZ 1025; FZ 1025] [lit 4097 4; lit 4099 4] 1 (map FZ [0; 0; 0; 0]%Z) (map FZ [1; 1; 1]%Z) [FZ 0] = Ret [FZ 1].
Proof. vm_compute. reflexivity. Qed.
Print Assumptions C36_shared_edge_refuted.

(** ** C59 is false: a line ending a few units in the last place beyond an edge of a large cell.  The
    cells are squares of side 64, the flux per cell width is 1 and the line runs over half a cell.
    Ending on the edge the flux is 1/2; ending 2^-44 further it is 2^-50: the first cell takes the
    line to be inside (its tolerance is relative to the cell) but the search of its end refuses the
    point (its tolerance is absolute), the projections are computed with the initial guess, and the
    return code of computeProjections is ignored. *)
Theorem C59_near_edge_refuted :
  let run (x : spec_float) := flow_run insertion cramer cos2 3 2 (map FZ [0; 0; 64; 64; 128; 128]%Z) (map FZ [0; 64; 0; 64; 0; 64]%Z)
    2 [FZ 32; x] [FZ 32; FZ 32] 1 (map FZ [1; 1; 1; 1]%Z) (map FZ [0; 0; 0]%Z) [FZ 0] in
  run (FZ 64) = Ret [lit 1 2] /\ run (nadd (FZ 64) (lit 1 (2 ^ 44))) = Ret [lit 1 (2 ^ 50)].
Proof. vm_compute. split; reflexivity. Qed.
Print Assumptions C59_near_edge_refuted.
