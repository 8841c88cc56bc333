(** Property C77: the program streamFlow. *)
From Coq Require Import ZArith List Bool Reals Lra Lia Floats.SpecFloat.
From Verif Require Import Base Num NumR NumF M_BoxIterator M_LinearSolve M_FindPoint M_Triangulate M_Quad M_QuadLine M_FlowInterp M_PyUtils M_Examples
  S_LinAlg S_Geometry S_Quad S_Grid S_Sort S_Array S_Flow S_FlowTable
  L_LinearSolve L_Cramer L_Hull L_Quad L_QuadLine L_Box2 L_Flow L_FlowFind L_FlowInterp L_FlowGen L_FlowPar L_FlowRect L_PyUtils P_Flow P_FlowLines.
From Verif Require P_PyUtils.
Import ListNotations.
Open Scope R_scope.

Lemma Int_part_is : forall r z, IZR z <= r < IZR z + 1 -> Int_part r = z.
Proof.
  intros r z H. destruct (base_Int_part r) as [A B].
  assert (C : IZR (Int_part r) < IZR (z + 1)) by (rewrite plus_IZR; lra). assert (D : IZR z < IZR (Int_part r + 1)) by (rewrite plus_IZR; lra).
  apply lt_IZR in C, D. lia.
Qed.

Lemma abs_bounds : forall x e, Rabs x <= e -> - e <= x <= e.
Proof. intros x e H. assert (A := Rle_abs x). assert (B := Rle_abs (- x)). rewrite Rabs_Ropp in B. lra. Qed.

(** ** Bilinear interpolation on an equidistant grid *)
Definition eq_node (a b : R) (n : Z) (i : Z) : R := a + IZR i * ((b - a) / IZR (n - 1)).

Section Interpolant.
Variables (a b : R) (n : Z).
Hypotheses (Hn : (2 <= n)%Z) (Hab : a < b).
Let h : R := (b - a) / IZR (n - 1).

Lemma h_pos : 0 < h.
Proof. unfold h. apply Rdiv_lt_0_compat; [lra|]. apply IZR_lt. lia. Qed.

(** The interval of a number and the position in it. *)
Definition eq_idx (v : R) : Z := Z.max 0 (Z.min (n - 2) (Int_part ((v - a) / h))).
Definition eq_loc (v : R) : R := (v - eq_node a b n (eq_idx v)) / h.

Lemma eq_idx_range : forall v, (0 <= eq_idx v < n - 1)%Z.
Proof. intros v. unfold eq_idx. lia. Qed.

Lemma eq_loc_node : forall i x, (0 <= i < n - 1)%Z -> 0 <= x <= 1 ->
  let v := eq_node a b n i + x * (eq_node a b n (i + 1) - eq_node a b n i) in
  (eq_idx v = i /\ eq_loc v = x) \/ (x = 1 /\ eq_idx v = (i + 1)%Z /\ eq_loc v = 0 /\ (i + 1 < n - 1)%Z).
Proof.
  intros i x Hi Hx v. assert (HP := h_pos).
  assert (EV : v = a + (IZR i + x) * h) by (unfold v, eq_node; fold h; rewrite plus_IZR; ring). clearbody v.
  assert (ED : (v - a) / h = IZR i + x) by (rewrite EV; field; lra).
  assert (LOC : forall k, eq_idx v = k -> eq_loc v = IZR i + x - IZR k).
  { intros k E. unfold eq_loc. rewrite E, EV. unfold eq_node. fold h. field. lra. }
  destruct (Req_dec x 1) as [->|NX].
  - assert (EI : Int_part ((v - a) / h) = (i + 1)%Z).
    { rewrite ED. replace (IZR i + 1) with (IZR (i + 1)) by (rewrite plus_IZR; ring).
      apply Int_part_is. lra. }
    destruct (Z_lt_le_dec (i + 1) (n - 1)).
    + right. split; auto. assert (E : eq_idx v = (i + 1)%Z) by (unfold eq_idx; rewrite EI; lia).
      split; auto. split; auto. rewrite (LOC _ E), plus_IZR. ring.
    + left. assert (E : eq_idx v = i) by (unfold eq_idx; rewrite EI; lia). split; auto. rewrite (LOC _ E). ring.
  - left. assert (EI : Int_part ((v - a) / h) = i) by (rewrite ED; apply Int_part_is; lra).
    assert (E : eq_idx v = i) by (unfold eq_idx; rewrite EI; lia). split; auto. rewrite (LOC _ E). ring.
Qed.

Lemma eq_loc_range : forall v, a <= v <= b -> 0 <= eq_loc v <= 1.
Proof.
  intros v Hv. assert (HP := h_pos).
  assert (ED : exists i x, (0 <= i < n - 1)%Z /\ 0 <= x <= 1 /\ v = eq_node a b n i + x * (eq_node a b n (i + 1) - eq_node a b n i)).
  { assert (N1 : 0 < IZR (n - 1)) by (apply IZR_lt; lia).
    destruct (interval_of n (eq_node a b n) v Hn) as (i & Hi & Vi).
    - intros i Hi. unfold eq_node. fold h. rewrite plus_IZR. lra.
    - unfold eq_node. split; [rewrite Rmult_0_l; lra|]. replace (IZR (n - 1) * ((b - a) / IZR (n - 1))) with (b - a) by (field; lra). lra.
    - exists i, ((v - eq_node a b n i) / h). split; auto.
      assert (EH : eq_node a b n (i + 1) - eq_node a b n i = h) by (unfold eq_node; fold h; rewrite plus_IZR; ring).
      split; [|rewrite EH; field; lra]. split; [apply Rmult_le_pos; [lra|left; apply Rinv_0_lt_compat; lra]|].
      apply Rmult_le_reg_r with h; [lra|]. unfold Rdiv. rewrite Rmult_assoc, Rinv_l by lra. lra. }
  destruct ED as (i & x & Hi & Hx & ->). destruct (eq_loc_node i x Hi Hx) as [[_ E]|(_ & _ & E & _)]; rewrite E; lra.
Qed.

Lemma eq_loc_value : forall v, v = eq_node a b n (eq_idx v) + eq_loc v * h.
Proof. intros v. assert (HP := h_pos). unfold eq_loc. field. lra. Qed.
End Interpolant.

Section Stream.
Variables (x0 x1 y0 y1 : R) (m0 m1 : Z).
Hypotheses (H0 : (2 <= m0)%Z) (H1 : (2 <= m1)%Z) (HX : x0 < x1) (HY : y0 < y1).
Notation X := (eq_node x0 x1 m0).
Notation Y := (eq_node y0 y1 m1).

Definition interpolant (psi : R -> R -> R) (p : point) : R :=
  let i := eq_idx x0 x1 m0 (fst p) in let j := eq_idx y0 y1 m1 (snd p) in
  bilinear (psi (X i) (Y j)) (psi (X (i + 1)%Z) (Y j)) (psi (X i) (Y (j + 1)%Z)) (psi (X (i + 1)%Z) (Y (j + 1)%Z))
    (eq_loc x0 x1 m0 (fst p)) (eq_loc y0 y1 m1 (snd p)).

Lemma interpolant_cell : forall psi i j x y, is_cell2 m0 m1 i j -> 0 <= x <= 1 -> 0 <= y <= 1 ->
  interpolant psi (X i + x * (X (i + 1)%Z - X i), Y j + y * (Y (j + 1)%Z - Y j)) =
  bilinear (psi (X i) (Y j)) (psi (X (i + 1)%Z) (Y j)) (psi (X i) (Y (j + 1)%Z)) (psi (X (i + 1)%Z) (Y (j + 1)%Z)) x y.
Proof.
  intros psi i j x y [Hi Hj] Hx Hy. unfold interpolant. cbn [fst snd].
  destruct (eq_loc_node x0 x1 m0 H0 HX i x Hi Hx) as [[E1 E2]|(Ex & E1 & E2 & _)];
  destruct (eq_loc_node y0 y1 m1 H1 HY j y Hj Hy) as [[E3 E4]|(Ey & E3 & E4 & _)];
  cbv zeta in E1, E2, E3, E4; rewrite E1, E2, E3, E4; rewrite ?Ex, ?Ey; unfold bilinear; ring.
Qed.

Lemma interpolant_close : forall psi Lx Ly p, 0 <= Lx -> 0 <= Ly ->
  (forall u v u' v', Rabs (psi u v - psi u' v') <= Lx * Rabs (u - u') + Ly * Rabs (v - v')) ->
  x0 <= fst p <= x1 -> y0 <= snd p <= y1 ->
  Rabs (interpolant psi p - psi (fst p) (snd p)) <= Lx * ((x1 - x0) / IZR (m0 - 1)) + Ly * ((y1 - y0) / IZR (m1 - 1)).
Proof.
  intros psi Lx Ly [u v] PX PY LIP Hu Hv. cbn [fst snd] in *. unfold interpolant. cbn [fst snd].
  assert (A := eq_loc_range x0 x1 m0 H0 HX u Hu). assert (B := eq_loc_range y0 y1 m1 H1 HY v Hv).
  assert (EU := eq_loc_value x0 x1 m0 H0 HX u). assert (EV := eq_loc_value y0 y1 m1 H1 HY v).
  assert (HPX := h_pos x0 x1 m0 H0 HX). assert (HPY := h_pos y0 y1 m1 H1 HY).
  assert (EX : forall i, X (i + 1)%Z = X i + (x1 - x0) / IZR (m0 - 1)) by (intros; unfold eq_node; rewrite plus_IZR; ring).
  assert (EY : forall i, Y (i + 1)%Z = Y i + (y1 - y0) / IZR (m1 - 1)) by (intros; unfold eq_node; rewrite plus_IZR; ring).
  rewrite EX, EY. revert EU EV HPX HPY.
  generalize (X (eq_idx x0 x1 m0 u)) (Y (eq_idx y0 y1 m1 v)) ((x1 - x0) / IZR (m0 - 1)) ((y1 - y0) / IZR (m1 - 1)).
  revert A B. generalize (eq_loc x0 x1 m0 u) (eq_loc y0 y1 m1 v).
  intros x y A B xi yj hx hy EU EV HPX HPY.
  assert (C : forall u' v', Rabs (u' - u) <= hx -> Rabs (v' - v) <= hy -> Rabs (psi u' v' - psi u v) <= Lx * hx + Ly * hy).
  { intros u' v' Du Dv. eapply Rle_trans; [apply LIP|]. assert (Lx * Rabs (u' - u) <= Lx * hx) by (apply Rmult_le_compat_l; lra).
    assert (Ly * Rabs (v' - v) <= Ly * hy) by (apply Rmult_le_compat_l; lra). lra. }
  assert (D : forall w c d, 0 <= w <= 1 -> 0 < d -> c = 0 \/ c = 1 -> Rabs ((c - w) * d) <= d).
  { intros w c d Hw Hd Hc. apply Rabs_le. destruct Hc as [-> | ->]; nra. }
  assert (C00 := C xi yj ltac:(replace (xi - u) with ((0 - x) * hx) by (rewrite EU; ring); apply D; auto) ltac:(replace (yj - v) with ((0 - y) * hy) by (rewrite EV; ring); apply D; auto)).
  assert (C10 := C (xi + hx) yj ltac:(replace (xi + hx - u) with ((1 - x) * hx) by (rewrite EU; ring); apply D; auto) ltac:(replace (yj - v) with ((0 - y) * hy) by (rewrite EV; ring); apply D; auto)).
  assert (C01 := C xi (yj + hy) ltac:(replace (xi - u) with ((0 - x) * hx) by (rewrite EU; ring); apply D; auto) ltac:(replace (yj + hy - v) with ((1 - y) * hy) by (rewrite EV; ring); apply D; auto)).
  assert (C11 := C (xi + hx) (yj + hy) ltac:(replace (xi + hx - u) with ((1 - x) * hx) by (rewrite EU; ring); apply D; auto) ltac:(replace (yj + hy - v) with ((1 - y) * hy) by (rewrite EV; ring); apply D; auto)).
  revert C00 C10 C01 C11. generalize (Lx * hx + Ly * hy). intros e C00 C10 C01 C11.
  unfold bilinear.
  match goal with |- Rabs (?s - _) <= _ => replace (s - psi u v) with
    ((1 - x) * (1 - y) * (psi xi yj - psi u v) + x * (1 - y) * (psi (xi + hx) yj - psi u v) +
     (1 - x) * y * (psi xi (yj + hy) - psi u v) + x * y * (psi (xi + hx) (yj + hy) - psi u v)) by ring end.
  apply abs_bounds in C00, C10, C01, C11. apply Rabs_le.
  assert (W : 0 <= (1 - x) * (1 - y) /\ 0 <= x * (1 - y) /\ 0 <= (1 - x) * y /\ 0 <= x * y) by (repeat split; apply Rmult_le_pos; lra).
  destruct W as (W0 & W1 & W2 & W3).
  assert (SW : (1 - x) * (1 - y) + x * (1 - y) + (1 - x) * y + x * y = 1) by ring.
  revert W0 W1 W2 W3 SW. generalize ((1 - x) * (1 - y)) (x * (1 - y)) ((1 - x) * y) (x * y). intros w0 w1 w2 w3 W0 W1 W2 W3 SW.
  revert C00 C10 C01 C11. generalize (psi xi yj - psi u v) (psi (xi + hx) yj - psi u v) (psi xi (yj + hy) - psi u v) (psi (xi + hx) (yj + hy) - psi u v).
  intros p0 p1 p2 p3 C00 C10 C01 C11.
  assert (Q0 : - (w0 * e) <= w0 * p0 <= w0 * e) by nra. assert (Q1 : - (w1 * e) <= w1 * p1 <= w1 * e) by nra.
  assert (Q2 : - (w2 * e) <= w2 * p2 <= w2 * e) by nra. assert (Q3 : - (w3 * e) <= w3 * p3 <= w3 * e) by nra.
  assert (SE : w0 * e + w1 * e + w2 * e + w3 * e = e) by (rewrite <- !Rmult_plus_distr_r, SW; ring). lra.
Qed.
End Stream.

(** ** The program *)
Lemma stores_ext : forall {A} m0 m1 (f f' : Z -> Z -> A) l, (forall i j, (0 <= i < m0)%Z -> (0 <= j < m1)%Z -> f i j = f' i j) ->
  stores m0 m1 f l -> stores m0 m1 f' l.
Proof. intros A m0 m1 f f' l E [L H]. split; auto. intros i j Hi Hj. rewrite H, E by auto. reflexivity. Qed.

Lemma contiguous_stores : forall {T} (a : arr T), (0 <= a_n0 a)%Z -> (0 <= a_n1 a)%Z -> stores (a_n0 a) (a_n1 a) (a_at a) (contiguous a).
Proof. intros T a A0 A1. exact (array2_stores (a_n0 a) (a_n1 a) (a_at a) A0 A1). Qed.

Lemma sum_left : forall l a, fold_left Rplus l a = a + fold_right Rplus 0 l.
Proof. induction l as [|x l IH]; intros a; cbn [fold_left fold_right]; [lra|]. rewrite IH. lra. Qed.

(** Point k of the line, displaced as in setDstGrid. *)
Definition line_point (cosv : Z -> Z -> R) (n : Z) (xline yline : R -> R) (k : Z) : point :=
  (xline (IZR k / IZR n) + 10 * / 2 ^ 52 * cosv k (n + 1)%Z, yline (IZR k / IZR n) + 20 * / 2 ^ 52 * cosv k (n + 1)%Z).

(** The line is in the grid: every segment is inside, not along an inner grid line, with its ends and
    crossings clear of the grid lines. *)
Definition line_inside (cosv : Z -> Z -> R) (m0 m1 : Z) (x0 y0 x1 y1 : R) (n : Z) (xline yline : R -> R) : Prop :=
  forall k, (0 <= k < n)%Z ->
  rectilinear_segment (100 * / 2 ^ 52) m0 m1 (eq_node x0 x1 m0) (eq_node y0 y1 m1)
    (line_point cosv n xline yline k) (line_point cosv n xline yline (k + 1)).

Lemma stream_run : forall g srt cosv m0 m1 x0 y0 x1 y1 n xline yline (psi : R -> R -> R),
  gels_spec g 2 2 -> sorts srt -> (2 <= m0)%Z -> (2 <= m1)%Z -> (m0 * m1 <= int_max)%Z -> (1 <= n)%Z -> (n + 1 <= int_max)%Z ->
  x0 < x1 -> y0 < y1 -> line_inside cosv m0 m1 x0 y0 x1 y1 n xline yline ->
  let F := interpolant x0 x1 y0 y1 m0 m1 psi in
  streamFlow srt g cosv m0 m1 x0 y0 x1 y1 n xline yline psi =
  Ret (Some (F (line_point cosv n xline yline n) - F (line_point cosv n xline yline 0), psi (xline 1) (yline 1) - psi (xline 0) (yline 0))).
Proof.
  intros g srt cosv m0 m1 x0 y0 x1 y1 n xline yline psi G ST H0 H1 HI Hn HN HX HY SEG F.
  set (X := eq_node x0 x1 m0) in *. set (Y := eq_node y0 y1 m1) in *.
  unfold streamFlow. set (CR := createRectilinearGrid m0 m1 x0 y0 x1 y1). rewrite (surjective_pairing CR).
  assert (SX : stores m0 m1 (fun i _ => X i) (contiguous (fst CR))).
  { apply (stores_ext m0 m1 (a_at (fst CR))); [intros i j Hi Hj; apply P_PyUtils.rect_x; lia|]. apply (contiguous_stores (fst CR)); simpl; lia. }
  assert (SY : stores m0 m1 (fun _ j => Y j) (contiguous (snd CR))).
  { apply (stores_ext m0 m1 (a_at (snd CR))); [intros i j Hi Hj; apply P_PyUtils.rect_y; lia|]. apply (contiguous_stores (snd CR)); simpl; lia. }
  set (p := mkArr m0 m1 (fun i j => psi (a_at (fst CR) i j) (a_at (snd CR) i j))).
  assert (PV : forall i j, (0 <= i < m0)%Z -> (0 <= j < m1)%Z -> a_at p i j = psi (X i) (Y j)).
  { intros i j Hi Hj. unfold p. cbn [a_at]. unfold CR. rewrite P_PyUtils.rect_x, P_PyUtils.rect_y by lia. reflexivity. }
  assert (BX : exists fx, bop nsub (Some (hi0 p)) (Some (lo0 p)) = Some fx /\ a_n0 fx = (m0 - 1)%Z /\ a_n1 fx = m1 /\
    forall i j, (0 <= i < m0 - 1)%Z -> (0 <= j < m1)%Z -> a_at fx i j = a_at p (i + 1)%Z j - a_at p i j).
  { eexists. unfold bop, bdim. cbn [hi0 lo0 a_n0 a_n1 a_at p]. rewrite !Z.eqb_refl. split; [reflexivity|]. cbn [a_n0 a_n1 a_at]. split; [lia|]. split; [lia|].
    intros i j Hi Hj. unfold bidx. destruct (Z.eqb_spec (Z.max 0 (m0 - 1)) 1); destruct (Z.eqb_spec m1 1); try lia;
      try (assert (i = 0%Z) by lia; subst i); try (assert (j = 0%Z) by lia; subst j); reflexivity. }
  assert (BY : exists fy, bop nsub (Some (hi1 p)) (Some (lo1 p)) = Some fy /\ a_n0 fy = m0 /\ a_n1 fy = (m1 - 1)%Z /\
    forall i j, (0 <= i < m0)%Z -> (0 <= j < m1 - 1)%Z -> a_at fy i j = a_at p i (j + 1)%Z - a_at p i j).
  { eexists. unfold bop, bdim. cbn [hi1 lo1 a_n0 a_n1 a_at p]. rewrite !Z.eqb_refl. split; [reflexivity|]. cbn [a_n0 a_n1 a_at]. split; [lia|]. split; [lia|].
    intros i j Hi Hj. unfold bidx. destruct (Z.eqb_spec (Z.max 0 (m1 - 1)) 1); destruct (Z.eqb_spec m0 1); try lia;
      try (assert (i = 0%Z) by lia; subst i); try (assert (j = 0%Z) by lia; subst j); reflexivity. }
  destruct BX as (fx & EX & FX0 & FX1 & FXV). destruct BY as (fy & EY & FY0 & FY1 & FYV).
  set (ps := fun i j : Z => psi (X i) (Y j)).
  assert (D0 : stores (m0 - 1) m1 (edges0 ps) (contiguous fx)).
  { rewrite <- FX0, <- FX1. apply (stores_ext _ _ (a_at fx)); [|apply contiguous_stores; lia].
    intros i j Hi Hj. rewrite FXV, !PV by lia. reflexivity. }
  assert (D1 : stores m0 (m1 - 1) (edges1 ps) (contiguous fy)).
  { rewrite <- FY0, <- FY1. apply (stores_ext _ _ (a_at fy)); [|apply contiguous_stores; lia].
    intros i j Hi Hj. rewrite FYV, !PV by lia. reflexivity. }
  set (dx := map (fun i => xline (linspace n0 n1 (n + 1) i)) (range (n + 1))). set (dy := map (fun i => yline (linspace n0 n1 (n + 1) i)) (range (n + 1))).
  assert (PT : forall k, (0 <= k <= n)%Z -> displaced (fun i => cosv i (n + 1)%Z) dx dy k = line_point cosv n xline yline k).
  { intros k Hk. unfold displaced, line_point, dx, dy.
    assert (NT : forall f : R -> R, nth (Z.to_nat k) (map (fun i => f (linspace n0 n1 (n + 1) i)) (range (n + 1))) 0 = f (IZR k / IZR n)).
    { intros f. apply nth_error_nth. rewrite nth_error_map, range_nth by lia. cbn [option_map]. f_equal. f_equal.
      rewrite linspace_R by lia. change (@n0 R NumR) with 0. change (@n1 R NumR) with 1. replace (n + 1 - 1)%Z with n by lia. field. apply not_0_IZR. lia. }
    rewrite !NT. reflexivity. }
  destruct (C33_rectilinear g srt cosv m0 m1 X Y ps F (n + 1) (contiguous (fst CR)) (contiguous (snd CR)) dx dy (contiguous fx) (contiguous fy)
    (map (fun _ => n0) (range n))) as (out' & RUN & LO & _ & SUM); auto.
  - lia.
  - intros i Hi. unfold X, eq_node. assert (HP := h_pos x0 x1 m0 H0 HX). rewrite plus_IZR. lra.
  - intros i Hi. unfold Y, eq_node. assert (HP := h_pos y0 y1 m1 H1 HY). rewrite plus_IZR. lra.
  - unfold dx. rewrite map_length, range_length. lia.
  - unfold dy. rewrite map_length, range_length. lia.
  - rewrite map_length, range_length. lia.
  - intros i j x y HC Hx Hy. apply (interpolant_cell x0 x1 y0 y1 m0 m1 H0 H1 HX HY psi i j x y HC Hx Hy).
  - intros k Hk. rewrite !PT by lia. apply SEG. lia.
  - unfold flow_run in RUN. cbv zeta. fold dx dy.
    apply bind_ret_inv in RUN. destruct RUN as (s1 & E1 & RUN). rewrite E1. cbn [bind].
    apply bind_ret_inv in RUN. destruct RUN as (s2 & E2 & RUN). rewrite E2. cbn [bind].
    apply bind_ret_inv in RUN. destruct RUN as (s3 & E3 & RUN). change (zseq 1) with [0%Z] in E3. cbn [foldM] in E3.
    apply bind_ret_inv in E3. destruct E3 as (s3' & E3 & EQ). injection EQ as ->. rewrite E3. cbn [bind].
    fold p. rewrite EX, EY, RUN. cbn [bind]. unfold numpy_sum. f_equal. f_equal. f_equal.
    change (fold_left Rplus out' 0 = F (line_point cosv n xline yline n) - F (line_point cosv n xline yline 0)).
    rewrite sum_left, Rplus_0_l, SUM, !PT by lia. replace (n + 1 - 1)%Z with n by lia. reflexivity.
Qed.

(** C77, lines inside the grid.  The two numbers printed differ by at most the slope of the stream function times
    the width of two cells (plus the displacement of the ends): the error of the interpolation at the two
    ends of the line, whatever the line does between, however many segments it has. *)
Theorem C77_error_partial : forall g srt cosv m0 m1 x0 y0 x1 y1 n xline yline psi Lx Ly,
  gels_spec g 2 2 -> sorts srt -> (2 <= m0)%Z -> (2 <= m1)%Z -> (m0 * m1 <= int_max)%Z -> (1 <= n)%Z -> (n + 1 <= int_max)%Z ->
  x0 < x1 -> y0 < y1 -> line_inside cosv m0 m1 x0 y0 x1 y1 n xline yline -> (forall k, Rabs (cosv k (n + 1)%Z) <= 1) ->
  0 <= Lx -> 0 <= Ly -> (forall u v u' v', Rabs (psi u v - psi u' v') <= Lx * Rabs (u - u') + Ly * Rabs (v - v')) ->
  exists flux exact, streamFlow srt g cosv m0 m1 x0 y0 x1 y1 n xline yline psi = Ret (Some (flux, exact)) /\
    exact = psi (xline 1) (yline 1) - psi (xline 0) (yline 0) /\
    Rabs (flux - exact) <= 2 * (Lx * ((x1 - x0) / IZR (m0 - 1) + 10 * / 2 ^ 52) + Ly * ((y1 - y0) / IZR (m1 - 1) + 20 * / 2 ^ 52)).
Proof.
  intros g srt cosv m0 m1 x0 y0 x1 y1 n xline yline psi Lx Ly G ST H0 H1 HI Hn HN HX HY SEG CB PX PY LIP.
  assert (RUN := stream_run g srt cosv m0 m1 x0 y0 x1 y1 n xline yline psi G ST H0 H1 HI Hn HN HX HY SEG). cbv zeta in RUN.
  eexists. eexists. split; [exact RUN|]. split; [reflexivity|].
  assert (BND : forall k, k = 0%Z \/ k = n -> Rabs (interpolant x0 x1 y0 y1 m0 m1 psi (line_point cosv n xline yline k) - psi (xline (IZR k / IZR n)) (yline (IZR k / IZR n)))
    <= Lx * ((x1 - x0) / IZR (m0 - 1) + 10 * / 2 ^ 52) + Ly * ((y1 - y0) / IZR (m1 - 1) + 20 * / 2 ^ 52)).
  { intros k Hk.
    assert (IN : x0 <= fst (line_point cosv n xline yline k) <= x1 /\ y0 <= snd (line_point cosv n xline yline k) <= y1).
    { assert (E : forall a b m, (2 <= m)%Z -> eq_node a b m 0 = a /\ eq_node a b m (m - 1) = b).
      { intros a b m Hm. unfold eq_node. split; [ring|]. field. apply not_0_IZR. lia. }
      destruct (E x0 x1 m0 H0) as [EX0 EX1]. destruct (E y0 y1 m1 H1) as [EY0 EY1].
      assert (HE : exists q, (0 <= q < n)%Z /\ (k = q \/ k = q + 1)%Z) by (destruct Hk as [-> | ->]; [exists 0%Z|exists (n - 1)%Z]; lia).
      destruct HE as (q & Hq & Ek). destruct (SEG q Hq) as (EN & _).
      destruct (EN (line_point cosv n xline yline k)) as (A1 & A2 & _); [destruct Ek as [-> | ->]; auto|].
      rewrite EX0, EX1 in A1. rewrite EY0, EY1 in A2. auto. }
    assert (A := interpolant_close x0 x1 y0 y1 m0 m1 H0 H1 HX HY psi Lx Ly _ PX PY LIP (proj1 IN) (proj2 IN)).
    assert (B := LIP (fst (line_point cosv n xline yline k)) (snd (line_point cosv n xline yline k)) (xline (IZR k / IZR n)) (yline (IZR k / IZR n))).
    assert (DX : forall x c, 0 <= c -> Rabs (x + c * cosv k (n + 1)%Z - x) <= c).
    { intros x c Hc. replace (x + c * cosv k (n + 1)%Z - x) with (c * cosv k (n + 1)%Z) by ring. rewrite Rabs_mult, (Rabs_right c) by lra.
      assert (U := CB k). assert (0 <= Rabs (cosv k (n + 1)%Z)) by apply Rabs_pos. nra. }
    assert (EP : 0 < / 2 ^ 52) by (apply Rinv_0_lt_compat; apply pow_lt; lra).
    unfold line_point in B at 3 4. cbn [fst snd] in B.
    assert (B1 := DX (xline (IZR k / IZR n)) (10 * / 2 ^ 52) ltac:(lra)). assert (B2 := DX (yline (IZR k / IZR n)) (20 * / 2 ^ 52) ltac:(lra)).
    assert (B3 := Rmult_le_compat_l Lx _ _ PX B1). assert (B4 := Rmult_le_compat_l Ly _ _ PY B2).
    match type of A with Rabs (?u - ?v) <= _ => match type of B with Rabs (_ - ?w) <= _ => assert (T := Rabs_triang (u - v) (v - w)); replace (u - w) with (u - v + (v - w)) by ring end end.
    lra. }
  assert (B0 := BND 0%Z (or_introl eq_refl)). assert (Bn := BND n (or_intror eq_refl)).
  replace (IZR n / IZR n) with 1 in Bn by (field; apply not_0_IZR; lia). replace (0 / IZR n) with 0 in B0 by (field; apply not_0_IZR; lia).
  revert B0 Bn. generalize (interpolant x0 x1 y0 y1 m0 m1 psi (line_point cosv n xline yline 0)) (interpolant x0 x1 y0 y1 m0 m1 psi (line_point cosv n xline yline n)).
  generalize (Lx * ((x1 - x0) / IZR (m0 - 1) + 10 * / 2 ^ 52) + Ly * ((y1 - y0) / IZR (m1 - 1) + 20 * / 2 ^ 52)).
  intros e f0 fn B0 Bn. apply abs_bounds in B0, Bn. apply Rabs_le. lra.
Qed.
Print Assumptions C77_error_partial.

(** Stream functions a + b x + c y + d x y: the flux is the difference between the displaced ends. *)
Theorem C77_bilinear_partial : forall g srt cosv m0 m1 x0 y0 x1 y1 n xline yline a b c d,
  gels_spec g 2 2 -> sorts srt -> (2 <= m0)%Z -> (2 <= m1)%Z -> (m0 * m1 <= int_max)%Z -> (1 <= n)%Z -> (n + 1 <= int_max)%Z ->
  x0 < x1 -> y0 < y1 -> line_inside cosv m0 m1 x0 y0 x1 y1 n xline yline ->
  let psi x y := a + b * x + c * y + d * x * y in let P := line_point cosv n xline yline in
  streamFlow srt g cosv m0 m1 x0 y0 x1 y1 n xline yline psi =
  Ret (Some (psi (fst (P n)) (snd (P n)) - psi (fst (P 0%Z)) (snd (P 0%Z)), psi (xline 1) (yline 1) - psi (xline 0) (yline 0))).
Proof.
  intros g srt cosv m0 m1 x0 y0 x1 y1 n xline yline a b c d G ST H0 H1 HI Hn HN HX HY SEG psi P.
  rewrite (stream_run g srt cosv m0 m1 x0 y0 x1 y1 n xline yline psi G ST H0 H1 HI Hn HN HX HY SEG). fold P.
  assert (E : forall p, interpolant x0 x1 y0 y1 m0 m1 psi p = psi (fst p) (snd p)).
  { intros [u v]. unfold interpolant. cbn [fst snd].
    assert (EU := eq_loc_value x0 x1 m0 H0 HX u). assert (EV := eq_loc_value y0 y1 m1 H1 HY v).
    set (xi := eq_idx x0 x1 m0 u) in *. set (yj := eq_idx y0 y1 m1 v) in *. set (x := eq_loc x0 x1 m0 u) in *. set (y := eq_loc y0 y1 m1 v) in *.
    rewrite EU, EV at 5 || idtac. unfold psi, bilinear.
    replace (eq_node x0 x1 m0 (xi + 1)) with (eq_node x0 x1 m0 xi + (x1 - x0) / IZR (m0 - 1)) by (unfold eq_node; rewrite plus_IZR; ring).
    replace (eq_node y0 y1 m1 (yj + 1)) with (eq_node y0 y1 m1 yj + (y1 - y0) / IZR (m1 - 1)) by (unfold eq_node; rewrite plus_IZR; ring).
    clearbody xi yj x y. rewrite EU, EV. ring. }
  rewrite !E. reflexivity.
Qed.
Print Assumptions C77_bilinear_partial.

(** Lines that leave the grid: the two numbers need not be close, whatever the grid, and the program does not tell.
    The line is the default line of the program (one segment, from (0.55, -0.05) to (3.15, 0.65)), on the
    default grid, [0, 2] x [-1/2, 1/2]: for the stream function y the numbers printed are
    about 0.39 and 0.7, in IEEE arithmetic. *)
Definition Fq (a b : Z) : spec_float := lit a b.
Definition default_run : exec (option (spec_float * spec_float)) :=
  streamFlow insertion cramer (fun _ _ => F_ofZ 0) 21 11 (F_ofZ 0) (Fq (-1) 2) (F_ofZ 2) (Fq 1 2) 1
    (fun t => nadd (Fq 55 100) (nmul (Fq 26 10) t)) (fun t => nadd (Fq (-5) 100) (nmul (Fq 7 10) t)) (fun _ y => y).
Theorem C77_default_line_refuted : exists flux exact, default_run = Ret (Some (flux, exact)) /\
  nlt flux (Fq 2 5) = true /\ nlt (Fq 69 100) exact = true.
Proof.
  assert (E : default_run = Ret (Some (S754_finite false 7032544033509307 (-54), S754_finite false 6305039478318694 (-53)))) by (vm_compute; reflexivity).
  eexists. eexists. split; [exact E|]. split; vm_compute; reflexivity.
Qed.
Print Assumptions C77_default_line_refuted.

(** A line of two segments on a grid of 2 x 2 cells, not displaced: from (1/2, 1/4) over (3/2, 3/2) to
    (1/2, 3/2), for the stream function x y: both numbers are 3/4 - 1/8. *)
Definition case_x (t : R) : R := 1 / 2 + 4 * t * (1 - t).
Definition case_y (t : R) : R := 1 / 4 + 15 / 4 * t - 5 / 2 * t * t.

Lemma case_inside : line_inside (fun _ _ => 0) 3 3 0 0 2 2 2 case_x case_y.
Proof.
  intros k Hk. assert (E : eq_node 0 2 3 = IZR).
  { apply FunctionalExtensionality.functional_extensionality. intros i. unfold eq_node. change (3 - 1)%Z with 2%Z. field. }
  rewrite E.
  assert (PT : forall k, (0 <= k <= 2)%Z -> line_point (fun _ _ => 0) 2 case_x case_y k = (if (k =? 1)%Z then 3 / 2 else 1 / 2, if (k =? 0)%Z then 1 / 4 else 3 / 2)).
  { clear k Hk E. intros k Hk. assert (C : k = 0%Z \/ k = 1%Z \/ k = 2%Z) by lia. unfold line_point. rewrite !Rmult_0_r, !Rplus_0_r. unfold case_x, case_y.
    destruct C as [-> | [-> | ->]]; cbn [Z.eqb Pos.eqb]; f_equal; field. }
  rewrite !PT by lia. exact (case_segment k Hk).
Qed.

Example C77_case : streamFlow insertion gels2 (fun _ _ => 0) 3 3 0 0 2 2 2 case_x case_y (fun x y => 0 + 0 * x + 0 * y + 1 * x * y) = Ret (Some (5 / 8, 5 / 8)).
Proof.
  rewrite (C77_bilinear_partial gels2 insertion (fun _ _ => 0) 3 3 0 0 2 2 2 case_x case_y 0 0 0 1); auto using case_inside, gels2_spec22, insertion_sorts;
    try lia; try lra; try (unfold int_max; lia).
  unfold line_point. rewrite !Rmult_0_r, !Rplus_0_r. unfold case_x, case_y. cbn [fst snd]. f_equal. f_equal. f_equal; field.
Qed.
