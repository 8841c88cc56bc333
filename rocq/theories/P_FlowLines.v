(** Properties C33 (rectilinear grids) and C76: flow interpolation with circulation. *)
From Coq Require Import ZArith List Bool Reals Lra Lia.
From Verif Require Import Base Num NumR M_BoxIterator M_LinearSolve M_FindPoint M_Triangulate M_Quad M_QuadLine M_FlowInterp
  S_LinAlg S_Geometry S_Quad S_Grid S_Sort S_Array S_Flow S_FlowTable
  L_LinearSolve L_Hull L_Quad L_QuadLine L_Box2 L_Flow L_FlowFind L_FlowInterp L_FlowGen L_FlowPar L_FlowTrap L_FlowRect P_Flow.
Import ListNotations.
Open Scope R_scope.

(** ** C33 on rectilinear grids *)
Lemma rect_parallelograms : forall d0 d1 X Y, increasing d0 X -> increasing d1 Y -> parallelogram_cells d0 d1 (rx X) (ry Y).
Proof.
  intros d0 d1 X Y HX HY i j [Hi Hj]. assert (A := HX i Hi). assert (B := HY j Hj). unfold rx, ry. split; [ring|]. split; [ring|].
  unfold cr. cbn [fst snd]. assert (0 < (X (i + 1)%Z - X i) * (Y (j + 1)%Z - Y j)) by (apply Rmult_lt_0_compat; lra). lra.
Qed.

Lemma rect_bilinear : forall X Y i j x y,
  bilinear_map (rx X i j, ry Y i j) (rx X (i + 1) j, ry Y (i + 1) j)%Z (rx X (i + 1) (j + 1), ry Y (i + 1) (j + 1))%Z (rx X i (j + 1), ry Y i (j + 1))%Z x y =
  (X i + x * (X (i + 1)%Z - X i), Y j + y * (Y (j + 1)%Z - Y j)).
Proof. intros. unfold bilinear_map, bilinear, rx, ry. cbn [fst snd]. f_equal; ring. Qed.

(** The flux across every segment and across the whole line, from conditions on the coordinates only:
    strictly increasing grid coordinates, and segments inside the grid, not along inner grid lines,
    with ends and crossings clear of the grid lines. *)
Theorem C33_rectilinear : forall g srt cosv d0 d1 X Y psi F n xs ys dxs dys data0 data1 out,
  gels_spec g 2 2 -> sorts srt -> (2 <= d0)%Z -> (2 <= d1)%Z -> (d0 * d1 <= int_max)%Z -> (2 <= n <= int_max)%Z ->
  increasing d0 X -> increasing d1 Y ->
  stores d0 d1 (fun i _ => X i) xs -> stores d0 d1 (fun _ j => Y j) ys -> Z.of_nat (length dxs) = n -> Z.of_nat (length dys) = n ->
  stores (d0 - 1) d1 (edges0 psi) data0 -> stores d0 (d1 - 1) (edges1 psi) data1 -> Z.of_nat (length out) = (n - 1)%Z ->
  (forall i j x y, is_cell2 d0 d1 i j -> 0 <= x <= 1 -> 0 <= y <= 1 ->
     F (X i + x * (X (i + 1)%Z - X i), Y j + y * (Y (j + 1)%Z - Y j)) =
     bilinear (psi i j) (psi (i + 1)%Z j) (psi i (j + 1)%Z) (psi (i + 1)%Z (j + 1)%Z) x y) ->
  let P := displaced (fun i => cosv i n) dxs dys in
  (forall k, (0 <= k < n - 1)%Z -> rectilinear_segment (100 * / 2 ^ 52) d0 d1 X Y (P k) (P (k + 1)%Z)) ->
  exists out', flow_run srt g cosv d0 d1 xs ys n dxs dys 1 data0 data1 out = Ret out' /\ length out' = length out /\
    (forall k, (0 <= k < n - 1)%Z -> nth (Z.to_nat k) out' 0 = F (P (k + 1)%Z) - F (P k)) /\
    fold_right Rplus 0 out' = F (P (n - 1)%Z) - F (P 0%Z).
Proof.
  intros g srt cosv d0 d1 X Y psi F n xs ys dxs dys data0 data1 out G ST H0 H1 HI Hn HX HY SX SY LX LY D0 D1 LO INT P SEG.
  assert (IN : interpolates d0 d1 (rx X) (ry Y) psi F).
  { intros i j x y HC Hx Hy. rewrite rect_bilinear. apply INT; auto. }
  assert (RG : regular_line d0 d1 (rx X) (ry Y) cosv n dxs dys).
  { intros k Hk. apply rect_regular; auto.
    apply Rmult_le_pos; [lra|]. left. apply Rinv_0_lt_compat. apply pow_lt. lra. }
  destruct (C33_flux_parallelograms g srt cosv d0 d1 (rx X) (ry Y) psi F n xs ys dxs dys data0 data1 out) as (out' & E & L & K); auto.
  { apply rect_parallelograms; auto. }
  destruct (C33_total g srt cosv d0 d1 (rx X) (ry Y) psi F n xs ys dxs dys data0 data1 out) as (out2 & E2 & S2 & _); auto.
  { apply rect_parallelograms; auto. }
  rewrite E in E2. injection E2 as <-. exists out'. split; auto.
Qed.
Print Assumptions C33_rectilinear.

(** ** C76 *)
(** The sum of differences of branches that agree at the common points. *)
Lemma branch_sum : forall (F : Z -> point -> R) (P : Z -> point) (e : R) l a, 0 <= e ->
  (forall k, (k < length l)%nat ->
     Rabs (nth k l 0 - (F (a + Z.of_nat k)%Z (P (a + Z.of_nat k + 1)%Z) - F (a + Z.of_nat k)%Z (P (a + Z.of_nat k)%Z))) <= e) ->
  (forall k, (S k < length l)%nat -> F (a + Z.of_nat k)%Z (P (a + Z.of_nat k + 1)%Z) = F (a + Z.of_nat k + 1)%Z (P (a + Z.of_nat k + 1)%Z)) ->
  l <> [] ->
  Rabs (fold_right Rplus 0 l - (F (a + Z.of_nat (length l) - 1)%Z (P (a + Z.of_nat (length l))%Z) - F a (P a))) <= INR (length l) * e.
Proof.
  intros F P e l. induction l as [|x l IH]; intros a He HV HC NE; [congruence|].
  assert (V0 := HV 0%nat ltac:(simpl; lia)). cbn [nth Z.of_nat] in V0. rewrite Z.add_0_r in V0.
  destruct l as [|y l].
  - cbn [fold_right length INR]. replace (a + Z.of_nat 1 - 1)%Z with a by lia. change (Z.of_nat 1) with 1%Z. rewrite Rplus_0_r, Rmult_1_l. exact V0.
  - assert (C0 := HC 0%nat ltac:(simpl; lia)). change (Z.of_nat 0) with 0%Z in C0. rewrite Z.add_0_r in C0.
    remember (y :: l) as l' eqn:EL.
    assert (I := IH (a + 1)%Z He). change (length (x :: l')) with (S (length l')). rewrite S_INR. cbn [fold_right].
    replace (a + Z.of_nat (S (length l')))%Z with (a + 1 + Z.of_nat (length l'))%Z by lia.
    assert (I' := I ltac:(intros k Hk; specialize (HV (S k) ltac:(cbn [length] in *; lia)); cbn [nth] in HV;
      replace (a + 1 + Z.of_nat k)%Z with (a + Z.of_nat (S k))%Z by lia; exact HV)
      ltac:(intros k Hk; specialize (HC (S k) ltac:(cbn [length] in *; lia));
      replace (a + 1 + Z.of_nat k)%Z with (a + Z.of_nat (S k))%Z by lia; exact HC) ltac:(rewrite EL; discriminate)).
    match type of V0 with Rabs ?u <= _ => match type of I' with Rabs ?v <= _ => assert (T := Rabs_triang u v) end end.
    match goal with |- Rabs ?w <= _ => match type of T with Rabs ?z <= _ => replace w with z by (rewrite C0; ring) end end. lra.
Qed.

(** Cells with two parallel sides (polar grids without the centre among them) and flows with
    circulation.  For each segment k there is a branch F k of the stream function.  Each flux is the
    difference of the branch within the accuracy of the point search; when consecutive branches agree
    at the common point of their segments the total is the change of the stream function along the line,
    which need not vanish for a closed line. *)
Theorem C76_circulation : forall g srt cosv d0 d1 nx ny psi (F : Z -> point -> R) L n xs ys dxs dys data0 data1 out,
  gels_spec g 2 2 -> sorts srt -> (2 <= d0)%Z -> (2 <= d1)%Z -> (d0 * d1 <= int_max)%Z -> (2 <= n <= int_max)%Z ->
  stores d0 d1 nx xs -> stores d0 d1 ny ys -> Z.of_nat (length dxs) = n -> Z.of_nat (length dys) = n ->
  stores (d0 - 1) d1 (edges0 psi) data0 -> stores d0 (d1 - 1) (edges1 psi) data1 -> Z.of_nat (length out) = (n - 1)%Z ->
  trapezoid_cells d0 d1 nx ny -> regular_line d0 d1 nx ny cosv n dxs dys -> 0 <= L ->
  let P := displaced (fun i => cosv i n) dxs dys in
  (forall k, (0 <= k < n - 1)%Z -> interpolates_along d0 d1 nx ny psi (P k) (P (k + 1)%Z) (F k) /\
     lipschitz_along d0 d1 nx ny L (P k) (P (k + 1)%Z) (F k)) ->
  let e := 2 * (L * / 10 ^ 10) * IZR ((d0 - 1) * (d1 - 1)) in
  exists out', flow_run srt g cosv d0 d1 xs ys n dxs dys 1 data0 data1 out = Ret out' /\ length out' = length out /\
    (forall k, (0 <= k < n - 1)%Z -> Rabs (nth (Z.to_nat k) out' 0 - (F k (P (k + 1)%Z) - F k (P k))) <= e) /\
    ((forall k, (0 <= k < n - 2)%Z -> F k (P (k + 1)%Z) = F (k + 1)%Z (P (k + 1)%Z)) ->
     Rabs (fold_right Rplus 0 out' - (F (n - 2)%Z (P (n - 1)%Z) - F 0%Z (P 0%Z))) <= IZR (n - 1) * e).
Proof.
  intros g srt cosv d0 d1 nx ny psi F L n xs ys dxs dys data0 data1 out G ST H0 H1 HI Hn SX SY LX LY D0 D1 LO TR SEG LP P INT e.
  destruct (flux_convex g srt cosv d0 d1 nx ny psi F L n 1 xs ys dxs dys data0 data1 out) as (s1 & s2 & s3 & out' & E1 & E2 & E3 & E4 & LL & K); auto.
  - intros i j Hc. destruct (TR i j Hc) as (C & lam & HL & P1 & P2). apply (trap_convexq (cell_quad nx ny i j) lam); auto.
  - intros k Hk A B. destruct (SEG k Hk) as (S1 & S2 & S3). destruct (INT k Hk) as (I1 & I2). repeat (split; auto).
    intros i j t Hc Ht HH. apply trapezoid_locates; auto. apply (TR i j Hc).
  - assert (V : forall k, (0 <= k < n - 1)%Z -> Rabs (nth (Z.to_nat k) out' 0 - (F k (P (k + 1)%Z) - F k (P k))) <= e).
    { intros k Hk. specialize (K k Hk). cbn [INR] in K. rewrite !Rmult_1_l in K. exact K. }
    exists out'. split; [apply (flow_run_ok _ _ _ _ _ _ _ _ _ _ _ _ _ _ s1 s2 s3); auto|]. split; [lia|]. split; auto.
    intros CH. assert (EP : 0 <= e).
    { unfold e. apply Rmult_le_pos; [|apply IZR_le; nia]. apply Rmult_le_pos; [lra|]. apply Rmult_le_pos; auto. left. apply Rinv_0_lt_compat. apply pow_lt. lra. }
    assert (S := branch_sum F P e out' 0%Z EP).
    assert (LE : length out' = Z.to_nat (n - 1)) by lia. rewrite LE in S. rewrite INR_IZR_INZ, !Z2Nat.id in S by lia.
    replace (0 + (n - 1) - 1)%Z with (n - 2)%Z in S by lia. replace (0 + (n - 1))%Z with (n - 1)%Z in S by lia. apply S.
    + intros k Hk. specialize (V (Z.of_nat k) ltac:(lia)). rewrite Nat2Z.id in V. exact V.
    + intros k Hk. apply (CH (Z.of_nat k)). lia.
    + intros X. subst out'. cbn [length] in LE. lia.
Qed.
Print Assumptions C76_circulation.

(** ** Non-trivial cases *)
Lemma tol_small : 0 < 100 * / 2 ^ 52 < / 100.
Proof.
  assert (X : / 2 ^ 52 < / 10000) by (apply Rinv_lt_contravar; [lra|]; lra).
  assert (Y : 0 < / 2 ^ 52) by (apply Rinv_0_lt_compat; lra). lra.
Qed.

(** The line of the next example. *)
Lemma case_segment : forall k, (0 <= k < 2)%Z ->
  let P (k : Z) : point := (if (k =? 1)%Z then 3 / 2 else 1 / 2, if (k =? 0)%Z then 1 / 4 else 3 / 2) in
  rectilinear_segment (100 * / 2 ^ 52) 3 3 IZR IZR (P k) (P (k + 1)%Z).
Proof.
  intros k Hk P. unfold P. assert (Ck : k = 0%Z \/ k = 1%Z) by lia.
  assert (CL : forall tol v, 0 < tol < / 100 -> 0 <= v <= 2 -> (v <= 9 / 10 \/ 11 / 10 <= v \/ v = 1) -> clear_of tol 3 IZR v).
  { intros tol v HT HV HO i Hi w. assert (Ci : i = 0%Z \/ i = 1%Z) by lia. unfold w. clear w.
  destruct Ci as [-> | ->]; rewrite !plus_IZR; intros; lra. }
  assert (T := tol_small). revert T. generalize (100 * / 2 ^ 52). intros tol T.
  destruct Ck as [-> | ->]; change (0 + 1)%Z with 1%Z; change (1 + 1)%Z with 2%Z; cbn [Z.eqb Pos.eqb]; unfold rectilinear_segment, on_seg; cbn [fst snd].
  + split; [intros p [-> | ->]; change (3 - 1)%Z with 2%Z; cbn [fst snd]; (split; [lra|]; split; [lra|]; split; apply CL; auto; lra)|].
    split; [intros i Hi; assert (i = 1%Z) by lia; subst; lra|]. split; [intros i Hi; assert (i = 1%Z) by lia; subst; lra|].
    split.
    * intros i t Hi _ Ht EQ. assert (Ci : i = 0%Z \/ i = 1%Z \/ i = 2%Z) by lia. destruct Ci as [-> | [-> | ->]]; try (exfalso; lra).
      split; [lra|]. apply CL; auto; lra.
    * intros i t Hi _ Ht EQ. assert (Ci : i = 0%Z \/ i = 1%Z \/ i = 2%Z) by lia. destruct Ci as [-> | [-> | ->]]; try (exfalso; lra).
      split; [lra|]. apply CL; auto; lra.
  + split; [intros p [-> | ->]; change (3 - 1)%Z with 2%Z; cbn [fst snd]; (split; [lra|]; split; [lra|]; split; apply CL; auto; lra)|].
    split; [intros i Hi; assert (i = 1%Z) by lia; subst; lra|]. split; [intros i Hi; assert (i = 1%Z) by lia; subst; lra|].
    split.
    * intros i t Hi _ Ht EQ. assert (Ci : i = 0%Z \/ i = 1%Z \/ i = 2%Z) by lia. destruct Ci as [-> | [-> | ->]]; try (exfalso; lra).
      split; [lra|]. apply CL; auto; lra.
    * intros i t Hi NE. exfalso. apply NE. lra.
Qed.

(** A grid of 2 x 2 unit cells and a line of two segments, not displaced: from (1/2, 1/4) over (3/2, 3/2)
    to (1/2, 3/2), with stream function x y: fluxes 9/4 - 1/8 and 3/4 - 9/4. *)
Example C33_rectilinear_case : exists out',
  flow_run insertion gels2 (fun _ _ => 0) 3 3 (array2 3 3 (fun i _ => IZR i)) (array2 3 3 (fun _ j => IZR j))
    3 [1 / 2; 3 / 2; 1 / 2] [1 / 4; 3 / 2; 3 / 2] 1 (array2 2 3 (edges0 (fun i j => IZR i * IZR j))) (array2 3 2 (edges1 (fun i j => IZR i * IZR j))) [7; 7] = Ret out' /\
  nth 0 out' 0 = 17 / 8 /\ nth 1 out' 0 = - 3 / 2 /\ fold_right Rplus 0 out' = 5 / 8.
Proof.
  set (F := fun p : point => fst p * snd p).
  assert (PT : forall k, (k = 0 \/ k = 1 \/ k = 2)%Z -> displaced (fun _ => 0) [1 / 2; 3 / 2; 1 / 2] [1 / 4; 3 / 2; 3 / 2] k =
    (if (k =? 1)%Z then 3 / 2 else 1 / 2, if (k =? 0)%Z then 1 / 4 else 3 / 2)).
  { intros k [-> | [-> | ->]]; unfold displaced; f_equal; [change (Z.to_nat 0) with 0%nat|change (Z.to_nat 0) with 0%nat|
      change (Z.to_nat 1) with 1%nat|change (Z.to_nat 1) with 1%nat|change (Z.to_nat 2) with 2%nat|change (Z.to_nat 2) with 2%nat]; cbn [nth Z.eqb Pos.eqb]; ring. }
  destruct (C33_rectilinear gels2 insertion (fun _ _ => 0) 3 3 IZR IZR (fun i j => IZR i * IZR j) F 3
    (array2 3 3 (fun i _ => IZR i)) (array2 3 3 (fun _ j => IZR j)) [1 / 2; 3 / 2; 1 / 2] [1 / 4; 3 / 2; 3 / 2]
    (array2 2 3 (edges0 (fun i j => IZR i * IZR j))) (array2 3 2 (edges1 (fun i j => IZR i * IZR j))) [7; 7]) as (out' & E & L & K & S);
    try (apply array2_stores; lia); try reflexivity; try lia; try (unfold int_max; lia).
  - exact gels2_spec22.
  - apply insertion_sorts.
  - intros i Hi. apply IZR_lt. lia.
  - intros i Hi. apply IZR_lt. lia.
  - intros i j x y HC Hx Hy. unfold F, bilinear. cbn [fst snd]. rewrite !plus_IZR. ring.
  - intros k Hk. rewrite !PT by lia. apply case_segment. lia.
  - exists out'. split; auto. assert (K0 := K 0%Z ltac:(lia)). assert (K1 := K 1%Z ltac:(lia)).
    rewrite !PT in K0, K1, S by lia. change (Z.to_nat 0) with 0%nat in K0. change (Z.to_nat 1) with 1%nat in K1. unfold F in *.
    change (0 + 1)%Z with 1%Z in K0. change (1 + 1)%Z with 2%Z in K1. change (3 - 1)%Z with 2%Z in S.
    cbn [Z.eqb Pos.eqb fst snd] in *. rewrite K0, K1, S. repeat split; field.
Qed.
