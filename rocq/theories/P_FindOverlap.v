(** Property theorems C44, C45, C60: cells under a polygon. *)
From Coq Require Import ZArith List Bool Lia Reals Lra.
From Coq Require Import Floats.SpecFloat.
From Verif Require Import Base Num NumR NumF M_LinearSolve M_FindPoint M_FindOverlap S_LinAlg S_Grid
  L_LinearSolve L_Interp L_Cramer L_FindPoint L_FindPointR L_FindPointA L_FindPointB L_FindPointG L_NodeInterp L_NodeInterpR L_FindOverlap L_Flow S_Quad P_FindPoint.
Import ListNotations.
Open Scope R_scope.

(** A new object, its source grid set, then for each polygon setPolygonPoints and findSrcCellIndices. *)
Definition overlap_run {T} {N : Num T} (g : gels T) (d0 d1 : Z) (per : list Z) (coords : list (list T)) (polys : list (list (T * T))) : exec (fo T) :=
  let! s := fo_setSrcGrid fo_new d0 d1 per coords in
  foldM (fun s poly => let! s := fo_setPolygonPoints s (Z.of_nat (length poly)) (flat_map (fun p => [fst p; snd p]) poly) in
                       fo_findSrcCellIndices g s) polys s.

(** Where a search object of its own finds a point: setGrid, reset from the middle of the grid, next until done. *)
Definition located_at (g : gels R) (d0 d1 : Z) (per : list Z) (coords : list (list R)) (p : R * R) (q : list R) : Prop :=
  exists f f1 code f2, fp_setGrid (fp_new 100 (lit 1 (10 ^ 6))) [d0; d1] per coords = Ret f /\
    fp_reset f [IZR d0 / (2123353 / 1000000); IZR d1 / (19647354 / 10000000)] [fst p; snd p] = Ret f1 /\
    fp_search g f1 = Ret (code, f2) /\ fp_dIndices f2 = q.

Lemma setPolygon_ok : forall {T} {N : Num T} (s : fo T) poly, fo_setPolygonPoints s (Z.of_nat (length poly)) (flat_map (fun p => [fst p; snd p]) poly) =
  Ret (mkFo (fo_nodeDims s) (fo_prodDims s) (fo_cells s) (fo_finder s) (flat_points poly) (Some (Z.of_nat (length poly)))).
Proof.
  intros T N s poly. unfold fo_setPolygonPoints. destruct (Z.ltb_spec (Z.of_nat (length poly)) 0); [lia|]. fold (flat_points poly).
  assert (L : forall p : list (T * T), length (flat_points p) = (2 * length p)%nat) by (induction p; cbn [flat_points flat_map length app] in *; auto; unfold flat_points in IHp; lia).
  unfold range. rewrite mapM_vget_all by (rewrite L; lia). reflexivity.
Qed.

Lemma fresh_ready : forall {T} {N : Num T} d0 d1 per (coords : list (list T)), grid_data [d0; d1] coords -> exists f, fp_setGrid (fp_new 100 (lit 1 (10 ^ 6))) [d0; d1] per coords = Ret f /\
  fp_ready [d0; d1] coords f /\ fp_nitermax f = 100%Z /\ twin f f.
Proof.
  intros T N d0 d1 per coords HD. destruct (setGrid_ok (fp_new 100 (lit 1 (10 ^ 6))) [d0; d1] per coords HD) as (f & E & A1 & A2 & A3 & A4 & A5 & _ & _ & _ & A6 & _).
  exists f. split; auto. assert (F : fp_ready [d0; d1] coords f).
  { unfold fp_ready. repeat (split; [assumption|]). rewrite A6. cbn. unfold int_max. lia. }
  split; auto. split; [rewrite A6; reflexivity|]. apply twin_refl; auto. destruct A1 as (-> & _). discriminate.
Qed.

(** C44. Exact arithmetic, any linear solver, any polygons searched before.  [qs] are the positions
    of the polygon's points in the grid; a cell is returned when the positions reach below its high
    side and above its low side less 0.01, on both axes. *)
Theorem C44_cells : forall g d0 d1 per coords hist poly, grid_data [d0; d1] coords ->
  List.Forall (fun p => p <> []) hist -> poly <> [] ->
  exists s qs, overlap_run g d0 d1 per coords (hist ++ [poly]) = Ret s /\ Forall2 (located_at g d0 d1 per coords) poly qs /\
    NoDup (fo_cells s) /\
    forall k, In k (fo_cells s) <-> exists a b, k = (a * d1 + b)%Z /\ (0 <= a < d0 - 1)%Z /\ (0 <= b < d1 - 1)%Z /\
       ((exists q, In q qs /\ nth 0 q 0 < IZR a + 1) /\ (exists q, In q qs /\ IZR a < nth 0 q 0 + 1 / 100)) /\
       ((exists q, In q qs /\ nth 1 q 0 < IZR b + 1) /\ (exists q, In q qs /\ IZR b < nth 1 q 0 + 1 / 100)).
Proof.
  intros g d0 d1 per coords hist poly HD HN PN.
  assert (Hok : grid_ok [d0; d1]) by apply HD.
  assert (D0 := dims_ge2 [d0; d1] 0 Hok ltac:(simpl; lia)). assert (D1 := dims_ge2 [d0; d1] 1 Hok ltac:(simpl; lia)). cbn [nth] in D0, D1.
  assert (DM : (d0 * d1 <= int_max)%Z) by (destruct Hok as [_ Hok]; cbn [grid_size] in Hok; unfold int_max; lia).
  destruct (fresh_ready d0 d1 per coords HD) as (f & EF & F & NI & TF).
  unfold overlap_run, fo_setSrcGrid. rewrite chk_ok by (unfold int_min, int_max; lia). cbn [bind fo_new fo_finder fo_cells fo_points fo_numPoints]. rewrite EF. cbn [bind].
  replace (1 * d1)%Z with d1 by lia. rewrite foldM_app.
  assert (H1 : exists s1, foldM (fun s poly => let! s := fo_setPolygonPoints s (Z.of_nat (length poly)) (flat_map (fun p => [fst p; snd p]) poly) in fo_findSrcCellIndices g s) hist
    (mkFo [d0; d1] [d1; 1%Z] [] f [] None) = Ret s1 /\ fo_nodeDims s1 = [d0; d1] /\ fo_prodDims s1 = [d1; 1%Z] /\ twin f (fo_finder s1)).
  { apply foldM_total with (P := fun s1 : fo R => fo_nodeDims s1 = [d0; d1] /\ fo_prodDims s1 = [d1; 1%Z] /\ twin f (fo_finder s1)); [cbn; auto|].
    intros s p (A1 & A2 & A3) Ip. rewrite setPolygon_ok. cbn [bind]. rewrite Forall_forall in HN.
    destruct (find_cells g d0 d1 coords p (mkFo (fo_nodeDims s) (fo_prodDims s) (fo_cells s) (fo_finder s) (flat_points p) (Some (Z.of_nat (length p)))) f F)
      as (s' & qs & E & B1 & B2 & B3 & _); auto; [rewrite NI; unfold int_max; lia|]. exists s'. auto. }
  destruct H1 as (s1 & E1 & A1 & A2 & A3). rewrite E1. cbn [bind foldM]. rewrite setPolygon_ok. cbn [bind].
  destruct (find_cells g d0 d1 coords poly (mkFo (fo_nodeDims s1) (fo_prodDims s1) (fo_cells s1) (fo_finder s1) (flat_points poly) (Some (Z.of_nat (length poly)))) f F)
    as (s' & qs & E & B1 & B2 & B3 & B4 & B5 & B6 & B7); auto; [rewrite NI; unfold int_max; lia|].
  rewrite E. cbn [bind]. exists s', qs. split; auto. split.
  { clear - B4 EF. induction B4 as [|p q poly qs (f1 & c & f2 & X1 & X2 & X3) B4 IH]; constructor; auto. exists f, f1, c, f2.
    unfold fo_guess in X1. rewrite !lit_R in X1. change (IZR (10 ^ 6)) with 1000000 in X1. change (IZR (10 ^ 7)) with 10000000 in X1. auto. }
  split; auto. intros k. rewrite B7. split; intros (a & b & X1 & X2 & X3 & X4); exists a, b; repeat (split; [first [assumption|lia]|]); auto.
Qed.
Print Assumptions C44_cells.

Lemma wsum_strict : forall w l m, length w = length l -> List.Forall (fun x => - 0 <= x) w -> List.Forall (fun v => m < v) l ->
  m * wsum w (map (fun _ => 1) l) <= wsum w l /\ (0 < wsum w (map (fun _ => 1) l) -> m * wsum w (map (fun _ => 1) l) < wsum w l).
Proof.
  induction w as [|u w IH]; intros [|v l] m L Hw Hl; try discriminate; cbn [map wsum]; [lra|].
  inversion Hw as [|? ? H1 H2]; subst. inversion Hl as [|? ? H3 H4]; subst. destruct (IH l m ltac:(simpl in L; lia) H2 H4) as [I1 I2].
  assert (m * u <= u * v) by nra. split; [nra|]. intros P. destruct (Rle_lt_dec (wsum w (map (fun _ => 1) l)) 0) as [C|C].
  - assert (0 < u) by lra. nra.
  - specialize (I2 C). nra.
Qed.

Lemma wsum_low : forall w l, length w = length l -> List.Forall (fun x => - 0 <= x) w -> wsum w (map (fun _ => 1) l) = 1 -> exists v, In v l /\ v <= wsum w l.
Proof.
  intros w l L Hw S. destruct (Forall_Exists_dec (fun v => wsum w l < v) (fun v => Rlt_dec _ v) l) as [C|C].
  - destruct (wsum_strict w l _ L Hw C) as [_ I]. rewrite S in I. specialize (I ltac:(lra)). lra.
  - apply Exists_exists in C. destruct C as (v & I & C). exists v. split; auto. lra.
Qed.

Lemma wsum_opp : forall w l, wsum w (map Ropp l) = - wsum w l.
Proof. induction w as [|u w IH]; intros [|v l]; cbn [map wsum]; try lra. rewrite IH. lra. Qed.

Lemma wsum_high : forall w l, length w = length l -> List.Forall (fun x => - 0 <= x) w -> wsum w (map (fun _ => 1) l) = 1 -> exists v, In v l /\ wsum w l <= v.
Proof.
  intros w l L Hw S. destruct (wsum_low w (map Ropp l)) as (v & I & C).
  - rewrite map_length. auto.
  - auto.
  - rewrite map_map. auto.
  - rewrite wsum_opp in C. apply in_map_iff in I. destruct I as (u & <- & I). exists u. split; auto. lra.
Qed.

Lemma wsum_affine : forall w (ts : list (R * R)) c a b, length w = length ts ->
  wsum w (map (fun t => c + (a * fst t + b * snd t)) ts) = c * wsum w (map (fun _ => 1) ts) + (a * wsum w (map fst ts) + b * wsum w (map snd ts)).
Proof. induction w as [|u w IH]; intros [|t ts] c a b L; try discriminate; cbn [map wsum]; [lra|]. rewrite IH by (simpl in L; lia). lra. Qed.

(** The position in space of the index position (x, y). *)
Definition image (c : list R) (A : list (list R)) (t : R * R) : R * R :=
  (nth 0 c 0 + dot (nth 0 A []) [fst t; snd t], nth 1 c 0 + dot (nth 1 A []) [fst t; snd t]).

Lemma image_entries : forall c A t, length A = 2%nat -> List.Forall (fun r : list R => length r = 2%nat) A ->
  image c A t = (nth 0 c 0 + (entry A 0 0 * fst t + entry A 0 1 * snd t), nth 1 c 0 + (entry A 1 0 * fst t + entry A 1 1 * snd t)).
Proof.
  intros c A t L F. destruct A as [|r0 [|r1 [|]]]; try discriminate. inversion F as [|? ? F0 F']; subst. inversion F' as [|? ? F1 _]; subst.
  destruct r0 as [|? [|? [|]]]; try discriminate. destruct r1 as [|? [|? [|]]]; try discriminate. unfold image, entry. cbn [nth dot]. f_equal; lra.
Qed.

Lemma image_inj : forall c A t t', length A = 2%nat -> List.Forall (fun r : list R => length r = 2%nat) A -> invertible 2 A -> image c A t = image c A t' -> t = t'.
Proof.
  intros c A [x y] [x' y'] L F (B & _ & HB) E. rewrite !image_entries in E by auto. cbn [fst snd] in E. injection E as E0 E1.
  assert (H00 := HB 0%nat 0%nat ltac:(lia) ltac:(lia)). assert (H01 := HB 0%nat 1%nat ltac:(lia) ltac:(lia)).
  assert (H10 := HB 1%nat 0%nat ltac:(lia) ltac:(lia)). assert (H11 := HB 1%nat 1%nat ltac:(lia) ltac:(lia)). cbn [rsum Nat.eqb] in *.
  set (a := entry A 0 0) in *. set (b := entry A 0 1) in *. set (d := entry A 1 0) in *. set (e := entry A 1 1) in *. clearbody a b d e.
  assert (K : forall i, B i 0%nat * a + B i 1%nat * d = (if Nat.eqb i 0 then 1 else 0) -> B i 0%nat * b + B i 1%nat * e = (if Nat.eqb i 1 then 1 else 0) ->
    (if Nat.eqb i 0 then 1 else 0) * (x - x') + (if Nat.eqb i 1 then 1 else 0) * (y - y') = 0).
  { intros i K1 K2. rewrite <- K1, <- K2. transitivity (B i 0%nat * ((a * x + b * y) - (a * x' + b * y')) + B i 1%nat * ((d * x + e * y) - (d * x' + e * y'))); [ring|].
    replace (a * x + b * y) with (a * x' + b * y') by lra. replace (d * x + e * y) with (d * x' + e * y') by lra. ring. }
  assert (K0 := K 0%nat ltac:(cbn [Nat.eqb]; lra) ltac:(cbn [Nat.eqb]; lra)). assert (K1 := K 1%nat ltac:(cbn [Nat.eqb]; lra) ltac:(cbn [Nat.eqb]; lra)).
  cbn [Nat.eqb] in K0, K1. f_equal; lra.
Qed.

(** C60. Exact arithmetic, affine grids with at least 3 nodes on the second axis, every solver that
    solves 2 x 2 systems.  The points of the polygon lie in the grid.  Every cell [a, a+1) x [b, b+1)
    with a point of the polygon (here: of the hull of its points) is returned. *)
Theorem C60_affine_partial : forall g d0 d1 per coords c A hist (ts : list (R * R)) s,
  gels_spec g 2 2 -> grid_data [d0; d1] coords -> length per = 2%nat -> (3 <= d1)%Z ->
  affine_grid [d0; d1] coords c A -> invertible 2 A ->
  List.Forall (fun p => p <> []) hist -> ts <> [] -> List.Forall (fun t => in_grid [d0; d1] [fst t; snd t]) ts ->
  overlap_run g d0 d1 per coords (hist ++ [map (image c A) ts]) = Ret s ->
  forall a b x y, (0 <= a < d0 - 1)%Z -> (0 <= b < d1 - 1)%Z -> IZR a <= x < IZR a + 1 -> IZR b <= y < IZR b + 1 ->
    in_hull (map (image c A) ts) (image c A (x, y)) -> In (a * d1 + b)%Z (fo_cells s).
Proof.
  intros g d0 d1 per coords c A hist ts s HG HD LP H3 HA HI HN TN TG HR a b x y Ha Hb Hx Hy HH.
  assert (Hok : grid_ok [d0; d1]) by apply HD.
  assert (D0 := dims_ge2 [d0; d1] 0 Hok ltac:(simpl; lia)). cbn [nth] in D0.
  destruct (C44_cells g d0 d1 per coords hist (map (image c A) ts) HD HN) as (s' & qs & E & LQ & _ & HC); [destruct ts; [congruence|discriminate]|].
  rewrite HR in E. injection E as <-.
  assert (EQ : qs = map (fun t => [fst t; snd t]) ts).
  { clear HH HC HR TN. revert qs LQ. induction TG as [|t ts Ht TG IH]; intros qs LQ; inversion LQ as [|p q ? qs' Hq Hqs]; subst; [reflexivity|].
    cbn [map]. f_equal; [|apply IH; auto]. destruct Hq as (f & f1 & code & f2 & E1 & E2 & E3 & <-).
    destruct (C13_affine_one_step g 100 (lit 1 (10 ^ 6)) [d0; d1] per coords f f1 [IZR d0 / (2123353 / 1000000); IZR d1 / (19647354 / 10000000)] [fst (image c A t); snd (image c A t)] c A [fst t; snd t])
      as (code' & s' & X1 & X2 & _ & X4); auto.
    - assert (2 <= IZR d0) by (apply IZR_le; lia). assert (3 <= IZR d1) by (apply IZR_le; lia).
      constructor; [|constructor; [|constructor]]; rewrite minus_IZR; lra.
    - intros i Hi. destruct i as [|[|i]]; cbn in Hi; [reflexivity|reflexivity|lia].
    - assert (TP : 0 < (lit 1 (10 ^ 6) : R)) by (rewrite lit_R; change (IZR (10 ^ 6)) with 1000000; lra).
      rewrite X4 in X1 by (auto; lia). rewrite (search_one g f1 s' 1 X1) in E3 by lia. injection E3 as _ <-. exact X2. }
  assert (HA' := HA). destruct HA' as (LA & FA & _). cbn [length] in LA, FA.
  destruct HH as (w & L & W & S1 & EX & EY). rewrite map_length in L. rewrite !map_map in *.
  assert (PT : (x, y) = (wsum w (map fst ts), wsum w (map snd ts))).
  { apply (image_inj c A); auto. rewrite (surjective_pairing (image c A (x, y))), EX, EY, (image_entries c A (wsum w _, _)) by auto. cbn [fst snd]. f_equal.
    - etransitivity; [|rewrite <- (Rmult_1_r (nth 0 c 0)), <- S1; apply (wsum_affine w ts (nth 0 c 0)); auto]. f_equal. apply map_ext. intros t. rewrite image_entries by auto. reflexivity.
    - etransitivity; [|rewrite <- (Rmult_1_r (nth 1 c 0)), <- S1; apply (wsum_affine w ts (nth 1 c 0)); auto]. f_equal. apply map_ext. intros t. rewrite image_entries by auto. reflexivity. }
  injection PT as PX PY. apply HC. exists a, b. split; auto. split; auto. split; auto. subst qs.
  assert (LO : forall h : R * R -> R, exists t, In t ts /\ h t <= wsum w (map h ts)).
  { intros h. destruct (wsum_low w (map h ts)) as (v & I & C); [rewrite map_length; auto|auto|rewrite map_map; auto|].
    apply in_map_iff in I. destruct I as (t & <- & I). eauto. }
  assert (HI' : forall h : R * R -> R, exists t, In t ts /\ wsum w (map h ts) <= h t).
  { intros h. destruct (wsum_high w (map h ts)) as (v & I & C); [rewrite map_length; auto|auto|rewrite map_map; auto|].
    apply in_map_iff in I. destruct I as (t & <- & I). eauto. }
  destruct (LO fst) as (t1 & I1 & C1). destruct (LO snd) as (t2 & I2 & C2). destruct (HI' fst) as (t3 & I3 & C3). destruct (HI' snd) as (t4 & I4 & C4).
  split; split.
  - exists [fst t1; snd t1]. split; [apply (in_map (fun t => [fst t; snd t])); auto|cbn [nth]; lra].
  - exists [fst t3; snd t3]. split; [apply (in_map (fun t => [fst t; snd t])); auto|cbn [nth]; lra].
  - exists [fst t2; snd t2]. split; [apply (in_map (fun t => [fst t; snd t])); auto|cbn [nth]; lra].
  - exists [fst t4; snd t4]. split; [apply (in_map (fun t => [fst t; snd t])); auto|cbn [nth]; lra].
Qed.
Print Assumptions C60_affine_partial.

(** ** Refutations, in IEEE arithmetic *)
(** Nodes at (i, j). *)
Definition unit_grid (d0 d1 : Z) : list (list spec_float) :=
  [map (fun k => Fq (k / d1) 1) (range (d0 * d1)); map (fun k => Fq (k mod d1) 1) (range (d0 * d1))].
Definition cells_of {T} (r : exec (fo T)) : exec (list Z) := let! s := r in Ret (fo_cells s).
Definition cells_read {T} (r : exec (fo T)) : exec (list Z) := let! s := r in fo_getSrcCellIndices s.
Definition tri_at (x0 y0 x1 y1 x2 y2 : Z) : list (spec_float * spec_float) := [(Fq x0 4, Fq y0 4); (Fq x1 4, Fq y1 4); (Fq x2 4, Fq y2 4)].

(** C44 without points: a polygon without points on a 4 x 4 grid gets four cells, none of them a
    cell of the grid under either numbering (0..8 over cells; a*4+b, a, b < 3, over nodes). *)
Theorem C44_no_points_refuted : forall g, cells_of (overlap_run g 4 4 [0; 0]%Z (unit_grid 4 4) [[]]) = Ret [15; 16; 11; 12]%Z.
Proof. intros g. vm_compute. reflexivity. Qed.
Print Assumptions C44_no_points_refuted.

(** C44: a polygon on the high side of the grid gets no cell, and reading the cells is then
    undefined, although the number of cells is 0 and the call before returned normally. *)
Theorem C44_high_side_refuted :
  cells_of (overlap_run cramer 5 5 [0; 0]%Z (unit_grid 5 5) [tri_at 16 4 16 8 16 6]) = Ret [] /\
  cells_read (overlap_run cramer 5 5 [0; 0]%Z (unit_grid 5 5) [tri_at 16 4 16 8 16 6]) = Undef OutOfBounds.
Proof. split; vm_compute; reflexivity. Qed.
Print Assumptions C44_high_side_refuted.

(** C45: the 3 x 3 grid has the cells 0..3; a triangle inside the cell (1, 1), that is number 3 row
    by row, gets the number 4. *)
Theorem C45_numbering_refuted : cells_read (overlap_run cramer 3 3 [0; 0]%Z (unit_grid 3 3) [tri_at 5 5 7 5 5 7]) = Ret [4]%Z.
Proof. vm_compute. reflexivity. Qed.
Print Assumptions C45_numbering_refuted.

(** C45, exact arithmetic: when the two numberings agree.  A returned cell (a, b) has the number
    a * d1 + b; that is its row-major number a * (d1 - 1) + b only on the first row. *)
Theorem C45_numbering_partial : forall (g : gels R) d0 d1 per coords hist poly s, grid_data [d0; d1] coords ->
  List.Forall (fun p => p <> []) hist -> poly <> [] ->
  overlap_run g d0 d1 per coords (hist ++ [poly]) = Ret s ->
  (forall k, In k (fo_cells s) -> exists! ab : Z * Z, k = (fst ab * d1 + snd ab)%Z /\ (0 <= fst ab < d0 - 1)%Z /\ (0 <= snd ab < d1 - 1)%Z) /\
  forall a b, (0 <= b < d1 - 1)%Z -> ((a * d1 + b = a * (d1 - 1) + b)%Z <-> a = 0%Z).
Proof.
  intros g d0 d1 per coords hist poly s HD HN PN HR. split; [|intros; nia]. intros k I.
  destruct (C44_cells g d0 d1 per coords hist poly HD HN PN) as (s' & qs & E & _ & _ & HC). rewrite HR in E. injection E as <-.
  apply HC in I. destruct I as (a & b & -> & Ha & Hb & _). exists (a, b). cbn [fst snd]. split; [auto|].
  intros [a' b'] (X & Y & W). cbn [fst snd] in *. assert (a = a') by nia. subst a'. f_equal. lia.
Qed.
Print Assumptions C45_numbering_partial.

(** C60: a triangle that covers the whole 5 x 5 grid, its corners outside, gets the cell in the
    middle only; here for any linear solver. *)
Theorem C60_outside_refuted : forall g, cells_read (overlap_run g 5 5 [0; 0]%Z (unit_grid 5 5) [tri_at (-400) (-400) 800 (-400) (-400) 800]) = Ret [12]%Z.
Proof. intros g. vm_compute. reflexivity. Qed.
Print Assumptions C60_outside_refuted.

(** C60: a grid of four parallelograms with a bend, nodes at (4 i - 4, 4 j + |4 i - 4|).  The corners of the
    triangle are inside the grid and found, in the cells (0, 0) and (1, 0), numbers 0 and 3.  Its side of
    x = -3 to 3 at y = 13/2 runs through the inside of the cell (0, 1), number 1, which is not returned. *)
Definition bend_x (k : Z) : Z := (4 * (k / 3) - 4)%Z.
Definition bend_y (k : Z) : Z := (4 * (k mod 3) + Z.abs (bend_x k))%Z.
Definition bend_grid : list (list spec_float) := [map (fun k => Fq (bend_x k) 1) (range 9); map (fun k => Fq (bend_y k) 1) (range 9)].
Definition bend_node (i j : Z) : R * R := (IZR (bend_x (i * 3 + j)), IZR (bend_y (i * 3 + j))).
Definition bend_cell (i j : Z) : list (R * R) := [bend_node i j; bend_node (i + 1) j; bend_node (i + 1) (j + 1); bend_node i (j + 1)].

Theorem C60_curved_refuted :
  cells_read (overlap_run cramer 3 3 [0; 0]%Z bend_grid [tri_at (-12) 26 12 26 12 27]) = Ret [0; 3]%Z /\
  in_hull (bend_cell 0 0) (-3, 13 / 2) /\ in_hull (bend_cell 1 0) (3, 13 / 2) /\ in_hull (bend_cell 1 0) (3, 27 / 4) /\
  exists w p, length w = 4%nat /\ List.Forall (fun a => 0 < a) w /\ wsum w (map (fun _ => 1) (bend_cell 0 1)) = 1 /\
    p = (wsum w (map fst (bend_cell 0 1)), wsum w (map snd (bend_cell 0 1))) /\
    in_hull [(-3, 13 / 2); (3, 13 / 2); (3, 27 / 4)] p.
Proof.
  split; [vm_compute; reflexivity|].
  assert (E00 : bend_cell 0 0 = [(-4, 4); (0, 0); (0, 4); (-4, 8)]) by reflexivity.
  assert (E10 : bend_cell 1 0 = [(0, 0); (4, 4); (4, 8); (0, 4)]) by reflexivity.
  assert (E01 : bend_cell 0 1 = [(-4, 8); (0, 4); (0, 8); (-4, 12)]) by reflexivity.
  rewrite E00, E10, E01. split; [|split; [|split]].
  - exists [3 / 32; 1 / 32; 7 / 32; 21 / 32]. cbn. split; auto. split; [repeat constructor; lra|lra].
  - exists [1 / 32; 3 / 32; 21 / 32; 7 / 32]. cbn. split; auto. split; [repeat constructor; lra|lra].
  - exists [1 / 64; 3 / 64; 45 / 64; 15 / 64]. cbn. split; auto. split; [repeat constructor; lra|lra].
  - exists [5 / 32; 15 / 32; 9 / 32; 3 / 32]. eexists. split; [reflexivity|]. split; [repeat constructor; lra|]. split; [cbn; lra|]. split; [reflexivity|].
    exists [2 / 3; 1 / 3; 0]. cbn. split; auto. split; [repeat constructor; lra|lra].
Qed.
Print Assumptions C60_curved_refuted.

(** ** Concrete cases *)
Definition u3 : list (list R) := [[0; 0; 0; 1; 1; 1; 2; 2; 2]; [0; 1; 2; 0; 1; 2; 0; 1; 2]].
Definition u3t : list (R * R) := [(1 / 2, 1 / 2); (3 / 2, 1 / 2); (1 / 2, 3 / 2)].

Lemma u3_data : grid_data [3; 3]%Z u3.
Proof. split; [discriminate|split; [split; [repeat constructor; lia|simpl; lia]|split; [reflexivity|repeat constructor]]]. Qed.

Lemma u3_affine : affine_grid [3; 3]%Z u3 [0; 0] [[1; 0]; [0; 1]].
Proof.
  split; [reflexivity|]. split; [repeat constructor|]. intros i v Hi Hv.
  inversion Hv as [|d x ds v' Hx Hv']; subst. inversion Hv' as [|d y ds v2 Hy Hv2]; subst. inversion Hv2; subst.
  assert (x = 0 \/ x = 1 \/ x = 2)%Z as [-> |[-> | ->]] by lia; assert (y = 0 \/ y = 1 \/ y = 2)%Z as [-> |[-> | ->]] by lia;
  destruct i as [|[|i]]; simpl in Hi; try lia; simpl; lra.
Qed.

Lemma u3_invertible : invertible 2 [[1; 0]; [0; 1]].
Proof.
  exists (fun i j => if Nat.eqb i j then 1 else 0).
  split; intros i k Hi Hk; destruct i as [|[|i]]; try lia; destruct k as [|[|k]]; try lia; unfold entry; simpl; lra.
Qed.

(** C44, C45, C60: a triangle on the 3 x 3 grid, after another polygon; its longest side runs
    through (1, 1), so the cell (1, 1) is returned, as number 4. *)
Example C60_nonvacuous : exists s, overlap_run gels2 3 3 [0; 0]%Z u3 ([[(0, 0)]] ++ [map (image [0; 0] [[1; 0]; [0; 1]]) u3t]) = Ret s /\ In 4%Z (fo_cells s).
Proof.
  assert (HN : List.Forall (fun p : list (R * R) => p <> []) [[(0, 0)]]) by (repeat constructor; discriminate).
  destruct (C44_cells gels2 3 3 [0; 0]%Z u3 [[(0, 0)]] (map (image [0; 0] [[1; 0]; [0; 1]]) u3t) u3_data HN) as (s & qs & E & _); [discriminate|].
  exists s. split; auto.
  refine (C60_affine_partial gels2 3 3 [0; 0]%Z u3 [0; 0] [[1; 0]; [0; 1]] [[(0, 0)]] u3t s gels2_spec22 u3_data eq_refl _ u3_affine u3_invertible HN _ _ E 1 1 1 1 _ _ _ _ _);
    try lia; try lra; [discriminate| |].
  - repeat (apply List.Forall_cons; [repeat constructor; cbn [fst snd Z.sub]; change (IZR (3 - 1)) with 2; lra|]). constructor.
  - exists [0; 1 / 2; 1 / 2]. split; [reflexivity|]. split; [repeat constructor; lra|]. unfold image, u3t. cbn. repeat split; lra.
Qed.

(** The same in IEEE arithmetic: all four cells. *)
Example C44_nonvacuous : cells_read (overlap_run cramer 3 3 [0; 0]%Z (unit_grid 3 3) [tri_at 0 0 0 0 0 0; tri_at 2 2 6 2 2 6]) = Ret [0; 1; 3; 4]%Z.
Proof. vm_compute. reflexivity. Qed.
