(** Flow interpolation in exact arithmetic: grids of parallelograms and grids on which the searches converge. *)
From Coq Require Import ZArith List Bool Reals Lra Lia.
From Verif Require Import Base Num NumR M_BoxIterator M_LinearSolve M_FindPoint M_Triangulate M_Quad M_QuadLine M_FlowInterp
  S_LinAlg S_Geometry S_Quad S_Grid S_Flow S_Sort S_Array L_Box2 L_Hull L_Quad L_QuadLine L_Flow L_FlowFind L_FlowInterp L_Intervals L_FlowGen.
Import ListNotations.
Open Scope R_scope.

(** ** Coordinates in a parallelogram *)
Definition par_x (q : quad R) (p : point) : R := cr (q0 q) p (q3 q) / cr (q0 q) (q1 q) (q3 q).
Definition par_y (q : quad R) (p : point) : R := cr (q0 q) (q1 q) p / cr (q0 q) (q1 q) (q3 q).
Definition in_unit (q : quad R) (p : point) : Prop := 0 <= par_x q p <= 1 /\ 0 <= par_y q p <= 1.

Lemma frame_id : forall q p, parallelogram q -> p = in_frame (q0 q) (q1 q) (q3 q) (par_x q p) (par_y q p).
Proof.
  intros q p (_ & _ & D). unfold in_frame, par_x, par_y. apply pair_eq; cbn [fst snd]; unfold cr in *; field; exact D.
Qed.

Lemma frame_uniq : forall q p x y, parallelogram q -> p = in_frame (q0 q) (q1 q) (q3 q) x y -> x = par_x q p /\ y = par_y q p.
Proof.
  intros q p x y (_ & _ & D) ->. unfold in_frame, par_x, par_y, cr in *; cbn [fst snd]. split; field; exact D.
Qed.

Lemma par_convexq : forall q, parallelogram q -> exists sg, convexq sg q /\ forall p, in_quad sg q p <-> in_unit q p.
Proof.
  intros q HP. assert (HP' := HP). destruct HP' as (P1 & P2 & D).
  set (sg := if Rlt_dec 0 (cr (q0 q) (q1 q) (q3 q)) then 1 else -1).
  assert (Sg : sg = 1 \/ sg = -1) by (unfold sg; destruct (Rlt_dec _ _); auto).
  assert (SD : 0 < sg * cr (q0 q) (q1 q) (q3 q)) by (unfold sg; destruct (Rlt_dec _ _); lra).
  exists sg. split.
  - unfold convexq. split; auto.
    replace (cr (q0 q) (q1 q) (q2 q)) with (cr (q0 q) (q1 q) (q3 q)) by (unfold cr; rewrite P1, P2; ring).
    replace (cr (q1 q) (q2 q) (q3 q)) with (cr (q0 q) (q1 q) (q3 q)) by (unfold cr; rewrite P1, P2; ring).
    replace (cr (q2 q) (q3 q) (q0 q)) with (cr (q0 q) (q1 q) (q3 q)) by (unfold cr; rewrite P1, P2; ring).
    replace (cr (q3 q) (q0 q) (q1 q)) with (cr (q0 q) (q1 q) (q3 q)) by (unfold cr; ring). auto.
  - intros p. assert (Ep := frame_id q p HP). unfold in_unit. set (x := par_x q p) in *. set (y := par_y q p) in *. clearbody x y.
    assert (E0 : cr (q0 q) (q1 q) p = y * cr (q0 q) (q1 q) (q3 q)) by (rewrite Ep; unfold cr, in_frame; cbn [fst snd]; ring).
    assert (E1 : cr (q1 q) (q2 q) p = (1 - x) * cr (q0 q) (q1 q) (q3 q)) by (rewrite Ep; unfold cr, in_frame; cbn [fst snd]; rewrite P1, P2; ring).
    assert (E2 : cr (q2 q) (q3 q) p = (1 - y) * cr (q0 q) (q1 q) (q3 q)) by (rewrite Ep; unfold cr, in_frame; cbn [fst snd]; rewrite P1, P2; ring).
    assert (E3 : cr (q3 q) (q0 q) p = x * cr (q0 q) (q1 q) (q3 q)) by (rewrite Ep; unfold cr, in_frame; cbn [fst snd]; ring).
    unfold in_quad. set (d := cr (q0 q) (q1 q) (q3 q)) in *. clearbody d.
    assert (K : forall z c, c = z * d -> (0 <= sg * c <-> 0 <= z)) by (intros z c ->; split; intros; nra).
    split.
    + intros H. assert (H0 := H _ (or_introl eq_refl)). assert (H1 := H _ (or_intror (or_introl eq_refl))).
      assert (H2 := H _ (or_intror (or_intror (or_introl eq_refl)))).
      assert (H3 := H _ (or_intror (or_intror (or_intror (or_introl eq_refl))))). cbn [fst snd] in *.
      apply (K _ _ E0) in H0. apply (K _ _ E1) in H1. apply (K _ _ E2) in H2. apply (K _ _ E3) in H3. lra.
    + intros [Hx Hy] e He. simpl in He. destruct He as [<-|[<-|[<-|[<-|[]]]]]; cbn [fst snd].
      * apply (K _ _ E0). lra. * apply (K _ _ E1). lra. * apply (K _ _ E2). lra. * apply (K _ _ E3). lra.
Qed.

Lemma par_hull : forall q p, parallelogram q -> (in_hull (nodes q) p <-> in_unit q p).
Proof.
  intros q p HP. destruct (par_convexq q HP) as (sg & CQ & IC). rewrite <- IC. symmetry. apply hull_iff. auto.
Qed.

Lemma par_map : forall q x y, parallelogram q ->
  bilinear_map (q0 q) (q1 q) (q2 q) (q3 q) x y = in_frame (q0 q) (q1 q) (q3 q) x y.
Proof.
  intros q x y (P1 & P2 & _). unfold bilinear_map, bilinear, in_frame. apply pair_eq; cbn [fst snd]; rewrite ?P1, ?P2; ring.
Qed.

(** ** Grids of parallelograms *)
Lemma no_miss_cell : forall d0 d1 nx ny A B c, (2 <= d1)%Z -> (0 <= c < ncell d0 d1)%Z ->
  cells_no_near_miss qtolR d0 d1 nx ny A B ->
  no_near_miss qtolR (q0 (cell_of d1 nx ny c)) (q1 (cell_of d1 nx ny c)) (q2 (cell_of d1 nx ny c)) (q3 (cell_of d1 nx ny c)) A B.
Proof.
  intros d0 d1 nx ny A B c H1 Hc H. destruct (cell_range (d0 - 1) (d1 - 1) c ltac:(lia) Hc) as (C1 & C2 & C3).
  apply (H _ _ (conj C1 C2)).
Qed.

Lemma flux_parallelograms : forall g srt cosv d0 d1 nx ny psi (F : Z -> point -> R) n m xs ys dxs dys data0 data1 out,
  gels_spec g 2 2 -> sorts srt -> (2 <= d0)%Z -> (2 <= d1)%Z ->
  (d0 * d1 <= int_max)%Z -> (2 <= n <= int_max)%Z -> m <> 0%nat ->
  stores d0 d1 nx xs -> stores d0 d1 ny ys -> Z.of_nat (length dxs) = n -> Z.of_nat (length dys) = n ->
  stores (d0 - 1) d1 (dpsi0 psi) data0 -> stores d0 (d1 - 1) (dpsi1 psi) data1 -> Z.of_nat (length out) = (n - 1)%Z ->
  (forall i j, is_cell2 d0 d1 i j -> parallelogram (cell_quad nx ny i j)) ->
  (forall k, (0 <= k < n - 1)%Z ->
     let A := displaced (fun i => cosv i n) dxs dys k in let B := displaced (fun i => cosv i n) dxs dys (k + 1) in
     interpolates_along d0 d1 nx ny psi A B (F k) /\
     cells_cover d0 d1 nx ny A B /\ cells_share_once d0 d1 nx ny A B /\ cells_no_near_miss qtolR d0 d1 nx ny A B) ->
  exists s1 s2 s3 out', fl_setSrcGrid fl_new d0 d1 [xs; ys] = Ret s1 /\ fl_setDstGrid cosv s1 n [dxs; dys] = Ret s2 /\
    fl_computeN g srt m s2 = Ret s3 /\ fl_apply s3 data0 data1 out = Ret out' /\ Z.of_nat (length out') = (n - 1)%Z /\
    forall k, (0 <= k < n - 1)%Z -> nth (Z.to_nat k) out' 0 =
      INR m * (F k (displaced (fun i => cosv i n) dxs dys (k + 1)) - F k (displaced (fun i => cosv i n) dxs dys k)).
Proof.
  intros g srt cosv d0 d1 nx ny psi F n m xs ys dxs dys data0 data1 out G ST H0 H1 HI Hn Hm SX SY LX LY D0 D1 LO PAR SEG.
  assert (PC : forall c, (0 <= c < ncell d0 d1)%Z -> parallelogram (cell_of d1 nx ny c)).
  { intros c Hc. destruct (cell_range (d0 - 1) (d1 - 1) c ltac:(lia) Hc) as (C1 & C2 & C3). apply PAR. split; auto. }
  destruct (run_flux g parallelogram (fun q => in_hull (nodes q)) par_x par_y) with (d0 := d0) (d1 := d1) (nx := nx) (ny := ny)
    (psi := psi) (f := fun k t => F k (on_seg (displaced (fun i => cosv i n) dxs dys k) (displaced (fun i => cosv i n) dxs dys (k + 1)) t)) (delta := 0) (srt := srt) (cosv := cosv) (n := n) (m := m) (xs := xs) (ys := ys) (dxs := dxs) (dys := dys)
    (data0 := data0) (data1 := data1) (out := out) as (s1 & s2 & s3 & out' & E1 & E2 & E3 & E4 & L & FB); auto.
  - intros q HP. destruct (par_convexq q HP) as (sg & CQ & _). apply (convex_flow_cell g sg); auto.
  - intros q f p HP FR HH. apply par_hull in HH; auto. destruct HH as [Hx Hy].
    destruct (find_par g q f p (par_x q p) (par_y q p) G FR HP Hx Hy (frame_id q p HP)) as (f' & E & FR'). eauto.
  - lra.
  - intros k Hk. destruct (SEG k Hk) as (INT & S1 & S2 & S3). cbv zeta in *. split; [|split; auto; split; auto].
    { intros c Hc (t & Ht & IN). destruct (cell_range (d0 - 1) (d1 - 1) c ltac:(lia) Hc) as (C1 & C2 & C3).
      destruct (INT _ _ (conj C1 C2) (ex_intro _ t (conj Ht IN))) as (K & HK). exists (- K).
      intros u [Hu HH] _. cbv zeta. apply Req_le. set (p := P _ u) in *.
      change (on_seg (displaced (fun i => cosv i n) dxs dys k) (displaced (fun i => cosv i n) dxs dys (k + 1)) u) with p.
      assert (HH' := HH). apply par_hull in HH'; auto. destruct HH' as [Hx Hy].
      assert (X := HK _ _ Hx Hy). unfold val.
      match type of X with F k ?a = _ => assert (E : a = p) end.
      { symmetry. etransitivity; [apply (frame_id _ p (PC c Hc))|]. symmetry. apply (par_map (cell_of d1 nx ny c)). auto. }
      rewrite E in X. unfold Rminus. rewrite X. match goal with |- Rabs ?z = _ => replace z with 0 by ring end. apply Rabs_R0. }
    intros c t Hc Ht. assert (IN : inside (cell_of d1 nx ny c) (displaced (fun i => cosv i n) dxs dys k, displaced (fun i => cosv i n) dxs dys (k + 1)) t).
    { apply (no_miss_lambdas g G parallelogram) with (q := cell_of d1 nx ny c); auto.
      - intros q HP. destruct (par_convexq q HP) as (sg & CQ & _). apply (convex_flow_cell g sg); auto.
      - intros e He [E _]. destruct (par_convexq _ (PC c Hc)) as (sg & CQ & _). apply (convex_edges sg _ e CQ He E).
      - apply (no_miss_cell d0); auto. }
    split; auto. apply IN.
  - exists s1, s2, s3, out'. split; auto. split; auto. split; auto. split; auto. split; auto.
    intros k Hk. assert (X := FB k Hk). rewrite Rmult_0_r, Rmult_0_l, Rmult_0_r in X.
    rewrite on_seg_0, on_seg_1 in X.
    match type of X with Rabs ?z <= 0 => destruct (Req_dec z 0) as [Y|Y]; [lra|apply Rabs_pos_lt in Y; lra] end.
Qed.

(** ** Grids of convex quads: cells and points where a fresh search converges *)
Definition fresh (q : quad R) : fp (T:=R) :=
  match fp_setGrid (qf_finder (qf_new (T:=R))) [2; 2]%Z [0; 0]%Z (quad_grid q) with Ret f => f | Undef _ => qf_finder (qf_new (T:=R)) end.

Lemma fresh_ready : forall q, finder_ready q (fresh q).
Proof.
  intros q. destruct (finder_set (qf_finder (qf_new (T:=R))) q finder_new) as (f & E & H). unfold fresh. rewrite E. exact H.
Qed.

Definition found (g : gels R) (q : quad R) (p : pt R) : Z * list R :=
  match qf_find g (fresh q) p with Ret (c, xs, _) => (c, xs) | Undef _ => (0%Z, []) end.

(** A new SgQuadLineFlows object given the quad and the segment from p to p reports success. *)
Definition locates (g : gels R) (q : quad R) (p : pt R) : Prop :=
  exists s1 s2, qf_setQuadPoints qf_new q = Ret s1 /\ qf_computeProjections g (qf_setLinePoints s1 (p, p)) = Ret (0%Z, s2).

Lemma hull_extent : forall q p, in_hull (nodes q) p -> in_extent q p.
Proof.
  intros q p H.
  assert (K : forall f : pt R -> R, exists a b, In a (nodes q) /\ In b (nodes q) /\ forall p, In p (nodes q) -> f a <= f p <= f b).
  { intros f. assert (M : forall l (x : pt R), exists a b, In a (x :: l) /\ In b (x :: l) /\ forall p, In p (x :: l) -> f a <= f p <= f b).
    { induction l as [|y l IH]; intros x.
      - exists x, x. split; [left; auto|]. split; [left; auto|]. intros z [<-|[]]. lra.
      - destruct (IH y) as (a & b & Ha & Hb & B).
        destruct (Rle_dec (f x) (f a)), (Rle_dec (f b) (f x)).
        + exists x, x. split; [left; auto|]. split; [left; auto|]. intros z [<-|Hz]; [lra|]. specialize (B z Hz). lra.
        + exists x, b. split; [left; auto|]. split; [right; auto|]. intros z [<-|Hz]; [lra|]. specialize (B z Hz). lra.
        + exists a, x. split; [right; auto|]. split; [left; auto|]. intros z [<-|Hz]; [lra|]. specialize (B z Hz). lra.
        + exists a, b. split; [right; auto|]. split; [right; auto|]. intros z [<-|Hz]; [lra|]. specialize (B z Hz). lra. }
    apply M. }
  split.
  - destruct (K fst) as (a & b & Ha & Hb & B). exists a, b. split; auto. split; auto. apply (hull_x (nodes q)); auto.
  - destruct (K snd) as (a & b & Ha & Hb & B). exists a, b. split; auto. split; auto. apply (hull_y (nodes q)); auto.
Qed.

Lemma locates_found : forall g q p, locates g q p -> in_hull (nodes q) p -> exists x y, found g q p = (1%Z, [x; y]) /\
  0 <= x <= 1 /\ 0 <= y <= 1 /\ sqrt (sqdist p (bilinear_map (q0 q) (q1 q) (q2 q) (q3 q) x y)) < / 10 ^ 10.
Proof.
  intros g q p (s1 & s2 & E1 & E2) HH.
  destruct (find_any g q (fresh q) p (fresh_ready q)) as (c & x & y & f' & EF & FR & NZ & Hx & Hy & D).
  unfold found. rewrite EF. exists x, y. enough (c = 1%Z) by (subst; auto).
  unfold qf_setQuadPoints in E1. apply bind_ret_inv in E1. destruct E1 as (f & EG & E1). injection E1 as <-.
  assert (EQ : fresh q = f) by (unfold fresh; rewrite EG; reflexivity). rewrite EQ in EF.
  unfold qf_computeProjections, qf_indices, qf_setLinePoints in E2. cbn [qf_line qf_finder fst snd] in E2. rewrite EF in E2. cbn [bind] in E2.
  destruct (find_any g q f' p FR) as (c2 & x2 & y2 & f2 & EF2 & FR2 & NZ2 & _). rewrite EF2 in E2. cbn [bind qf_xia qf_xib] in E2.
  change (vget [x; y] 0) with (Ret x) in E2. change (vget [x; y] 1) with (Ret y) in E2.
  change (vget [x2; y2] 0) with (Ret x2) in E2. change (vget [x2; y2] 1) with (Ret y2) in E2. cbn [bind] in E2.
  injection E2 as E2 _. destruct (Z.eqb_spec c 1); [auto|]. destruct (c2 =? 1)%Z; discriminate.
Qed.

Lemma map_in_hull : forall q x y, 0 <= x <= 1 -> 0 <= y <= 1 -> in_hull (nodes q) (bilinear_map (q0 q) (q1 q) (q2 q) (q3 q) x y).
Proof.
  intros q x y Hx Hy. exists [(1 - x) * (1 - y); x * (1 - y); x * y; (1 - x) * y]. split; [reflexivity|].
  split; [repeat (constructor; [nra|]); constructor|]. unfold bilinear_map, bilinear. cbn [nodes map wsum fst snd]. repeat split; ring.
Qed.

(** The stream function along segment k is f k; the index pairs within the accuracy of the search of a
    point of the segment give the same value, up to delta and a constant of the cell. *)
Definition follows (delta : R) (d0 d1 : Z) (nx ny psi : Z -> Z -> R) (A B : point) (f : R -> R) : Prop :=
  forall i j, is_cell2 d0 d1 i j -> (exists t, 0 <= t <= 1 /\ in_hull (corners nx ny i j) (on_seg A B t)) ->
  exists K, forall t x y, 0 <= t <= 1 -> in_hull (corners nx ny i j) (on_seg A B t) -> 0 <= x <= 1 -> 0 <= y <= 1 ->
  let q := cell_quad nx ny i j in
  sqrt (sqdist (on_seg A B t) (bilinear_map (q0 q) (q1 q) (q2 q) (q3 q) x y)) < / 10 ^ 10 ->
  Rabs (bilinear (psi i j) (psi (i + 1)%Z j) (psi i (j + 1)%Z) (psi (i + 1)%Z (j + 1)%Z) x y - (f t + K)) <= delta.

Lemma flux_cells : forall g srt cosv d0 d1 nx ny psi (f : Z -> R -> R) delta n m xs ys dxs dys data0 data1 out,
  gels_spec g 2 2 -> sorts srt -> (2 <= d0)%Z -> (2 <= d1)%Z ->
  (d0 * d1 <= int_max)%Z -> (2 <= n <= int_max)%Z -> m <> 0%nat ->
  stores d0 d1 nx xs -> stores d0 d1 ny ys -> Z.of_nat (length dxs) = n -> Z.of_nat (length dys) = n ->
  stores (d0 - 1) d1 (dpsi0 psi) data0 -> stores d0 (d1 - 1) (dpsi1 psi) data1 -> Z.of_nat (length out) = (n - 1)%Z ->
  (forall i j, is_cell2 d0 d1 i j -> flow_cell g (cell_quad nx ny i j)) ->
  0 <= delta ->
  (forall k, (0 <= k < n - 1)%Z ->
     let A := displaced (fun i => cosv i n) dxs dys k in let B := displaced (fun i => cosv i n) dxs dys (k + 1) in
     (forall i j e, is_cell2 d0 d1 i j -> In e (qedges (cell_quad nx ny i j)) -> ~ (fst e = snd e /\ A = B)) /\
     follows delta d0 d1 nx ny psi A B (f k) /\
     cells_cover d0 d1 nx ny A B /\ cells_share_once d0 d1 nx ny A B /\ cells_no_near_miss qtolR d0 d1 nx ny A B /\
     forall i j t, is_cell2 d0 d1 i j -> 0 <= t <= 1 -> in_hull (corners nx ny i j) (on_seg A B t) ->
       locates g (cell_quad nx ny i j) (on_seg A B t)) ->
  exists s1 s2 s3 out', fl_setSrcGrid fl_new d0 d1 [xs; ys] = Ret s1 /\ fl_setDstGrid cosv s1 n [dxs; dys] = Ret s2 /\
    fl_computeN g srt m s2 = Ret s3 /\ fl_apply s3 data0 data1 out = Ret out' /\ Z.of_nat (length out') = (n - 1)%Z /\
    forall k, (0 <= k < n - 1)%Z ->
      Rabs (nth (Z.to_nat k) out' 0 - INR m * (f k 1 - f k 0)) <= INR m * (2 * delta * IZR ((d0 - 1) * (d1 - 1))).
Proof.
  intros g srt cosv d0 d1 nx ny psi f delta n m xs ys dxs dys data0 data1 out G ST H0 H1 HI Hn Hm SX SY LX LY D0 D1 LO CVX LP SEG.
  set (good := fun q p => in_hull (nodes q) p /\ locates g q p).
  assert (PC : forall c, (0 <= c < ncell d0 d1)%Z -> flow_cell g (cell_of d1 nx ny c)).
  { intros c Hc. destruct (cell_range (d0 - 1) (d1 - 1) c ltac:(lia) Hc) as (C1 & C2 & C3). apply CVX. split; auto. }
  apply (run_flux g (flow_cell g) good (fun q p => nth 0 (snd (found g q p)) 0) (fun q p => nth 1 (snd (found g q p)) 0)) with (nx := nx) (ny := ny) (psi := psi) (f := f)
     (delta := delta); auto.
  - intros q f0 p HP FR [HH LC]. destruct (locates_found g q p LC HH) as (x & y & EF & _).
    destruct (find_same g q (fresh q) f0 p (fresh_ready q) FR (hull_extent q p HH)) as (code & zs & f1 & f2 & A1 & A2 & A3 & A4).
    unfold found in *. rewrite A1 in *. injection EF as -> ->. exists 1%Z, f2. cbn [snd nth]. auto.
  - intros k Hk. destruct (SEG k Hk) as (ED & FOL & S1 & S2 & S3 & S4). cbv zeta in *. split; [|split; auto; split; auto].
    { intros c Hc (t & Ht & IN). destruct (cell_range (d0 - 1) (d1 - 1) c ltac:(lia) Hc) as (C1 & C2 & C3).
      destruct (FOL _ _ (conj C1 C2) (ex_intro _ t (conj Ht IN))) as (K & HK). exists K.
      intros u [Hu HH] [_ LC]. cbv zeta. destruct (locates_found g _ _ LC HH) as (x & y & EF & Hx & Hy & DD).
      unfold val. rewrite EF. cbn [snd nth]. apply (HK u x y Hu HH Hx Hy DD). }
    intros c t Hc Ht. destruct (cell_range (d0 - 1) (d1 - 1) c ltac:(lia) Hc) as (C1 & C2 & C3).
    assert (IN : inside (cell_of d1 nx ny c) (displaced (fun i => cosv i n) dxs dys k, displaced (fun i => cosv i n) dxs dys (k + 1)) t).
    { apply (no_miss_lambdas g G (flow_cell g)) with (q := cell_of d1 nx ny c); auto; [|apply (no_miss_cell d0); auto].
      intros e He. apply (ED _ _ e (conj C1 C2) He). }
    split; auto. destruct IN as [It IH]. split; [exact IH|]. apply (S4 _ _ t (conj C1 C2) It IH).
Qed.

Lemma flux_convex : forall g srt cosv d0 d1 nx ny psi (F : Z -> point -> R) L n m xs ys dxs dys data0 data1 out,
  gels_spec g 2 2 -> sorts srt -> (2 <= d0)%Z -> (2 <= d1)%Z ->
  (d0 * d1 <= int_max)%Z -> (2 <= n <= int_max)%Z -> m <> 0%nat ->
  stores d0 d1 nx xs -> stores d0 d1 ny ys -> Z.of_nat (length dxs) = n -> Z.of_nat (length dys) = n ->
  stores (d0 - 1) d1 (dpsi0 psi) data0 -> stores d0 (d1 - 1) (dpsi1 psi) data1 -> Z.of_nat (length out) = (n - 1)%Z ->
  (forall i j, is_cell2 d0 d1 i j -> exists sg, convexq sg (cell_quad nx ny i j)) ->
  0 <= L ->
  (forall k, (0 <= k < n - 1)%Z ->
     let A := displaced (fun i => cosv i n) dxs dys k in let B := displaced (fun i => cosv i n) dxs dys (k + 1) in
     interpolates_along d0 d1 nx ny psi A B (F k) /\ lipschitz_along d0 d1 nx ny L A B (F k) /\
     cells_cover d0 d1 nx ny A B /\ cells_share_once d0 d1 nx ny A B /\ cells_no_near_miss qtolR d0 d1 nx ny A B /\
     forall i j t, is_cell2 d0 d1 i j -> 0 <= t <= 1 -> in_hull (corners nx ny i j) (on_seg A B t) ->
       locates g (cell_quad nx ny i j) (on_seg A B t)) ->
  exists s1 s2 s3 out', fl_setSrcGrid fl_new d0 d1 [xs; ys] = Ret s1 /\ fl_setDstGrid cosv s1 n [dxs; dys] = Ret s2 /\
    fl_computeN g srt m s2 = Ret s3 /\ fl_apply s3 data0 data1 out = Ret out' /\ Z.of_nat (length out') = (n - 1)%Z /\
    forall k, (0 <= k < n - 1)%Z ->
      Rabs (nth (Z.to_nat k) out' 0 - INR m *
        (F k (displaced (fun i => cosv i n) dxs dys (k + 1)) - F k (displaced (fun i => cosv i n) dxs dys k)))
      <= INR m * (2 * (L * / 10 ^ 10) * IZR ((d0 - 1) * (d1 - 1))).
Proof.
  intros g srt cosv d0 d1 nx ny psi F L n m xs ys dxs dys data0 data1 out G ST H0 H1 HI Hn Hm SX SY LX LY D0 D1 LO CVX LP SEG.
  destruct (flux_cells g srt cosv d0 d1 nx ny psi
    (fun k t => F k (on_seg (displaced (fun i => cosv i n) dxs dys k) (displaced (fun i => cosv i n) dxs dys (k + 1)) t))
    (L * / 10 ^ 10) n m xs ys dxs dys data0 data1 out) as (s1 & s2 & s3 & out' & E1 & E2 & E3 & E4 & LE & FB); auto.
  - intros i j Hc. destruct (CVX i j Hc) as (sg & CQ). apply (convex_flow_cell g sg); auto.
  - apply Rmult_le_pos; auto. left. apply Rinv_0_lt_compat. apply pow_lt. lra.
  - intros k Hk. destruct (SEG k Hk) as (INT & LIP & S1 & S2 & S3 & S4). cbv zeta in *. split; [|split; auto].
    + intros i j e Hc He [E _]. destruct (CVX i j Hc) as (sg & CQ). apply (convex_edges sg _ e CQ He E).
    + intros i j Hc M. destruct (INT _ _ Hc M) as (K & HK). assert (LIP' := LIP _ _ Hc M). exists (- K).
      intros t x y Ht HH Hx Hy q DD. assert (X := HK _ _ Hx Hy).
      match type of X with F k ?a = ?v + K => match goal with |- Rabs (_ - (?w + _)) <= _ => replace (v - (w + - K)) with (F k a - w) by (rewrite X; ring) end end.
      rewrite Rabs_minus_sym.
      eapply Rle_trans; [apply LIP'; [exact HH|]; apply (map_in_hull (cell_quad nx ny i j)); auto|].
      apply Rmult_le_compat_l; auto. left. exact DD.
  - exists s1, s2, s3, out'. repeat (split; auto). intros k Hk. specialize (FB k Hk). cbv beta in FB. rewrite on_seg_0, on_seg_1 in FB. exact FB.
Qed.

Lemma interpolates_one : forall d0 d1 nx ny psi F A B, interpolates d0 d1 nx ny psi F -> interpolates_along d0 d1 nx ny psi A B F.
Proof. intros d0 d1 nx ny psi F A B H i j HC _. exists 0. intros x y Hx Hy. rewrite Rplus_0_r. apply H; auto. Qed.

Lemma lipschitz_one : forall d0 d1 nx ny L F A B, lipschitz d0 d1 nx ny L F -> lipschitz_along d0 d1 nx ny L A B F.
Proof. intros d0 d1 nx ny L F A B H i j HC _ p p' Hp Hp'. apply (H i j); auto. Qed.
