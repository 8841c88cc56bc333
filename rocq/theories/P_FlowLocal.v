(** Properties C84, C85 and C86: the flux through a segment of the destination line. *)
From Coq Require Import ZArith List Bool Reals Lra Lia Permutation Floats.SpecFloat.
From Verif Require Import Base Num NumR NumF M_BoxIterator M_LinearSolve M_FindPoint M_Triangulate M_Quad M_QuadLine M_FlowInterp
  S_LinAlg S_Geometry S_Quad S_Grid S_Flow S_FlowTable S_FlowIntegral S_Sort S_Array L_LinearSolve L_Cramer L_Box2 L_Hull L_Quad L_QuadLine L_Flow L_FlowFind L_FlowInterp
  L_FlowGen L_FlowPar L_FlowTotal L_FlowPath L_FlowRev L_FlowIntegral P_Flow.
Import ListNotations.
Open Scope R_scope.

Lemma dst_displaced : forall c xs ys k, dst_point (T := R) c xs ys k = displaced c xs ys k.
Proof.
  intros c xs ys k. unfold dst_point, displaced. cbn [nadd nmul nofZ n0 NumR]. unfold neps; rewrite lit_R.
  apply pair_eq; cbn [fst snd]; change (2 ^ 52)%Z with 4503599627370496%Z; try lra; field.
Qed.

(** A run whose segment k has its points in the extents of the cells. *)
Lemma run_det : forall g srt cosv d0 d1 nx ny n xs ys dxs dys k h0 h1 data0 data1 out,
  (2 <= d0)%Z -> (2 <= d1)%Z -> (d0 * d1 <= int_max)%Z -> (2 <= n <= int_max)%Z ->
  stores d0 d1 nx xs -> stores d0 d1 ny ys -> Z.of_nat (length dxs) = n -> Z.of_nat (length dys) = n -> (0 <= k < n - 1)%Z ->
  stores (d0 - 1) d1 h0 data0 -> stores d0 (d1 - 1) h1 data1 -> Z.of_nat (length out) = (n - 1)%Z ->
  let l := (displaced (fun i => cosv i n) dxs dys k, displaced (fun i => cosv i n) dxs dys (k + 1)) in
  (forall c p, (0 <= c < (d0 - 1) * (d1 - 1))%Z -> In p (cell_points g srt (cell_no d1 nx ny c) l) -> in_extent (cell_no d1 nx ny c) p) ->
  exists out', flow_run srt g cosv d0 d1 xs ys n dxs dys 1 data0 data1 out = Ret out' /\ length out' = length out /\
    nth (Z.to_nat k) out' 0 = match cell_entries g srt (cell_no d1 nx ny) l (range ((d0 - 1) * (d1 - 1))) with
      [] => nth (Z.to_nat k) out 0 | es => edge_sum d1 h0 h1 0 es end.
Proof.
  intros g srt cosv d0 d1 nx ny n xs ys dxs dys k h0 h1 data0 data1 out H0 H1 HI Hn SX SY LX LY Hk D0 D1 LO l HE.
  destruct (grid_setup cosv d0 d1 nx ny n xs ys dxs dys H0 H1 HI Hn SX SY LX LY) as (s1 & s2 & E1 & E2 & O2 & EW & EN & EL & EC).
  assert (ES : fl_srcNumCells s2 = Some ((d0 - 1) * (d1 - 1))%Z) by apply O2.
  destruct (computeWeights_total srt g s2 (n - 1) ((d0 - 1) * (d1 - 1)) _ _ EN ES EL EC) as (s3 & E3).
  assert (SM : sorted_map (fl_weights s2)) by (rewrite EW; exists 0%Z; exact I).
  assert (EL' : forall k, (0 <= k < n - 1)%Z -> fl_dstLine s2 k =
    Ret (displaced (fun i => cosv i n) dxs dys k, displaced (fun i => cosv i n) dxs dys (k + 1))).
  { intros j Hj. rewrite EL by auto. unfold dst_segment. rewrite !dst_displaced. reflexivity. }
  assert (RW := computeWeights_det g srt s2 s3 _ _ _ _ k EN ES EL' EC HE Hk SM E3). rewrite EW in RW. cbn [row app] in RW.
  destruct (computeWeights_frame srt g s2 s3 E3) as (F1 & F2 & F3 & F4 & F5 & F6 & F7).
  assert (O3 : src_ok d0 d1 nx ny s3) by (unfold src_ok in *; rewrite F1, F2, F5, F6, F7; exact O2).
  assert (TB : table_ok (n - 1) ((d0 - 1) * (d1 - 1)) (fl_weights s3)).
  { apply (computeWeights_table srt g s2 s3); auto. rewrite EW. split; [exists 0%Z; exact I|intros j r []]. }
  destruct (apply_ok d0 d1 nx ny s3 h0 h1 data0 data1 out (n - 1) O3 D0 D1 TB ltac:(lia)) as (out' & EA & L & K).
  exists out'. split; [apply (flow_run_ok _ _ _ _ _ _ _ _ _ _ _ _ _ _ s1 s2 s3); auto; cbn [fl_computeN]; rewrite E3; reflexivity|].
  split; auto. change (n0 : R) with 0 in K. rewrite K, Z2Nat.id, RW by lia.
  unfold l. destruct (cell_entries _ _ _ _ _) as [|e es]; [reflexivity|]. rewrite edge_sum_row. reflexivity.
Qed.

(** ** C86 *)

(** C86 is false.  Two cells, 64 wide and 128 high, values 1 on the edges in the first direction and 0 on
    the others, and the segment from (40, 96) to a point 2^-44 beyond the common edge, which covers 3/8
    of the width of the first cell.  Alone its flux is -1/8 (see C59), within 2^-50.  As the second
    segment of a line that comes from (96, 96) it is 3/8: the search object kept the box of the cells
    visited before, so that the search of the end point is no longer refused.  [cos3]: the cosines of the
    points of the two lines. *)
Definition cos3 (i n : Z) : spec_float :=
  if (n =? 2)%Z then cos2 i n else
  if (i =? 0)%Z then lit 1 1 else if (i =? 1)%Z then lit (-9998766324816606) 10000000000000000 else lit 9995065603657316 10000000000000000.


Theorem C86_alone_refuted :
  let e := nadd (FZ 64) (lit 1 (2 ^ 44)) in
  let run n dxs dys out := flow_run insertion cramer cos3 3 2 (map FZ [0; 0; 64; 64; 128; 128]%Z) (map FZ [0; 128; 0; 128; 0; 128]%Z)
    n dxs dys 1 (map FZ [1; 1; 1; 1]%Z) (map FZ [0; 0; 0]%Z) out in
  dst_segment (fun i => cos3 i 2) [FZ 40; e] [FZ 96; FZ 96] 0 = dst_segment (fun i => cos3 i 3) [FZ 96; FZ 40; e] [FZ 96; FZ 96; FZ 96] 1 /\
  run 2%Z [FZ 40; e] [FZ 96; FZ 96] [FZ 0] = Ret [nsub (lit 1 (2 ^ 50)) (lit 1 8)] /\
  run 3%Z [FZ 96; FZ 40; e] [FZ 96; FZ 96; FZ 96] [FZ 0; FZ 0] = Ret [lit (-7) 8; nadd (lit 3 8) (lit 1 (2 ^ 50))].
Proof. split; [vm_compute; reflexivity|]. split; vm_compute; reflexivity. Qed.
Print Assumptions C86_alone_refuted.

(** The point is in the smallest box around the points V. *)
Definition in_box_of (V : list point) (p : point) : Prop :=
  (exists a b, In a V /\ In b V /\ fst a <= fst p <= fst b) /\ (exists a b, In a V /\ In b V /\ snd a <= snd p <= snd b).

(** C86, exact arithmetic, any solver, any shape of the cells: a segment whose reported points in
    every cell are in the box of the cell has the same flux in all lines, for all edge values; when it
    gets no flux, it gets none in all lines. *)
Theorem C86_box_partial : forall g srt cosv cosv' d0 d1 nx ny n n' xs ys dxs dys dxs' dys' k k' h0 h1 data0 data1 out out',
  (2 <= d0)%Z -> (2 <= d1)%Z -> (d0 * d1 <= int_max)%Z -> (2 <= n <= int_max)%Z -> (2 <= n' <= int_max)%Z ->
  stores d0 d1 nx xs -> stores d0 d1 ny ys -> Z.of_nat (length dxs) = n -> Z.of_nat (length dys) = n ->
  Z.of_nat (length dxs') = n' -> Z.of_nat (length dys') = n' -> (0 <= k < n - 1)%Z -> (0 <= k' < n' - 1)%Z ->
  stores (d0 - 1) d1 h0 data0 -> stores d0 (d1 - 1) h1 data1 -> Z.of_nat (length out) = (n - 1)%Z -> Z.of_nat (length out') = (n' - 1)%Z ->
  let A := displaced (fun i => cosv i n) dxs dys k in let B := displaced (fun i => cosv i n) dxs dys (k + 1) in
  displaced (fun i => cosv' i n') dxs' dys' k' = A -> displaced (fun i => cosv' i n') dxs' dys' (k' + 1) = B ->
  (forall i j pts p, is_cell2 d0 d1 i j -> reported srt g (cell_quad nx ny i j) (A, B) pts -> In p pts -> in_box_of (corners nx ny i j) p) ->
  exists r r', flow_run srt g cosv d0 d1 xs ys n dxs dys 1 data0 data1 out = Ret r /\
    flow_run srt g cosv' d0 d1 xs ys n' dxs' dys' 1 data0 data1 out' = Ret r' /\
    (nth (Z.to_nat k) r 0 = nth (Z.to_nat k') r' 0 \/
     nth (Z.to_nat k) r 0 = nth (Z.to_nat k) out 0 /\ nth (Z.to_nat k') r' 0 = nth (Z.to_nat k') out' 0).
Proof.
  intros g srt cosv cosv' d0 d1 nx ny n n' xs ys dxs dys dxs' dys' k k' h0 h1 data0 data1 out out' H0 H1 HI Hn Hn' SX SY LX LY LX' LY' Hk Hk' D0 D1 LO LO' A B EA EB HB.
  assert (HE : forall c p, (0 <= c < (d0 - 1) * (d1 - 1))%Z -> In p (cell_points g srt (cell_no d1 nx ny c) (A, B)) -> in_extent (cell_no d1 nx ny c) p).
  { intros c p Hc Hp. destruct (cell_range (d0 - 1) (d1 - 1) c ltac:(lia) Hc) as (C1 & C2 & C3).
    apply (HB _ _ (cell_points g srt (cell_no d1 nx ny c) (A, B)) p (conj C1 C2)); [|exact Hp].
    eexists. reflexivity. }
  destruct (run_det g srt cosv d0 d1 nx ny n xs ys dxs dys k h0 h1 data0 data1 out) as (r & ER & LR & VR); auto.
  destruct (run_det g srt cosv' d0 d1 nx ny n' xs ys dxs' dys' k' h0 h1 data0 data1 out') as (r' & ER' & LR' & VR'); auto.
  { rewrite EA, EB. exact HE. }
  exists r, r'. split; auto. split; auto. rewrite EA, EB in VR'. fold A in VR. fold B in VR.
  destruct (cell_entries _ _ _ _ _) as [|e es]; [right; auto|left; congruence].
Qed.
Print Assumptions C86_box_partial.

(** ** Strictly convex cells and lines clear of the tolerance *)
Definition convex_cells (d0 d1 : Z) (nx ny : Z -> Z -> R) : Prop :=
  forall i j, is_cell2 d0 d1 i j -> convex4 (nx i j, ny i j) (nx (i + 1)%Z j, ny (i + 1)%Z j)
    (nx (i + 1)%Z (j + 1)%Z, ny (i + 1)%Z (j + 1)%Z) (nx i (j + 1)%Z, ny i (j + 1)%Z).

Lemma points_inside : forall g srt q A B, gels_spec g 2 2 -> sorts srt -> (exists sg, convexq sg q) ->
  no_near_miss qtolR (q0 q) (q1 q) (q2 q) (q3 q) A B -> forall p, In p (cell_points g srt q (A, B)) -> in_extent q p.
Proof.
  intros g srt q A B G ST CQ NM p Hp. unfold cell_points in Hp. apply in_map_iff in Hp. destruct Hp as (t & <- & Ht).
  destruct (ST nlt (line_lambdas g q (A, B))) as [PM _]. apply (Permutation_in _ PM) in Ht. rewrite on_seg_along.
  apply hull_extent. apply (no_miss_lambdas g G (fun q => exists sg, convexq sg q)) with (q := q) in Ht; auto.
  - apply Ht.
  - intros q' (sg & CQ'). apply (convex_flow_cell g sg); auto.
  - intros e He [E _]. destruct CQ as (sg & CQ). apply (convex_edges sg q e CQ He E).
Qed.

Theorem C86_convex_partial : forall g srt cosv cosv' d0 d1 nx ny n n' xs ys dxs dys dxs' dys' k k' h0 h1 data0 data1 out out',
  gels_spec g 2 2 -> sorts srt ->
  (2 <= d0)%Z -> (2 <= d1)%Z -> (d0 * d1 <= int_max)%Z -> (2 <= n <= int_max)%Z -> (2 <= n' <= int_max)%Z ->
  stores d0 d1 nx xs -> stores d0 d1 ny ys -> Z.of_nat (length dxs) = n -> Z.of_nat (length dys) = n ->
  Z.of_nat (length dxs') = n' -> Z.of_nat (length dys') = n' -> (0 <= k < n - 1)%Z -> (0 <= k' < n' - 1)%Z ->
  stores (d0 - 1) d1 h0 data0 -> stores d0 (d1 - 1) h1 data1 -> Z.of_nat (length out) = (n - 1)%Z -> Z.of_nat (length out') = (n' - 1)%Z ->
  convex_cells d0 d1 nx ny ->
  let A := displaced (fun i => cosv i n) dxs dys k in let B := displaced (fun i => cosv i n) dxs dys (k + 1) in
  displaced (fun i => cosv' i n') dxs' dys' k' = A -> displaced (fun i => cosv' i n') dxs' dys' (k' + 1) = B ->
  cells_no_near_miss (100 * / 2 ^ 52) d0 d1 nx ny A B ->
  exists r r', flow_run srt g cosv d0 d1 xs ys n dxs dys 1 data0 data1 out = Ret r /\
    flow_run srt g cosv' d0 d1 xs ys n' dxs' dys' 1 data0 data1 out' = Ret r' /\
    (nth (Z.to_nat k) r 0 = nth (Z.to_nat k') r' 0 \/
     nth (Z.to_nat k) r 0 = nth (Z.to_nat k) out 0 /\ nth (Z.to_nat k') r' 0 = nth (Z.to_nat k') out' 0).
Proof.
  intros g srt cosv cosv' d0 d1 nx ny n n' xs ys dxs dys dxs' dys' k k' h0 h1 data0 data1 out out' G ST H0 H1 HI Hn Hn' SX SY LX LY LX' LY' Hk Hk' D0 D1 LO LO' CV A B EA EB NM.
  apply (C86_box_partial g srt cosv cosv' d0 d1 nx ny n n' xs ys dxs dys dxs' dys' k k' h0 h1); auto.
  intros i j pts p Hc (s & RP) Hp. fold A B in RP. unfold ql_collect in RP. cbn in RP. injection RP as <- _.
  apply (points_inside g srt (cell_quad nx ny i j) A B G ST); [|apply (NM i j Hc)|exact Hp].
  apply convex4_convexq. apply (CV i j Hc).
Qed.
Print Assumptions C86_convex_partial.

(** ** C84 *)

(** C84.  Exact arithmetic, parallelogram cells, arbitrary edge values: the flux of a segment is the sum
    over the cells of the line integrals, along the part of the segment in the cell, of the field interpolated from the
    edge values (unless the segment has at most one point in common with every cell, when the output is left alone). *)
Theorem C84_integral : forall g srt cosv d0 d1 nx ny n xs ys dxs dys k h0 h1 data0 data1 out,
  gels_spec g 2 2 -> sorts srt ->
  (2 <= d0)%Z -> (2 <= d1)%Z -> (d0 * d1 <= int_max)%Z -> (2 <= n <= int_max)%Z ->
  stores d0 d1 nx xs -> stores d0 d1 ny ys -> Z.of_nat (length dxs) = n -> Z.of_nat (length dys) = n -> (0 <= k < n - 1)%Z ->
  stores (d0 - 1) d1 h0 data0 -> stores d0 (d1 - 1) h1 data1 -> Z.of_nat (length out) = (n - 1)%Z ->
  parallelogram_cells d0 d1 nx ny ->
  let A := displaced (fun i => cosv i n) dxs dys k in let B := displaced (fun i => cosv i n) dxs dys (k + 1) in
  cells_no_near_miss (100 * / 2 ^ 52) d0 d1 nx ny A B ->
  nth (Z.to_nat k) out 0 = 0 \/ crosses_a_cell d0 d1 nx ny A B ->
  exists r I, flow_run srt g cosv d0 d1 xs ys n dxs dys 1 data0 data1 out = Ret r /\ length r = length out /\
    (forall i j, is_cell2 d0 d1 i j -> cell_flux nx ny h0 h1 i j A B (I i j)) /\
    nth (Z.to_nat k) r 0 = cell_sum d0 d1 I.
Proof.
  intros g srt cosv d0 d1 nx ny n xs ys dxs dys k h0 h1 data0 data1 out G ST H0 H1 HI Hn SX SY LX LY Hk D0 D1 LO PA A B NM ZC.
  assert (HP : forall i j, is_cell2 d0 d1 i j -> parallelogram (cell_quad nx ny i j)) by (intros i j HC; apply (PA i j HC)).
  assert (HX : forall c p, (0 <= c < (d0 - 1) * (d1 - 1))%Z -> In p (cell_points g srt (cell_no d1 nx ny c) (A, B)) -> in_extent (cell_no d1 nx ny c) p).
  { intros c p Hc. destruct (cell_range (d0 - 1) (d1 - 1) c ltac:(lia) Hc) as (C1 & C2 & C3). assert (HC := conj C1 C2 : is_cell2 d0 d1 _ _).
    apply (points_inside g srt _ A B G ST); [|apply (NM _ _ HC)]. destruct (par_convexq _ (HP _ _ HC)) as (sg & CQ & _). exists sg. exact CQ. }
  destruct (run_det g srt cosv d0 d1 nx ny n xs ys dxs dys k h0 h1 data0 data1 out) as (r & ER & LR & VR); auto. fold A in VR. fold B in VR.
  set (I := fun i j => entry_value (h0 i j) (h0 i (j + 1)%Z) (h1 i j) (h1 (i + 1)%Z j) (cell_entry g srt (cell_quad nx ny i j) (A, B) (i * (d1 - 1) + j)%Z)).
  exists r, I. split; auto. split; auto.
  split; [intros i j HC; apply (cell_entry_flux g G srt ST); [auto|apply (NM i j HC)]|].
  assert (CC : forall c, (0 <= c < (d0 - 1) * (d1 - 1))%Z -> (c / (d1 - 1) * (d1 - 1) + c mod (d1 - 1))%Z = c).
  { intros c Hc. assert (X := Z.div_mod c (d1 - 1) ltac:(lia)). lia. }
  assert (ES : edge_sum d1 h0 h1 0 (cell_entries g srt (cell_no d1 nx ny) (A, B) (range ((d0 - 1) * (d1 - 1)))) = cell_sum d0 d1 I).
  { rewrite edge_sum_cells, Rplus_0_l. unfold cell_sum. f_equal. apply map_ext_in. intros c Hc. apply in_range in Hc. unfold I. rewrite CC by auto. reflexivity. }
  destruct (cell_entries g srt (cell_no d1 nx ny) (A, B) (range ((d0 - 1) * (d1 - 1)))) as [|e es] eqn:EE; [|congruence].
  rewrite VR. cbn [edge_sum] in ES. rewrite <- ES. destruct ZC as [Z0|(i & j & t & t' & HC & NE & Ht & Ht' & IN & IN')]; [exact Z0|].
  exfalso. apply NE.
  assert (ER0 : cell_entry g srt (cell_quad nx ny i j) (A, B) (i * (d1 - 1) + j)%Z = []).
  { assert (IR : In (i * (d1 - 1) + j)%Z (range ((d0 - 1) * (d1 - 1)))) by (apply in_range; destruct HC; nia).
    destruct (cell_entry g srt (cell_quad nx ny i j) (A, B) (i * (d1 - 1) + j)%Z) as [|e0 es0] eqn:E0; auto. exfalso.
    assert (X : In e0 (cell_entries g srt (cell_no d1 nx ny) (A, B) (range ((d0 - 1) * (d1 - 1))))).
    { unfold cell_entries. apply in_flat_map. eexists. split; [exact IR|].
      assert (EQ : cell_no d1 nx ny (i * (d1 - 1) + j) = cell_quad nx ny i j).
      { unfold cell_no. rewrite Z.div_add_l, Z.div_small, Z.add_0_r by (destruct HC; lia).
        replace ((i * (d1 - 1) + j) mod (d1 - 1))%Z with j; [reflexivity|]. rewrite Z.add_comm, Z_mod_plus_full, Z.mod_small by (destruct HC; lia). reflexivity. }
      rewrite EQ, E0. left. reflexivity. }
    rewrite EE in X. destruct X. }
  apply (proj2 (cell_entry_flux g G srt ST nx ny h0 h1 i j A B (i * (d1 - 1) + j)%Z (HP i j HC) (NM i j HC)) ER0 t t'); auto.
Qed.
Print Assumptions C84_integral.

(** ** C85 *)

(** C85.  Followed the other way the flux changes its sign, for all edge values; when a segment gets no
    flux, the reversed segment gets none. *)
Theorem C85_reversed : forall g srt cosv cosv' d0 d1 nx ny n n' xs ys dxs dys dxs' dys' k k' h0 h1 data0 data1 out out',
  gels_spec g 2 2 -> sorts srt ->
  (2 <= d0)%Z -> (2 <= d1)%Z -> (d0 * d1 <= int_max)%Z -> (2 <= n <= int_max)%Z -> (2 <= n' <= int_max)%Z ->
  stores d0 d1 nx xs -> stores d0 d1 ny ys -> Z.of_nat (length dxs) = n -> Z.of_nat (length dys) = n ->
  Z.of_nat (length dxs') = n' -> Z.of_nat (length dys') = n' -> (0 <= k < n - 1)%Z -> (0 <= k' < n' - 1)%Z ->
  stores (d0 - 1) d1 h0 data0 -> stores d0 (d1 - 1) h1 data1 -> Z.of_nat (length out) = (n - 1)%Z -> Z.of_nat (length out') = (n' - 1)%Z ->
  convex_cells d0 d1 nx ny ->
  let A := displaced (fun i => cosv i n) dxs dys k in let B := displaced (fun i => cosv i n) dxs dys (k + 1) in
  displaced (fun i => cosv' i n') dxs' dys' k' = B -> displaced (fun i => cosv' i n') dxs' dys' (k' + 1) = A ->
  cells_no_near_miss (100 * / 2 ^ 52) d0 d1 nx ny A B ->
  exists r r', flow_run srt g cosv d0 d1 xs ys n dxs dys 1 data0 data1 out = Ret r /\
    flow_run srt g cosv' d0 d1 xs ys n' dxs' dys' 1 data0 data1 out' = Ret r' /\
    (nth (Z.to_nat k') r' 0 = - nth (Z.to_nat k) r 0 \/
     nth (Z.to_nat k) r 0 = nth (Z.to_nat k) out 0 /\ nth (Z.to_nat k') r' 0 = nth (Z.to_nat k') out' 0).
Proof.
  intros g srt cosv cosv' d0 d1 nx ny n n' xs ys dxs dys dxs' dys' k k' h0 h1 data0 data1 out out' G ST H0 H1 HI Hn Hn' SX SY LX LY LX' LY' Hk Hk' D0 D1 LO LO' CV A B EB EA NM.
  assert (CQ : forall c, (0 <= c < (d0 - 1) * (d1 - 1))%Z -> exists sg, convexq sg (cell_no d1 nx ny c)).
  { intros c Hc. destruct (cell_range (d0 - 1) (d1 - 1) c ltac:(lia) Hc) as (C1 & C2 & C3). apply convex4_convexq. apply (CV _ _ (conj C1 C2)). }
  assert (NQ : forall c, (0 <= c < (d0 - 1) * (d1 - 1))%Z -> let q := cell_no d1 nx ny c in no_near_miss qtolR (q0 q) (q1 q) (q2 q) (q3 q) A B).
  { intros c Hc. destruct (cell_range (d0 - 1) (d1 - 1) c ltac:(lia) Hc) as (C1 & C2 & C3). apply (NM _ _ (conj C1 C2)). }
  destruct (run_det g srt cosv d0 d1 nx ny n xs ys dxs dys k h0 h1 data0 data1 out) as (r & ER & LR & VR); auto.
  { intros c p Hc. apply (points_inside g srt _ A B G ST (CQ c Hc) (NQ c Hc)). }
  destruct (run_det g srt cosv' d0 d1 nx ny n' xs ys dxs' dys' k' h0 h1 data0 data1 out') as (r' & ER' & LR' & VR'); auto.
  { rewrite EA, EB. intros c p Hc. apply (points_inside g srt _ B A G ST (CQ c Hc)). apply no_near_miss_rev. apply (NQ c Hc). }
  exists r, r'. split; auto. split; auto. rewrite EA, EB in VR'. fold A in VR. fold B in VR.
  assert (E : cell_entries g srt (cell_no d1 nx ny) (B, A) (range ((d0 - 1) * (d1 - 1))) =
    map neg_entry (cell_entries g srt (cell_no d1 nx ny) (A, B) (range ((d0 - 1) * (d1 - 1))))).
  { assert (K : forall cs, (forall c, In c cs -> (0 <= c < (d0 - 1) * (d1 - 1))%Z) -> cell_entries g srt (cell_no d1 nx ny) (B, A) cs =
      map neg_entry (cell_entries g srt (cell_no d1 nx ny) (A, B) cs)).
    { induction cs as [|c cs IH]; intros HC; [reflexivity|]. unfold cell_entries in *. cbn [flat_map]. rewrite map_app, IH by (intros; apply HC; right; auto). f_equal.
      assert (Hc := HC c (or_introl eq_refl)). apply (cell_entry_rev g G srt ST); [|apply (NQ c Hc)].
      intros e He E. destruct (CQ c Hc) as (sg & C). apply (convex_edges sg _ e C He E). }
    apply K. intros c Hc. apply in_range in Hc. auto. }
  rewrite E in VR'.
  assert (L4 : forall e, In e (cell_entries g srt (cell_no d1 nx ny) (A, B) (range ((d0 - 1) * (d1 - 1)))) -> length (snd e) = 4%nat).
  { intros e He. unfold cell_entries in He. apply in_flat_map in He. destruct He as (c & _ & He). unfold cell_entry in He.
    destruct (quad_line_overlap _ _); [|destruct He]. destruct (2 <=? _)%nat; [|destruct He]. destruct He as [<-|[]]. cbn [snd]. rewrite path_sum. reflexivity. }
  destruct (cell_entries _ _ _ (A, B) _) as [|e es]; [right; auto|left].
  rewrite VR', VR. cbn [map]. change (neg_entry e :: map neg_entry es) with (map neg_entry (e :: es)). rewrite <- (edge_sum_neg d1 h0 h1 (e :: es) 0) by auto.
  rewrite Ropp_0. reflexivity.
Qed.
Print Assumptions C85_reversed.

(** C85, parallelogram cells.  A segment cut at one of its points: the fluxes of the parts add up, for all edge
    values. *)
Theorem C85_split : forall g srt cosv cosv' d0 d1 nx ny n n' xs ys dxs dys dxs' dys' k k1 k2 m h0 h1 data0 data1 out out',
  gels_spec g 2 2 -> sorts srt ->
  (2 <= d0)%Z -> (2 <= d1)%Z -> (d0 * d1 <= int_max)%Z -> (2 <= n <= int_max)%Z -> (2 <= n' <= int_max)%Z ->
  stores d0 d1 nx xs -> stores d0 d1 ny ys -> Z.of_nat (length dxs) = n -> Z.of_nat (length dys) = n ->
  Z.of_nat (length dxs') = n' -> Z.of_nat (length dys') = n' -> (0 <= k < n - 1)%Z -> (0 <= k1 < n' - 1)%Z -> (0 <= k2 < n' - 1)%Z ->
  stores (d0 - 1) d1 h0 data0 -> stores d0 (d1 - 1) h1 data1 -> Z.of_nat (length out) = (n - 1)%Z -> Z.of_nat (length out') = (n' - 1)%Z ->
  parallelogram_cells d0 d1 nx ny ->
  let A := displaced (fun i => cosv i n) dxs dys k in let B := displaced (fun i => cosv i n) dxs dys (k + 1) in
  let M := on_seg A B m in 0 < m < 1 ->
  displaced (fun i => cosv' i n') dxs' dys' k1 = A -> displaced (fun i => cosv' i n') dxs' dys' (k1 + 1) = M ->
  displaced (fun i => cosv' i n') dxs' dys' k2 = M -> displaced (fun i => cosv' i n') dxs' dys' (k2 + 1) = B ->
  cells_no_near_miss (100 * / 2 ^ 52) d0 d1 nx ny A B -> cells_no_near_miss (100 * / 2 ^ 52) d0 d1 nx ny A M ->
  cells_no_near_miss (100 * / 2 ^ 52) d0 d1 nx ny M B ->
  nth (Z.to_nat k) out 0 = 0 -> nth (Z.to_nat k1) out' 0 = 0 -> nth (Z.to_nat k2) out' 0 = 0 ->
  exists r r', flow_run srt g cosv d0 d1 xs ys n dxs dys 1 data0 data1 out = Ret r /\
    flow_run srt g cosv' d0 d1 xs ys n' dxs' dys' 1 data0 data1 out' = Ret r' /\
    nth (Z.to_nat k) r 0 = nth (Z.to_nat k1) r' 0 + nth (Z.to_nat k2) r' 0.
Proof.
  intros g srt cosv cosv' d0 d1 nx ny n n' xs ys dxs dys dxs' dys' k k1 k2 m h0 h1 data0 data1 out out' G ST H0 H1 HI Hn Hn' SX SY LX LY LX' LY' Hk Hk1 Hk2 D0 D1 LO LO' PA A B M Hm EA EM EM' EB NM NM1 NM2 Z0 Z1 Z2.
  destruct (C84_integral g srt cosv d0 d1 nx ny n xs ys dxs dys k h0 h1 data0 data1 out) as (r & I & ER & LR & FI & VR); auto.
  destruct (C84_integral g srt cosv' d0 d1 nx ny n' xs ys dxs' dys' k1 h0 h1 data0 data1 out') as (r1 & I1 & ER1 & LR1 & FI1 & VR1); auto.
  { rewrite EA, EM. auto. }
  destruct (C84_integral g srt cosv' d0 d1 nx ny n' xs ys dxs' dys' k2 h0 h1 data0 data1 out') as (r2 & I2 & ER2 & LR2 & FI2 & VR2); auto.
  { rewrite EM', EB. auto. }
  exists r, r1. split; auto. split; auto. assert (r1 = r2) by congruence. subst r2.
  rewrite VR, VR1, VR2. unfold cell_sum.
  assert (IC : forall c, In c (range ((d0 - 1) * (d1 - 1))) -> I (c / (d1 - 1))%Z (c mod (d1 - 1))%Z = I1 (c / (d1 - 1))%Z (c mod (d1 - 1))%Z + I2 (c / (d1 - 1))%Z (c mod (d1 - 1))%Z).
  { intros c Hc. apply in_range in Hc. destruct (cell_range (d0 - 1) (d1 - 1) c ltac:(lia) Hc) as (C1 & C2 & C3). assert (HC := conj C1 C2 : is_cell2 d0 d1 _ _).
    assert (X := FI _ _ HC). assert (X1 := FI1 _ _ HC). assert (X2 := FI2 _ _ HC). rewrite EA, EM in X1. rewrite EM', EB in X2.
    apply (cell_flux_split nx ny h0 h1 (c / (d1 - 1)) (c mod (d1 - 1)) A B m); auto. apply (PA _ _ HC). }
  revert IC. generalize (range ((d0 - 1) * (d1 - 1))). induction l as [|c l IH]; intros IC; cbn [map fold_right]; [lra|].
  rewrite IH by (intros; apply IC; right; auto). rewrite (IC c (or_introl eq_refl)). lra.
Qed.
Print Assumptions C85_split.

(** ** Non-trivial cases: the two squares of C33_case, edge values 1 on the upper and 0 on the lower edges (shear
    flow, which has no stream function), the segment from (1/2, 1/4) to (3/2, 3/4), not displaced. *)
Definition sh0 (i j : Z) : R := IZR j.
Definition sh1 (i j : Z) : R := 0.
Definition sh_run (n : Z) (dxs dys out : list R) : exec (list R) :=
  flow_run insertion gels2 (fun _ _ => 0) 3 2 (array2 3 2 ex_x) (array2 3 2 (ex_y 0)) n dxs dys 1 (array2 2 2 sh0) (array2 3 1 sh1) out.

Lemma sh_par : parallelogram_cells 3 2 ex_x (ex_y 0).
Proof. intros i j HC. destruct (ex_cells i j HC) as [Hi ->]. unfold ex_x, ex_y, cr. cbn [Z.add fst snd]. rewrite !plus_IZR. lra. Qed.

Lemma sh_convex : convex_cells 3 2 ex_x (ex_y 0).
Proof.
  intros i j HC. destruct (ex_cells i j HC) as [Hi ->]. left. unfold ex_x, ex_y, cr. cbn [Z.add fst snd]. rewrite !plus_IZR.
  destruct Hi as [-> | ->]; lra.
Qed.

Lemma sh_clear : cells_no_near_miss (100 * / 2 ^ 52) 3 2 ex_x (ex_y 0) (1 / 2, 1 / 4) (3 / 2, 3 / 4).
Proof.
  destruct (ex_regular 0 (or_introl eq_refl) 0%Z ltac:(lia)) as (_ & _ & NM). cbv zeta in NM. revert NM. unfold displaced.
  change (Z.to_nat (0 + 1)) with 1%nat. change (Z.to_nat 0) with 0%nat. cbn [nth]. rewrite !Rmult_0_r, !Rplus_0_r. auto.
Qed.

Lemma sh_points2 : forall xs ys k, displaced (fun _ => 0) xs ys k = (nth (Z.to_nat k) xs 0, nth (Z.to_nat k) ys 0).
Proof. intros xs ys k. unfold displaced. f_equal; ring. Qed.

(** The integral of y dx from (1/2, 1/4) to (3/2, 3/4): 1/2. *)
Example C84_case : exists r, sh_run 2 [1 / 2; 3 / 2] [1 / 4; 3 / 4] [7] = Ret r /\ nth 0 r 0 = 1 / 2.
Proof.
  assert (ES : forall t, on_seg (1 / 2, 1 / 4) (3 / 2, 3 / 4) t = (1 / 2 + t, 1 / 4 + t / 2)).
  { intros t. unfold on_seg. cbn [fst snd]. f_equal; field. }
  assert (HC0 : is_cell2 3 2 0 0) by (unfold is_cell2; lia). assert (HC1 : is_cell2 3 2 1 0) by (unfold is_cell2; lia).
  destruct (C84_integral gels2 insertion (fun _ _ => 0) 3 2 ex_x (ex_y 0) 2 (array2 3 2 ex_x) (array2 3 2 (ex_y 0))
    [1 / 2; 3 / 2] [1 / 4; 3 / 4] 0 sh0 sh1 (array2 2 2 sh0) (array2 3 1 sh1) [7]) as (r & I & E & L & FI & V);
    try (apply array2_stores; lia); try reflexivity; try lia; try (unfold int_max; lia);
    rewrite ?sh_points2 in *; change (Z.to_nat (0 + 1)) with 1%nat in *; change (Z.to_nat 0) with 0%nat in *; cbn [nth] in *.
  - exact gels2_spec22.
  - apply insertion_sorts.
  - exact sh_par.
  - exact sh_clear.
  - right. exists 0%Z, 0%Z, 0, (1 / 4). split; auto. rewrite !ES, !ex_hull by (auto; lra). cbn [fst snd]. lra.
  - exists r. split; [exact E|]. rewrite V. unfold cell_sum. change (range ((3 - 1) * (2 - 1))) with [0; 1]%Z. cbn [map fold_right].
    change (0 / (2 - 1))%Z with 0%Z. change (1 / (2 - 1))%Z with 1%Z. change (0 mod (2 - 1))%Z with 0%Z. change (1 mod (2 - 1))%Z with 0%Z.
    assert (I0 := FI _ _ HC0). assert (I1 := FI _ _ HC1).
    assert (J0 := straight_flux ex_x (ex_y 0) sh0 sh1 0 0 (1 / 2, 1 / 4) (3 / 2, 3 / 4) 0 (1 / 2) (sh_par _ _ HC0) ltac:(lra) ltac:(lra)).
    assert (J1 := straight_flux ex_x (ex_y 0) sh0 sh1 1 0 (1 / 2, 1 / 4) (3 / 2, 3 / 4) (1 / 2) 1 (sh_par _ _ HC1) ltac:(lra) ltac:(lra)).
    rewrite (cell_flux_unique _ _ _ _ _ _ _ _ _ _ (sh_par _ _ HC0) I0 (J0 ltac:(intros t Ht; rewrite ES, ex_hull by (auto; lra); cbn [fst snd]; lra))).
    rewrite (cell_flux_unique _ _ _ _ _ _ _ _ _ _ (sh_par _ _ HC1) I1 (J1 ltac:(intros t Ht; rewrite ES, ex_hull by (auto; lra); cbn [fst snd]; lra))).
    rewrite !ES. unfold straight, par_x, par_y, cell_quad, cr, sh0, sh1, ex_x, ex_y. cbn [q0 q1 q3 fst snd]. rewrite !plus_IZR. field.
Qed.

(** There and back. *)
Example C85_reversed_case : exists r, sh_run 3 [1 / 2; 3 / 2; 1 / 2] [1 / 4; 3 / 4; 1 / 4] [0; 0] = Ret r /\ nth 1 r 0 = - nth 0 r 0.
Proof.
  destruct (C85_reversed gels2 insertion (fun _ _ => 0) (fun _ _ => 0) 3 2 ex_x (ex_y 0) 3 3 (array2 3 2 ex_x) (array2 3 2 (ex_y 0))
    [1 / 2; 3 / 2; 1 / 2] [1 / 4; 3 / 4; 1 / 4] [1 / 2; 3 / 2; 1 / 2] [1 / 4; 3 / 4; 1 / 4] 0 1 sh0 sh1 (array2 2 2 sh0) (array2 3 1 sh1) [0; 0] [0; 0]) as (r & r' & E & E' & V);
    try (apply array2_stores; lia); try reflexivity; try lia; try (unfold int_max; lia);
    rewrite ?sh_points2 in *; change (Z.to_nat (1 + 1)) with 2%nat in *; change (Z.to_nat (0 + 1)) with 1%nat in *; change (Z.to_nat 0) with 0%nat in *; change (Z.to_nat 1) with 1%nat in *; cbn [nth] in *.
  - exact gels2_spec22.
  - apply insertion_sorts.
  - exact sh_convex.
  - exact sh_clear.
  - exists r. split; [exact E|]. assert (r' = r) by congruence. subst r'. destruct V as [V|[V V']]; [exact V|]. rewrite V, V'. ring.
Qed.

(** The first segment of this line has the flux it has alone. *)
Example C86_case : exists r r', sh_run 2 [1 / 2; 3 / 2] [1 / 4; 3 / 4] [0] = Ret r /\
  sh_run 3 [1 / 2; 3 / 2; 1 / 2] [1 / 4; 3 / 4; 1 / 4] [0; 0] = Ret r' /\ nth 0 r 0 = nth 0 r' 0.
Proof.
  destruct (C86_convex_partial gels2 insertion (fun _ _ => 0) (fun _ _ => 0) 3 2 ex_x (ex_y 0) 2 3 (array2 3 2 ex_x) (array2 3 2 (ex_y 0))
    [1 / 2; 3 / 2] [1 / 4; 3 / 4] [1 / 2; 3 / 2; 1 / 2] [1 / 4; 3 / 4; 1 / 4] 0 0 sh0 sh1 (array2 2 2 sh0) (array2 3 1 sh1) [0] [0; 0]) as (r & r' & E & E' & V);
    try (apply array2_stores; lia); try reflexivity; try lia; try (unfold int_max; lia);
    rewrite ?sh_points2 in *; change (Z.to_nat (0 + 1)) with 1%nat in *; change (Z.to_nat 0) with 0%nat in *; cbn [nth] in *.
  - exact gels2_spec22.
  - apply insertion_sorts.
  - exact sh_convex.
  - exact sh_clear.
  - exists r, r'. split; [exact E|]. split; [exact E'|]. destruct V as [V|[V V']]; [exact V|]. rewrite V, V'. reflexivity.
Qed.

Lemma sh_clear_part : forall A B, (A = (1 / 2, 1 / 4) /\ B = (3 / 4, 3 / 8)) \/ (A = (3 / 4, 3 / 8) /\ B = (3 / 2, 3 / 4)) ->
  cells_no_near_miss (100 * / 2 ^ 52) 3 2 ex_x (ex_y 0) A B.
Proof.
  intros A B H i j HC. destruct (ex_cells i j HC) as [Hi ->].
  assert (T : 0 < 100 * / 2 ^ 52 < / 100).
  { assert (X : / 2 ^ 52 < / 10000) by (apply Rinv_lt_contravar; [lra|]; lra).
    assert (Y : 0 < / 2 ^ 52) by (apply Rinv_0_lt_compat; lra). lra. }
  revert T. generalize (100 * / 2 ^ 52). intros tol T.
  unfold ex_x, ex_y. cbn [Z.add]. rewrite !plus_IZR. split.
  - intros p Hp (w & L & W & S1 & SX & SY). destruct w as [|w0 [|w1 [|w2 [|w3 [|]]]]]; try discriminate L.
    assert (G := ex_hull 0 i 0 p ltac:(lra) HC). unfold corners, ex_x, ex_y in G. cbn [Z.add] in G. rewrite !plus_IZR in G. apply G. clear G.
    cbn [map wsum fst snd] in *. repeat (apply Forall_cons_iff in W; let H := fresh "W" in destruct W as [H W]).
    destruct H as [[-> ->]|[-> ->]]; destruct Hp as [-> | ->]; cbn [fst snd] in *; destruct Hi as [-> | ->]; lra.
  - intros e He s t EQ _ Hs Ht.
    destruct H as [[-> ->]|[-> ->]]; destruct He as [<-|[<-|[<-|[<-|[]]]]]; unfold on_seg in EQ; cbn [fst snd] in EQ; injection EQ as EX EY;
    destruct Hi as [-> | ->]; lra.
Qed.

(** Cut at (3/4, 3/8). *)
Example C85_split_case : exists r r', sh_run 2 [1 / 2; 3 / 2] [1 / 4; 3 / 4] [0] = Ret r /\
  sh_run 3 [1 / 2; 3 / 4; 3 / 2] [1 / 4; 3 / 8; 3 / 4] [0; 0] = Ret r' /\ nth 0 r 0 = nth 0 r' 0 + nth 1 r' 0.
Proof.
  assert (EM : on_seg (1 / 2, 1 / 4) (3 / 2, 3 / 4) (1 / 4) = (3 / 4, 3 / 8)) by (unfold on_seg; cbn [fst snd]; f_equal; field).
  destruct (C85_split gels2 insertion (fun _ _ => 0) (fun _ _ => 0) 3 2 ex_x (ex_y 0) 2 3 (array2 3 2 ex_x) (array2 3 2 (ex_y 0))
    [1 / 2; 3 / 2] [1 / 4; 3 / 4] [1 / 2; 3 / 4; 3 / 2] [1 / 4; 3 / 8; 3 / 4] 0 0 1 (1 / 4) sh0 sh1 (array2 2 2 sh0) (array2 3 1 sh1) [0] [0; 0]) as (r & r' & E & E' & V);
    try (apply array2_stores; lia); try reflexivity; try lia; try (unfold int_max; lia);
    rewrite ?sh_points2 in *; change (Z.to_nat (1 + 1)) with 2%nat in *; change (Z.to_nat (0 + 1)) with 1%nat in *; change (Z.to_nat 0) with 0%nat in *; change (Z.to_nat 1) with 1%nat in *; cbn [nth] in *;
    rewrite ?EM; try reflexivity.
  - exact gels2_spec22.
  - apply insertion_sorts.
  - exact sh_par.
  - lra.
  - exact sh_clear.
  - apply sh_clear_part. auto.
  - apply sh_clear_part. auto.
  - exists r, r'. auto.
Qed.
