(** Flow interpolation in exact arithmetic: the weights of a segment as a function of the cells and
    the end points of the segment. *)
From Coq Require Import ZArith List Bool Reals Lra Lia Permutation FinFun.
From Verif Require Import Base Num NumR M_BoxIterator M_LinearSolve M_FindPoint M_Triangulate M_Quad M_QuadLine M_FlowInterp
  S_LinAlg S_Geometry S_Quad S_Grid S_Flow S_Sort S_Array L_Box2 L_Hull L_Quad L_QuadLine L_Flow L_FlowFind L_FlowInterp L_FlowGen L_FlowPar L_FlowTotal.
Import ListNotations.
Open Scope R_scope.

Section Path.
Variable g : gels R.

(** Indices the search finds for a point of a quad. *)
Definition ix (q : quad R) (p : pt R) : R := nth 0 (snd (found g q p)) 0.
Definition iy (q : quad R) (p : pt R) : R := nth 1 (snd (found g q p)) 0.
Definition proj (q : quad R) (a b : pt R) : list R :=
  let '(p0, p1, p2, p3) := projections (ix q a) (iy q a) (ix q b) (iy q b) in [p0; p1; p2; p3].
Fixpoint path (q : quad R) (pts : list (pt R)) (w : list R) : list R :=
  match pts with
  | a :: ((b :: _) as rest) => path q rest (map (fun vw => nadd (fst vw) (snd vw)) (combine w (proj q a b)))
  | _ => w
  end.

Lemma find_found : forall q f p, finder_ready q f -> in_extent q p ->
  exists code f', qf_find g f p = Ret (code, [ix q p; iy q p], f') /\ finder_ready q f'.
Proof.
  intros q f p FR HE.
  destruct (find_any g q (fresh q) p (fresh_ready q)) as (c & x & y & f1 & E1 & _).
  destruct (find_same g q (fresh q) f p (fresh_ready q) FR HE) as (code & xs & f1' & f2' & A & B & _ & D).
  rewrite E1 in A. injection A as <- <- <-. unfold ix, iy, found. rewrite E1. cbn [snd nth]. eauto.
Qed.

Lemma segments_path : forall q (pts : list (pt R)) (o : qf R) w, finder_ready q (qf_finder o) -> (forall p : pt R, In p pts -> in_extent q p) ->
  exists o', fl_segments g o pts w = Ret (path q pts w, o') /\ finder_ready q (qf_finder o').
Proof.
  intros q. induction pts as [|a pts IH]; intros o w FR HE; [exists o; split; [reflexivity|auto]|].
  destruct pts as [|b pts]; [exists o; split; [reflexivity|auto]|].
  rewrite segments_cons. unfold qf_computeProjections, qf_indices, qf_setLinePoints. cbn [qf_line qf_finder fst snd].
  destruct (find_found q (qf_finder o) a FR) as (ca & f1 & E1 & FR1); [apply HE; left; reflexivity|]. rewrite E1. cbn [bind].
  destruct (find_found q f1 b FR1) as (cb & f2 & E2 & FR2); [apply HE; right; left; reflexivity|]. rewrite E2. cbn [bind qf_xia qf_xib].
  cbn [path]. unfold proj.
  set (xa := ix q a). set (ya := iy q a). set (xb := ix q b). set (yb := iy q b).
  change (vget [xa; ya] 0) with (Ret xa). change (vget [xa; ya] 1) with (Ret ya).
  change (vget [xb; yb] 0) with (Ret xb). change (vget [xb; yb] 1) with (Ret yb). cbn [bind fst snd].
  unfold qf_getProjection. cbn [qf_proj]. destruct (projections xa ya xb yb) as [[[p0 p1] p2] p3].
  change (vget [p0; p1; p2; p3] 0) with (Ret p0). change (vget [p0; p1; p2; p3] 1) with (Ret p1).
  change (vget [p0; p1; p2; p3] 2) with (Ret p2). change (vget [p0; p1; p2; p3] 3) with (Ret p3). cbn [bind].
  apply IH; [exact FR2|]. intros p Hp. apply HE. right. exact Hp.
Qed.

(** What a cell adds to the weights of a segment. *)
Variable srt : (R -> R -> bool) -> list R -> list R.
Definition cell_points (q : quad R) (l : pt R * pt R) : list (pt R) :=
  map (fun t => M_Quad.along (fst l) (snd l) t) (srt nlt (line_lambdas g q l)).
Definition cell_entry (q : quad R) (l : pt R * pt R) (c : Z) : list (Z * list R) :=
  if quad_line_overlap q l then
    if (2 <=? length (cell_points q l))%nat then [(c, path q (cell_points q l) [n0; n0; n0; n0])] else []
  else [].

Lemma cell_det : forall s dst x src q l, fl_srcQuad s src = Ret q -> winv l x -> (forall p, In p (cell_points q l) -> in_extent q p) ->
  exists x', fl_cell srt g s dst x src = Ret x' /\ winv l x' /\ row (flw_m x') dst = row (flw_m x) dst ++ cell_entry q l src /\
    forall k, k <> dst -> row (flw_m x') k = row (flw_m x) k.
Proof.
  intros s dst x src q l EQ (I1 & I2 & I3) HE. unfold fl_cell. rewrite EQ. cbn [bind].
  unfold ql_checkIfOverlap, ql_setQuadPoints, ql_reset. cbn [ql_quad ql_line ql_lambdas]. rewrite I1. cbn [bind].
  unfold cell_entry. destruct (quad_line_overlap q l) eqn:OV; cbn [negb].
  2:{ eexists. split; [reflexivity|]. split; [unfold winv; cbn; auto|]. cbn [flw_m]. rewrite app_nil_r. auto. }
  unfold ql_collect. cbn [ql_quad ql_line ql_lambdas app bind]. fold (cell_points q l).
  destruct (2 <=? length (cell_points q l))%nat eqn:L2.
  2:{ eexists. split; [reflexivity|]. split; [unfold winv; cbn; auto|]. cbn [flw_m]. rewrite app_nil_r. auto. }
  destruct (finder_set (qf_finder (flw_qf x)) q I2) as (f' & EF & FR). unfold qf_setQuadPoints. rewrite EF. cbn [bind].
  destruct (segments_path q (cell_points q l)
    (mkQf (qf_line (flw_qf x)) (qf_proj (flw_qf x)) f' (qf_xia (flw_qf x)) (qf_xib (flw_qf x))) [n0; n0; n0; n0] FR HE) as (o' & ES & FR').
  rewrite ES. cbn [bind fst snd]. eexists. split; [reflexivity|]. cbn [flw_m].
  split; [unfold winv; cbn; split; auto; split; [apply FR'|apply push_sorted; auto]|].
  split; [apply row_push_same; auto|intros; apply row_push_other; auto].
Qed.

Definition cell_entries (cq : Z -> quad R) (l : pt R * pt R) (cs : list Z) : list (Z * list R) :=
  flat_map (fun c => cell_entry (cq c) l c) cs.

Lemma cells_det : forall s dst cq l cs x, (forall c, In c cs -> fl_srcQuad s c = Ret (cq c)) ->
  (forall c p, In c cs -> In p (cell_points (cq c) l) -> in_extent (cq c) p) -> winv l x ->
  exists x', foldM (fl_cell srt g s dst) cs x = Ret x' /\ winv l x' /\ row (flw_m x') dst = row (flw_m x) dst ++ cell_entries cq l cs /\
    forall k, k <> dst -> row (flw_m x') k = row (flw_m x) k.
Proof.
  intros s dst cq l. induction cs as [|c cs IH]; intros x HC HE WI.
  - exists x. split; [reflexivity|]. split; auto. split; [cbn; rewrite app_nil_r; reflexivity|auto].
  - cbn [foldM]. destruct (cell_det s dst x c (cq c) l (HC c (or_introl eq_refl)) WI (fun p => HE c p (or_introl eq_refl))) as (x1 & E1 & W1 & R1 & O1).
    rewrite E1. cbn [bind]. destruct (IH x1 (fun c' H => HC c' (or_intror H)) (fun c' p H => HE c' p (or_intror H)) W1) as (x' & E' & W' & R' & O').
    exists x'. split; auto. split; auto. split.
    + rewrite R', R1, <- app_assoc. reflexivity.
    + intros k Hk. rewrite O', O1; auto.
Qed.

(** The row of segment k0 when its points are in the extents of the cells, whatever the other segments are. *)
Lemma segments_det : forall s ns cq (line : Z -> pt R * pt R) k0 ds x x', NoDup ds -> In k0 ds ->
  (forall k, In k ds -> fl_dstLine s k = Ret (line k)) -> (forall c, (0 <= c < ns)%Z -> fl_srcQuad s c = Ret (cq c)) ->
  (forall c p, (0 <= c < ns)%Z -> In p (cell_points (cq c) (line k0)) -> in_extent (cq c) p) -> winv0 x ->
  foldM (fl_segment srt g s ns) ds x = Ret x' ->
  row (flw_m x') k0 = row (flw_m x) k0 ++ cell_entries cq (line k0) (range ns).
Proof.
  intros s ns cq line k0.
  assert (STEP : forall d x x1, fl_dstLine s d = Ret (line d) -> (forall c, (0 <= c < ns)%Z -> fl_srcQuad s c = Ret (cq c)) -> winv0 x ->
    fl_segment srt g s ns x d = Ret x1 -> winv0 x1 /\ forall k, k <> d -> row (flw_m x1) k = row (flw_m x) k).
  { intros d x x1 HL HC [W1 W2] H. unfold fl_segment in H. rewrite HL in H. cbn [bind] in H.
    set (x0 := mkFlw _ _ _) in H.
    assert (I0 : winv (line d) x0) by (unfold winv, x0; cbn; auto).
    assert (GEN : forall cs y y', (forall c, In c cs -> (0 <= c < ns)%Z) -> winv (line d) y -> foldM (fl_cell srt g s d) cs y = Ret y' ->
      winv (line d) y' /\ forall k, k <> d -> row (flw_m y') k = row (flw_m y) k).
    { induction cs as [|c cs IH]; intros y y' HR WI HF; cbn [foldM] in HF; [injection HF as <-; auto|].
      apply bind_ret_inv in HF. destruct HF as (y1 & HF1 & HF).
      assert (Q := HC c (HR c (or_introl eq_refl))). destruct WI as (J1 & J2 & J3).
      assert (A : winv (line d) y1 /\ forall k, k <> d -> row (flw_m y1) k = row (flw_m y) k).
      { unfold fl_cell in HF1. rewrite Q in HF1. cbn [bind] in HF1.
        unfold ql_checkIfOverlap, ql_setQuadPoints, ql_reset in HF1. cbn [ql_quad ql_line ql_lambdas] in HF1. rewrite J1 in HF1. cbn [bind] in HF1.
        destruct (quad_line_overlap (cq c) (line d)); cbn [negb] in HF1.
        2:{ injection HF1 as <-. split; [unfold winv; cbn; auto|auto]. }
        unfold ql_collect in HF1. cbn [ql_quad ql_line ql_lambdas app bind] in HF1. fold (cell_points (cq c) (line d)) in HF1.
        destruct (2 <=? length (cell_points (cq c) (line d)))%nat.
        2:{ injection HF1 as <-. split; [unfold winv; cbn; auto|auto]. }
        destruct (finder_set (qf_finder (flw_qf y)) (cq c) J2) as (f' & EF & FR). unfold qf_setQuadPoints in HF1. rewrite EF in HF1. cbn [bind] in HF1.
        destruct (segments_total g (cq c) (cell_points (cq c) (line d))
          (mkQf (qf_line (flw_qf y)) (qf_proj (flw_qf y)) f' (qf_xia (flw_qf y)) (qf_xib (flw_qf y))) [n0; n0; n0; n0] FR) as (w' & o' & ES & FR').
        rewrite ES in HF1. cbn [bind fst snd] in HF1. injection HF1 as <-. cbn [flw_m].
        split; [unfold winv; cbn; split; auto; split; [apply FR'|apply push_sorted; auto]|intros; apply row_push_other; auto]. }
      destruct A as [A1 A2]. destruct (IH y1 y' (fun c' H => HR c' (or_intror H)) A1 HF) as [B1 B2]. split; auto.
      intros k Hk. rewrite B2, A2; auto. }
    destruct (GEN (range ns) x0 x1) as [(B0 & B1 & B2) B3]; auto; [intros c Hc; apply in_range in Hc; auto|]. split; [split; auto|]. exact B3. }
  induction ds as [|d ds IH]; intros x x' ND IN HL HC HE WI H; [destruct IN|]. cbn [foldM] in H.
  apply bind_ret_inv in H. destruct H as (x1 & H1 & H). inversion ND as [|? ? NI ND']; subst.
  destruct (STEP d x x1 (HL d (or_introl eq_refl)) HC WI H1) as [W1 O1].
  destruct (Z.eq_dec d k0) as [->|NE].
  - assert (REST : forall ds y y', ~ In k0 ds -> (forall k, In k ds -> fl_dstLine s k = Ret (line k)) -> winv0 y ->
      foldM (fl_segment srt g s ns) ds y = Ret y' -> row (flw_m y') k0 = row (flw_m y) k0).
    { induction ds0 as [|e ds0 IH0]; intros y y' N0 HL0 WY HF; cbn [foldM] in HF; [injection HF as <-; auto|].
      apply bind_ret_inv in HF. destruct HF as (y1 & HF1 & HF).
      destruct (STEP e y y1 (HL0 e (or_introl eq_refl)) HC WY HF1) as [WY1 OY1].
      rewrite (IH0 y1 y'); auto; [apply OY1; intros ->; apply N0; left; reflexivity|intros X; apply N0; right; auto|intros k Hk; apply HL0; right; auto]. }
    rewrite (REST ds x1 x' NI (fun k Hk => HL k (or_intror Hk)) W1 H). unfold fl_segment in H1. rewrite (HL k0 (or_introl eq_refl)) in H1. cbn [bind] in H1.
    destruct (cells_det s k0 cq (line k0) (range ns) (mkFlw (ql_setLinePoints (flw_ql x) (line k0)) (flw_qf x) (flw_m x))) as (x2 & E2 & _ & R2 & _).
    + intros c Hc. apply in_range in Hc. auto.
    + intros c p Hc. apply in_range in Hc. auto.
    + destruct WI. unfold winv. cbn. auto.
    + rewrite E2 in H1. injection H1 as <-. exact R2.
  - destruct IN as [X|IN]; [congruence|]. rewrite (IH x1 x' ND' IN (fun k Hk => HL k (or_intror Hk)) HC HE W1 H), O1; auto.
Qed.

Lemma computeWeights_det : forall s s' nd ns (line : Z -> pt R * pt R) cq k0, fl_dstNumCells s = Some nd -> fl_srcNumCells s = Some ns ->
  (forall k, (0 <= k < nd)%Z -> fl_dstLine s k = Ret (line k)) -> (forall c, (0 <= c < ns)%Z -> fl_srcQuad s c = Ret (cq c)) ->
  (forall c p, (0 <= c < ns)%Z -> In p (cell_points (cq c) (line k0)) -> in_extent (cq c) p) -> (0 <= k0 < nd)%Z ->
  sorted_map (fl_weights s) -> fl_computeWeights srt g s = Ret s' ->
  row (fl_weights s') k0 = row (fl_weights s) k0 ++ cell_entries cq (line k0) (range ns).
Proof.
  intros s s' nd ns line cq k0 Ed Es HL HC HE Hk SM H. unfold fl_computeWeights in H. rewrite Ed, Es in H.
  apply bind_ret_inv in H. destruct H as (x & Hx & H). injection H as <-. cbn [fl_weights].
  apply (segments_det s ns cq line k0 (range nd) (mkFlw ql_new qf_new (fl_weights s)) x); auto.
  - unfold range, zseq. apply FinFun.Injective_map_NoDup; [intros a b; apply Nat2Z.inj|apply seq_NoDup].
  - apply in_range. auto.
  - intros k Hk'. apply in_range in Hk'. auto.
  - split; [apply finder_new|exact SM].
Qed.

End Path.
