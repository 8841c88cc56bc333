(** Conservative interpolation, any arithmetic, with crossings that may depend on the direction in which edges
    are followed: every cached crossing was computed for the same two edges, in some direction. *)
From Coq Require Import ZArith List Bool Lia.
From Verif Require Import Base Num M_LinearSolve M_Triangulate M_Quad M_QuadIntersect M_FlowInterp M_ConserveInterp
  S_Array S_ConserveTable S_ConserveRel L_FlowInterp L_Conserve L_ConserveTable.
Import ListNotations.
Open Scope Z_scope.

Lemma pieces_map : forall {A B C} (f : C -> A) (R : A -> list B -> Prop) l y,
  pieces (fun c => R (f c)) l y -> pieces R (map f l) y.
Proof. intros A B C f R l y H. induction H; cbn [map]; constructor; auto. Qed.

Lemma pieces_weak : forall {A B} (R S : A -> list B -> Prop) l y, (forall a x, In a l -> R a x -> S a x) -> pieces R l y -> pieces S l y.
Proof. intros A B R S l y I H. revert I. induction H; intros I; constructor; [apply I; simpl; auto|]. apply IHpieces. intros; apply I; simpl; auto. Qed.

Lemma pieces4 : forall {A B} (R : A -> list B -> Prop) a b c d y, pieces R [a; b; c; d] y ->
  exists y0 y1 y2 y3, R a y0 /\ R b y1 /\ R c y2 /\ R d y3 /\ y = y0 ++ y1 ++ y2 ++ y3.
Proof.
  intros A B R a b c d y H. inversion H as [|? ? y0 r0 H0 K0]; subst. inversion K0 as [|? ? y1 r1 H1 K1]; subst.
  inversion K1 as [|? ? y2 r2 H2 K2]; subst. inversion K2 as [|? ? y3 r3 H3 K3]; subst. inversion K3; subst.
  exists y0, y1, y2, y3. rewrite app_nil_r. auto.
Qed.

Section Any.
Context {T : Type} {N : Num T}.
Variable srt : (nat -> nat -> bool) -> list nat -> list nat.
Variable g : gels T.

Notation either_way := (either_way g).
Notation collected := (collected g).
Notation entry_rel := (entry_rel srt g).

Section Cells.
Variables P Q : Z -> pt T.
Variables dcell scell : Z -> cell T.
Variables nd ns : Z.
Hypothesis DE : forall c, 0 <= c < nd -> c_edges (dcell c) = map (fun e => (e, (P (fst e), P (snd e)))) (edge_inds (c_inds (dcell c))).
Hypothesis SE : forall c, 0 <= c < ns -> c_edges (scell c) = map (fun e => (e, (Q (fst e), Q (snd e)))) (edge_inds (c_inds (scell c))).
Hypothesis DQ : forall c, 0 <= c < nd -> map snd (c_edges (dcell c)) = qedges (c_quad (dcell c)).
Hypothesis SQ : forall c, 0 <= c < ns -> map snd (c_edges (scell c)) = qedges (c_quad (scell c)).
Notation ok := (cache_ok g P Q dcell scell nd ns).

Lemma recorded_ways : forall a b c d r, recorded g P Q dcell scell nd ns (sort2 a b, sort2 c d) r -> either_way (P a) (P b) (Q c) (Q d) r.
Proof.
  intros a b c d r (a' & b' & c' & d' & E & _ & _ & ->). injection E as E1 E2. apply sort2_same in E1. apply sort2_same in E2.
  unfold either_way. destruct E1 as [[-> ->]|[-> ->]], E2 as [[-> ->]|[-> ->]]; auto.
Qed.

Lemma edgePair_rel : forall a b c d st, dst_edge dcell nd a b -> src_edge scell ns c d -> ok (fst st) ->
  let r := ci_edgePair g ((a, b), (P a, P b)) st ((c, d), (Q c, Q d)) in
  ok (fst r) /\ exists x, either_way (P a) (P b) (Q c) (Q d) x /\ snd r = snd st ++ x.
Proof.
  intros a b c d [k pts] D S OK r. unfold ci_edgePair in r. cbn [fst snd] in *.
  destruct (lookup eqb4 (ck_nox k) (sort2 a b, sort2 c d)) as [[]|] eqn:L1.
  - apply lookup_in in L1; [|exact eqb4_eq]. subst r. cbn. split; auto. exists []. rewrite app_nil_r. split; auto. apply recorded_ways. apply (ok_nox _ _ _ _ _ _ _ k OK); auto.
  - destruct (lookup eqb4 (ck_x k) (sort2 a b, sort2 c d)) as [p|] eqn:L2.
    + apply lookup_in in L2; [|exact eqb4_eq]. subst r. cbn. split; auto. exists [p]. split; auto. apply recorded_ways. apply (ok_x _ _ _ _ _ _ _ k OK); auto.
    + subst r. destruct (edge_edge_one g (P a) (P b) (Q c) (Q d)) as [E|[p E]]; rewrite E; cbn [fst snd].
      * split; [|exists []; rewrite app_nil_r; split; auto; left; auto]. destruct OK as [O1 O2 O3 O4]. constructor; cbn; auto.
        intros key [H|H]; auto. injection H as <-. exists a, b, c, d. auto.
      * split; [|exists [p]; split; auto; left; auto]. destruct OK as [O1 O2 O3 O4]. constructor; cbn; auto.
        intros key p' [H|H]; auto. injection H as <- <-. exists a, b, c, d. auto.
Qed.

Lemma points_rel : forall dst src k, 0 <= dst < nd -> 0 <= src < ns -> ok k ->
  let r := ci_points g dst src (dcell dst) (scell src) k in
  ok (fst r) /\ collected (c_quad (dcell dst)) (c_quad (scell src)) (snd r).
Proof.
  intros dst src k Hd Hs OK. unfold ci_points, collected. rewrite <- (DQ dst Hd), <- (SQ src Hs), (DE dst Hd), (SE src Hs).
  assert (DD : forall a b, In (a, b) (edge_inds (c_inds (dcell dst))) -> dst_edge dcell nd a b) by (intros; exists dst; auto).
  assert (SS : forall a b, In (a, b) (edge_inds (c_inds (scell src))) -> src_edge scell ns a b) by (intros; exists src; auto).
  revert DD SS. generalize (edge_inds (c_inds (dcell dst))) (edge_inds (c_inds (scell src))). intros ld ls DD SS.
  rewrite !map_map. cbn [snd].
  assert (IN : forall a b ls st, (forall c d, In (c, d) ls -> src_edge scell ns c d) -> dst_edge dcell nd a b -> ok (fst st) ->
    let r := fold_left (fun st f => ci_edgePair g ((a, b), (P a, P b)) (ci_srcNode g dst (c_quad (dcell dst)) st f) f)
               (map (fun e => (e, (Q (fst e), Q (snd e)))) ls) st in
    ok (fst r) /\ exists o, snd r = snd st ++ o /\
      pieces (fun f out => exists x, out = (if in_cell g (fst f) (c_quad (dcell dst)) then [fst f] else []) ++ x /\ either_way (P a) (P b) (fst f) (snd f) x)
        (map (fun e => (Q (fst e), Q (snd e))) ls) o).
  { intros a b. clear - g P Q dcell. induction ls as [|[c d] ls IH]; intros st SS D OK; cbn [map fold_left].
    - split; auto. exists []. rewrite app_nil_r. split; auto. constructor.
    - cbn [fst snd]. destruct (srcNode_ok g P Q dcell scell nd ns dst st c d OK) as [O1 E1]. set (st1 := ci_srcNode _ _ _ _ _) in *.
      destruct (edgePair_rel a b c d st1 D (SS c d (or_introl eq_refl)) O1) as [O2 (x & W & E2)]. set (st2 := ci_edgePair _ _ _ _) in *.
      destruct (IH st2 (fun c d H => SS c d (or_intror H)) D O2) as [O3 (o & E3 & PC)]. split; auto. cbv zeta in E3.
      exists ((if_in g (Q c) (c_quad (dcell dst)) ++ x) ++ o). split.
      + rewrite E3, E2, E1, <- !app_assoc. reflexivity.
      + constructor; auto. exists x. split; auto. }
  assert (OUT : forall ld st, (forall c d, In (c, d) ld -> dst_edge dcell nd c d) -> ok (fst st) ->
    let r := fold_left (fun st e => fold_left (fun st f => ci_edgePair g e (ci_srcNode g dst (c_quad (dcell dst)) st f) f)
               (map (fun e => (e, (Q (fst e), Q (snd e)))) ls) (ci_dstNode g src (c_quad (scell src)) st e))
               (map (fun e => (e, (P (fst e), P (snd e)))) ld) st in
    ok (fst r) /\ exists o, snd r = snd st ++ o /\
      pieces (fun e out => exists o, out = (if in_cell g (fst e) (c_quad (scell src)) then [fst e] else []) ++ o /\
        pieces (fun f out => exists x, out = (if in_cell g (fst f) (c_quad (dcell dst)) then [fst f] else []) ++ x /\ either_way (fst e) (snd e) (fst f) (snd f) x)
          (map (fun e => (Q (fst e), Q (snd e))) ls) o) (map (fun e => (P (fst e), P (snd e))) ld) o).
  { clear ld DD. induction ld as [|[a b] ld IH]; intros st DD OK'; cbn [map fold_left].
    - split; auto. exists []. rewrite app_nil_r. split; auto. constructor.
    - cbn [fst snd]. destruct (dstNode_ok g P Q dcell scell nd ns src st a b OK') as [O1 E1]. set (st1 := ci_dstNode _ _ _ _ _) in *.
      destruct (IN a b ls st1 SS (DD a b (or_introl eq_refl)) O1) as [O2 (o1 & E2 & P1)]. set (st2 := fold_left _ _ st1) in *. cbv zeta in E2.
      destruct (IH st2 (fun c d H => DD c d (or_intror H)) O2) as [O3 (o & E3 & PC)]. split; auto. cbv zeta in E3.
      exists ((if_in g (P a) (c_quad (scell src)) ++ o1) ++ o). split.
      + rewrite E3, E2, E1, <- !app_assoc. reflexivity.
      + constructor; auto. exists o1. split; auto. }
  destruct (OUT ld (k, []) DD OK) as [O (o & E & PC)]. split; auto. cbv zeta in E. rewrite E. exact PC.
Qed.

End Cells.

Section Grids.
Variable memd : Z -> nat -> pt T.
Variable mem : Z -> Z -> nat -> pt T.
Variables d0 d1 e0 e1 : Z.
Variables nx ny mx my : Z -> Z -> T.
Variables dg sg : grid T.
Hypothesis GD : grid_ok d0 d1 nx ny dg.
Hypothesis GS : grid_ok e0 e1 mx my sg.
Let dcell c := mkCell (inds_at d1 c) (cell_at d1 nx ny c).
Let scell c := mkCell (inds_at e1 c) (cell_at e1 mx my c).
Let P := node_at d1 nx ny.
Let Q := node_at e1 mx my.
Notation ok := (cache_ok g P Q dcell scell (g_numCells dg) (g_numCells sg)).
Notation row_rel d := (pieces (entry_rel (memd d) (mem d) (cell_at d1 nx ny d) (cell_at e1 mx my))).

Lemma srcSteps_rel : forall d, 0 <= d < g_numCells dg -> forall l k row, ok k -> (forall c, In c l -> 0 <= c < g_numCells sg) ->
  exists k' o, ok k' /\ row_rel d l o /\
  foldM (ci_srcStep srt mem g sg d (dcell d) (hull_of srt (memd d) (quad_nodes (cell_at d1 nx ny d)))) l (k, row) = Ret (k', row ++ o).
Proof.
  intros d Hd. induction l as [|c l IH]; intros k row OK HL; cbn [foldM].
  - exists k, []. rewrite app_nil_r. split; auto. split; auto. constructor.
  - assert (Hc := HL c (or_introl eq_refl)). unfold ci_srcStep at 1. rewrite (ci_cell_ok e0 e1 mx my) by auto. cbn [bind].
    fold (scell c). cbn [c_quad dcell scell].
    destruct (boxes_overlap (cell_at d1 nx ny d) (cell_at e1 mx my c)) eqn:BO; cbn [negb].
    + destruct (points_rel P Q dcell scell (g_numCells dg) (g_numCells sg) (dedges d0 d1 nx ny dg GD) (sedges e0 e1 mx my sg GS)
        (fun c _ => dquads d1 nx ny c) (fun c _ => squads e1 mx my c) d c k Hd Hc OK) as [O1 E1].
      destruct (ci_points g d c (dcell d) (scell c) k) as [k1 pts]. cbn [fst snd dcell scell c_quad] in O1, E1.
      destruct (3 <=? length pts)%nat eqn:L3; cbn [bind].
      * destruct (IH k1 (row ++ [(c, ndiv (hull_of srt (mem d c) pts) (hull_of srt (memd d) (quad_nodes (cell_at d1 nx ny d))))]) O1 (fun c I => HL c (or_intror I))) as (k2 & o & O2 & PC & E2).
        exists k2, ([(c, ndiv (hull_of srt (mem d c) pts) (hull_of srt (memd d) (quad_nodes (cell_at d1 nx ny d))))] ++ o). split; auto. split.
        -- constructor; auto. unfold entry_rel. rewrite BO. exists pts. rewrite L3. auto.
        -- rewrite E2, <- app_assoc. reflexivity.
      * destruct (IH k1 row O1 (fun c I => HL c (or_intror I))) as (k2 & o & O2 & PC & E2). exists k2, ([] ++ o). split; auto. split; auto.
        constructor; auto. unfold entry_rel. rewrite BO. exists pts. rewrite L3. auto.
    + cbn [bind]. destruct (IH k row OK (fun c I => HL c (or_intror I))) as (k2 & o & O2 & PC & E2). exists k2, ([] ++ o). split; auto. split; auto.
      constructor; auto. unfold entry_rel. rewrite BO. auto.
Qed.

Theorem computeWeights_rel : forall s, ci_dst s = Some dg -> ci_src s = Some sg -> ascending (-1) (ci_weights s) -> rows_full (ci_weights s) ->
  exists s', ci_computeWeights srt memd mem g s = Ret s' /\ ci_dst s' = ci_dst s /\ ci_src s' = ci_src s /\ ci_it s' = ci_it s /\
  ascending (-1) (ci_weights s') /\ rows_full (ci_weights s') /\
  forall d, (0 <= d < g_numCells dg -> exists o, row_rel d (range (g_numCells sg)) o /\ row_of (ci_weights s') d = match row_of (ci_weights s) d with [] => o | r0 => r0 end) /\
            (~ 0 <= d < g_numCells dg -> row_of (ci_weights s') d = row_of (ci_weights s) d).
Proof.
  intros s ED ES A F.
  assert (STEP : forall d k, 0 <= d < g_numCells dg -> ok k -> exists k' o, ok k' /\ row_rel d (range (g_numCells sg)) o /\
    foldM (ci_srcStep srt mem g sg d (dcell d) (hull_of srt (memd d) (quad_nodes (cell_at d1 nx ny d)))) (range (g_numCells sg)) (k, []) = Ret (k', o)).
  { intros d k Hd OK. apply (srcSteps_rel d Hd (range (g_numCells sg)) k []); auto. intros c Hc. apply in_range. auto. }
  assert (TOT : exists r, foldM (ci_dstStep srt memd mem g dg sg) (range (g_numCells dg)) (ck_empty, ci_weights s) = Ret r /\ ok (fst r)).
  { apply (foldM_total (fun r => ok (fst r))); [apply empty_ok|].
    intros [k w] d OK Hd. apply in_range in Hd. unfold ci_dstStep. rewrite (ci_cell_ok d0 d1 nx ny) by auto. cbn [bind c_quad].
    destruct (STEP d k Hd OK) as (k' & o & O' & _ & E'). unfold quad_nodes in E'. fold (dcell d). rewrite E'. cbn [bind]. eexists. split; [reflexivity|]. auto. }
  destruct TOT as ([k w] & TOT & _).
  eexists. split; [unfold ci_computeWeights; rewrite ED, ES, TOT; cbn [bind]; reflexivity|].
  cbn [ci_dst ci_src ci_it ci_weights snd]. split; [auto|]. split; [auto|]. split; [auto|].
  destruct (dstSteps srt memd mem g dg sg (fun k => ok k) (fun d r => row_rel d (range (g_numCells sg)) r) (range (g_numCells dg)) ck_empty (ci_weights s) k w) as (A1 & F1 & K); auto.
  - apply range_NoDup.
  - intros d Hd. apply in_range in Hd. lia.
  - intros d dc k0 k' row Hd HC OK HF. apply in_range in Hd. rewrite (ci_cell_ok d0 d1 nx ny) in HC by auto. injection HC as <-. cbn [c_quad] in HF.
    destruct (STEP d k0 Hd OK) as (k1 & o & O1 & PC & E1). unfold quad_nodes in E1. fold (dcell d) in HF. rewrite E1 in HF. injection HF as <- <-. auto.
  - apply empty_ok.
  - split; auto. split; auto. intros d. destruct (K d) as [K1 K2]. split; intros X.
    + apply K1. apply in_range. auto.
    + apply K2. intros Y. apply X. apply in_range. auto.
Qed.

End Grids.
End Any.
