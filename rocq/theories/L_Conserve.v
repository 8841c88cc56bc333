(** Conservative interpolation, any arithmetic: grids, caches, table of weights. *)
From Coq Require Import ZArith List Bool Lia FinFun.
From Verif Require Import Base Num M_BoxIterator M_LinearSolve M_FindPoint M_Triangulate M_Quad M_QuadIntersect M_FlowInterp M_ConserveInterp
  S_Array S_ConserveTable L_Box2 L_FlowInterp.
Import ListNotations.
Open Scope Z_scope.

Section Any.
Context {T : Type} {N : Num T}.

(** ** Grids *)
Definition grid_ok (d0 d1 : Z) (nx ny : Z -> Z -> T) (g : grid T) : Prop :=
  2 <= d0 /\ 2 <= d1 /\ d0 * d1 <= int_max /\
  stores d0 d1 (fun i j => (nx i j, ny i j)) (g_coords g) /\ g_numCells g = (d0 - 1) * (d1 - 1) /\
  g_cellDims g = (d0 - 1, d1 - 1) /\ g_cellProd g = (d1 - 1, 1) /\ g_nodeProd g = (d1, 1).

Lemma ci_grid_ok : forall d0 d1 nx ny xs ys, 2 <= d0 -> 2 <= d1 -> d0 * d1 <= int_max ->
  stores d0 d1 nx xs -> stores d0 d1 ny ys -> exists g, ci_grid d0 d1 [xs; ys] = Ret g /\ grid_ok d0 d1 nx ny g.
Proof.
  intros d0 d1 nx ny xs ys H0 H1 H SX SY. assert (B : d0 <= int_max /\ d1 <= int_max) by (unfold int_max in *; nia).
  unfold ci_grid. repeat (rewrite chk_ok by (unfold int_min, int_max in *; lia); cbn [bind]).
  rewrite (wrap64_small (d0 * d1)) by (unfold int_max in *; nia). rewrite (wrap64_small ((d0 - 1) * (d1 - 1))) by (unfold int_max in *; nia).
  change (vget [xs; ys] 0) with (Ret xs). change (vget [xs; ys] 1) with (Ret ys). cbn [bind].
  change (fun i => vget xs i) with (vget xs). change (fun i => vget ys i) with (vget ys).
  rewrite (mapM_stored xs) by apply SX. cbn [bind]. rewrite (mapM_stored ys) by apply SY. cbn [bind].
  eexists. split; [reflexivity|]. unfold grid_ok. cbn. repeat (split; [solve [auto | apply stores_combine; auto]|]). auto.
Qed.

(** Coordinates of the node k, index edges of the cell (i, j). *)
Definition node_at (d1 : Z) (nx ny : Z -> Z -> T) (k : Z) : pt T := (nx (k / d1) (k mod d1), ny (k / d1) (k mod d1)).
Definition cell_at (d1 : Z) (nx ny : Z -> Z -> T) (c : Z) : quad T := cell_quad nx ny (c / (d1 - 1)) (c mod (d1 - 1)).
Definition inds_at (d1 c : Z) : list Z :=
  let i := c / (d1 - 1) in let j := c mod (d1 - 1) in
  [d1 * i + j; d1 * (i + 1) + j; d1 * (i + 1) + (j + 1); d1 * i + (j + 1)].

Lemma cell_in_grid : forall d0 d1 c, 2 <= d0 -> 2 <= d1 -> 0 <= c < (d0 - 1) * (d1 - 1) ->
  0 <= c / (d1 - 1) < d0 - 1 /\ 0 <= c mod (d1 - 1) < d1 - 1.
Proof. intros d0 d1 c H0 H1 H. destruct (cell_range (d0 - 1) (d1 - 1) c) as (A & B & _); lia. Qed.

Lemma ci_cell_ok : forall d0 d1 nx ny g c, grid_ok d0 d1 nx ny g -> 0 <= c < g_numCells g ->
  ci_cell g c = Ret (mkCell (inds_at d1 c) (cell_at d1 nx ny c)).
Proof.
  intros d0 d1 nx ny g c (H0 & H1 & H & ST & EN & ED & EC & EP) Hc. rewrite EN in Hc.
  destruct (cell_in_grid d0 d1 c H0 H1 Hc) as [HI HJ].
  unfold ci_cell. rewrite ED, EC, EP. cbn [fst snd]. unfold udiv, umod.
  assert (X : forall z, 1 <= z <= int_max -> wrap64 z = z) by (intros; apply wrap64_small; lia).
  assert (B : d0 <= int_max /\ d1 <= int_max) by (unfold int_max in *; nia).
  rewrite !X by (unfold int_max in *; lia).
  replace (d1 - 1 =? 0) with false by (symmetry; apply Z.eqb_neq; lia). cbn [bind].
  replace (d0 - 1 =? 0) with false by (symmetry; apply Z.eqb_neq; lia). cbn [bind Z.eqb].
  rewrite Z.div_1_r. rewrite (Z.mod_small (c / (d1 - 1))) by lia.
  set (i := c / (d1 - 1)) in *. set (j := c mod (d1 - 1)) in *.
  assert (W : forall o0 o1, 0 <= o0 <= 1 -> 0 <= o1 <= 1 -> wrap64 (d1 * (i + o0) + 1 * (j + o1)) = (i + o0) * d1 + (j + o1) /\
     vget (g_coords g) ((i + o0) * d1 + (j + o1)) = Ret (nx (i + o0) (j + o1), ny (i + o0) (j + o1))).
  { intros o0 o1 Ho0 Ho1. split.
    - rewrite wrap64_small by (unfold int_max in *; nia). lia.
    - apply (stores_get d0 d1 (fun i j => (nx i j, ny i j))); auto; lia. }
  destruct (W 0 0 ltac:(lia) ltac:(lia)) as [E1 V1]. destruct (W 1 0 ltac:(lia) ltac:(lia)) as [E2 V2].
  destruct (W 1 1 ltac:(lia) ltac:(lia)) as [E3 V3]. destruct (W 0 1 ltac:(lia) ltac:(lia)) as [E4 V4].
  rewrite E1, E2, E3, E4, V1, V2, V3, V4. cbn [bind]. unfold inds_at, cell_at, cell_quad. fold i. fold j.
  rewrite !Z.add_0_r, !(Z.mul_comm d1). reflexivity.
Qed.

Definition edge_inds (l : list Z) : list key2 :=
  match l with [a; b; c; d] => [(a, b); (b, c); (c, d); (d, a)] | _ => [] end.

Lemma c_edges_ok : forall d0 d1 nx ny c, 2 <= d0 -> 2 <= d1 -> 0 <= c < (d0 - 1) * (d1 - 1) ->
  c_edges (mkCell (inds_at d1 c) (cell_at d1 nx ny c)) =
  map (fun e => (e, (node_at d1 nx ny (fst e), node_at d1 nx ny (snd e)))) (edge_inds (inds_at d1 c)).
Proof.
  intros d0 d1 nx ny c H0 H1 Hc. destruct (cell_in_grid d0 d1 c H0 H1 Hc) as [HI HJ].
  unfold c_edges, inds_at, edge_inds, cell_at, cell_quad, qedges. cbn [c_inds c_quad q0 q1 q2 q3 combine map fst snd].
  set (i := c / (d1 - 1)) in *. set (j := c mod (d1 - 1)) in *.
  assert (W : forall i j, 0 <= j < d1 -> node_at d1 nx ny (d1 * i + j) = (nx i j, ny i j)).
  { intros i' j' Hj'. unfold node_at. replace (d1 * i' + j') with (i' * d1 + j') by lia.
    destruct (cell_div d1 i' j' Hj') as [-> ->]. reflexivity. }
  rewrite !W by lia. reflexivity.
Qed.

(** ** Caches *)
Lemma eqb2_eq : forall a b, eqb2 a b = true <-> a = b.
Proof. intros [a b] [c d]. unfold eqb2. cbn. rewrite andb_true_iff, !Z.eqb_eq. split; [intros [-> ->]; auto|injection 1; auto]. Qed.
Lemma eqb4_eq : forall a b, eqb4 a b = true <-> a = b.
Proof. intros [a b] [c d]. unfold eqb4. cbn. rewrite andb_true_iff, !eqb2_eq. split; [intros [-> ->]; auto|injection 1; auto]. Qed.

Lemma lookup_in : forall {K A} (eqb : K -> K -> bool) (m : list (K * A)) k a, (forall a b, eqb a b = true <-> a = b) ->
  lookup eqb m k = Some a -> In (k, a) m.
Proof.
  intros K A eqb m k a E. induction m as [|[k' a'] m IH]; [discriminate|]. cbn [lookup]. destruct (eqb k k') eqn:X.
  - injection 1 as ->. apply E in X. subst. left. reflexivity.
  - intros H. right. auto.
Qed.

Lemma sort2_same : forall a b c d, sort2 a b = sort2 c d -> (a = c /\ b = d) \/ (a = d /\ b = c).
Proof.
  intros a b c d. unfold sort2. destruct (b <? a), (d <? c); injection 1; auto.
Qed.

Variable g : gels T.
Variables P Q : Z -> pt T.            (* coordinates of the nodes of the two grids *)
Variables dcell scell : Z -> cell T.  (* their cells *)
Variables nd ns : Z.
Hypothesis DE : forall c, 0 <= c < nd -> c_edges (dcell c) = map (fun e => (e, (P (fst e), P (snd e)))) (edge_inds (c_inds (dcell c))).
Hypothesis SE : forall c, 0 <= c < ns -> c_edges (scell c) = map (fun e => (e, (Q (fst e), Q (snd e)))) (edge_inds (c_inds (scell c))).
Hypothesis DQ : forall c, 0 <= c < nd -> map snd (c_edges (dcell c)) = qedges (c_quad (dcell c)).
Hypothesis SQ : forall c, 0 <= c < ns -> map snd (c_edges (scell c)) = qedges (c_quad (scell c)).

Definition dst_edge (a b : Z) : Prop := exists c, 0 <= c < nd /\ In (a, b) (edge_inds (c_inds (dcell c))).
Definition src_edge (a b : Z) : Prop := exists c, 0 <= c < ns /\ In (a, b) (edge_inds (c_inds (scell c))).

(** Result of the edge test recorded for a key. *)
Definition recorded (key : key4) (r : list (pt T)) : Prop :=
  exists a b c d, key = (sort2 a b, sort2 c d) /\ dst_edge a b /\ src_edge c d /\ r = edge_edge g (P a) (P b) (Q c) (Q d).

Record cache_ok (k : cache T) : Prop := {
  ok_x : forall key p, In (key, p) (ck_x k) -> recorded key [p];
  ok_nox : forall key, In (key, tt) (ck_nox k) -> recorded key [];
  ok_dst : forall n c p, In ((n, c), p) (ck_dst k) -> in_cell g (P n) (c_quad (scell c)) = true;
  ok_src : forall c n p, In ((c, n), p) (ck_src k) -> in_cell g (Q n) (c_quad (dcell c)) = true }.

Lemma empty_ok : cache_ok ck_empty.
Proof. constructor; intros; destruct H. Qed.

Definition sym_ok : Prop := forall a b c d, dst_edge a b -> src_edge c d -> direction_free g (P a) (P b) (Q c) (Q d).
Hypothesis SYM : sym_ok.

Lemma recorded_same : forall a b c d r, dst_edge a b -> src_edge c d -> recorded (sort2 a b, sort2 c d) r ->
  edge_edge g (P a) (P b) (Q c) (Q d) = r.
Proof.
  intros a b c d r D S (a' & b' & c' & d' & E & D' & S' & ->). injection E as E1 E2.
  apply sort2_same in E1. apply sort2_same in E2. destruct (SYM a' b' c' d' D' S') as (X1 & X2 & X3).
  destruct E1 as [[-> ->]|[-> ->]], E2 as [[-> ->]|[-> ->]]; auto.
Qed.

Lemma edge_edge_one : forall a b c d, edge_edge g a b c d = [] \/ exists p, edge_edge g a b c d = [p].
Proof.
  intros. unfold edge_edge. destruct (solve2 _ _ _ _ _ _ _) as [ier [xi eta]]. destruct (0 <? ier)%Z; auto.
  destruct (_ && _); eauto.
Qed.

Definition if_in (p : pt T) (q : quad T) : list (pt T) := if in_cell g p q then [p] else [].

Lemma dstNode_ok : forall src st a b, cache_ok (fst st) ->
  let r := ci_dstNode g src (c_quad (scell src)) st ((a, b), (P a, P b)) in
  cache_ok (fst r) /\ snd r = snd st ++ if_in (P a) (c_quad (scell src)).
Proof.
  intros src [k pts] a b OK r. unfold ci_dstNode in r. cbn [fst snd] in *. unfold if_in.
  destruct (lookup eqb2 (ck_dst k) (a, src)) eqn:L.
  - apply lookup_in in L; [|exact eqb2_eq]. rewrite (ok_dst k OK _ _ _ L). subst r. auto.
  - destruct (in_cell g (P a) (c_quad (scell src))) eqn:I; subst r; cbn [fst snd].
    + split; auto. destruct OK as [O1 O2 O3 O4]. constructor; cbn; auto.
      intros n c p [H|H]; eauto. injection H as <- <- <-. auto.
    + rewrite app_nil_r. auto.
Qed.

Lemma srcNode_ok : forall dst st a b, cache_ok (fst st) ->
  let r := ci_srcNode g dst (c_quad (dcell dst)) st ((a, b), (Q a, Q b)) in
  cache_ok (fst r) /\ snd r = snd st ++ if_in (Q a) (c_quad (dcell dst)).
Proof.
  intros dst [k pts] a b OK r. unfold ci_srcNode in r. cbn [fst snd] in *. unfold if_in.
  destruct (lookup eqb2 (ck_src k) (dst, a)) eqn:L.
  - apply lookup_in in L; [|exact eqb2_eq]. rewrite (ok_src k OK _ _ _ L). subst r. auto.
  - destruct (in_cell g (Q a) (c_quad (dcell dst))) eqn:I; subst r; cbn [fst snd].
    + split; auto. destruct OK as [O1 O2 O3 O4]. constructor; cbn; auto.
      intros n c p [H|H]; eauto. injection H as <- <- <-. auto.
    + rewrite app_nil_r. auto.
Qed.

Lemma edgePair_ok : forall a b c d st, dst_edge a b -> src_edge c d -> cache_ok (fst st) ->
  let r := ci_edgePair g ((a, b), (P a, P b)) st ((c, d), (Q c, Q d)) in
  cache_ok (fst r) /\ snd r = snd st ++ edge_edge g (P a) (P b) (Q c) (Q d).
Proof.
  intros a b c d [k pts] D S OK r. unfold ci_edgePair in r. cbn [fst snd] in *.
  destruct (lookup eqb4 (ck_nox k) (sort2 a b, sort2 c d)) as [[]|] eqn:L1.
  - apply lookup_in in L1; [|exact eqb4_eq]. subst r. cbn. rewrite (recorded_same a b c d []); auto.
    + rewrite app_nil_r. auto. + apply (ok_nox k OK); auto.
  - destruct (lookup eqb4 (ck_x k) (sort2 a b, sort2 c d)) as [p|] eqn:L2.
    + apply lookup_in in L2; [|exact eqb4_eq]. subst r. cbn. rewrite (recorded_same a b c d [p]); auto. apply (ok_x k OK); auto.
    + subst r. destruct (edge_edge_one (P a) (P b) (Q c) (Q d)) as [E|[p E]]; rewrite E; cbn [fst snd].
      * rewrite app_nil_r. split; auto. destruct OK as [O1 O2 O3 O4]. constructor; cbn; auto.
        intros key [H|H]; auto. injection H as <-. exists a, b, c, d. auto.
      * split; auto. destruct OK as [O1 O2 O3 O4]. constructor; cbn; auto.
        intros key p' [H|H]; auto. injection H as <- <-. exists a, b, c, d. auto.
Qed.

Lemma points_ok : forall dst src k, 0 <= dst < nd -> 0 <= src < ns -> cache_ok k ->
  let r := ci_points g dst src (dcell dst) (scell src) k in
  cache_ok (fst r) /\ snd r = tested_points g (c_quad (dcell dst)) (c_quad (scell src)).
Proof.
  intros dst src k Hd Hs OK. unfold ci_points, tested_points. rewrite <- (DQ dst Hd), <- (SQ src Hs), (DE dst Hd), (SE src Hs).
  assert (DD : forall a b, In (a, b) (edge_inds (c_inds (dcell dst))) -> dst_edge a b) by (intros; exists dst; auto).
  assert (SS : forall a b, In (a, b) (edge_inds (c_inds (scell src))) -> src_edge a b) by (intros; exists src; auto).
  revert DD SS. generalize (edge_inds (c_inds (dcell dst))) (edge_inds (c_inds (scell src))). intros ld ls DD SS.
  rewrite !map_map. cbn [fst snd].
  set (mk := fun e : Z * Z => (P (fst e), P (snd e))). set (mk' := fun e : Z * Z => (Q (fst e), Q (snd e))).
  assert (IN : forall a b ls st, (forall c d, In (c, d) ls -> src_edge c d) -> dst_edge a b -> cache_ok (fst st) ->
    let r := fold_left (fun st f => ci_edgePair g ((a, b), (P a, P b)) (ci_srcNode g dst (c_quad (dcell dst)) st f) f)
               (map (fun e => (e, (Q (fst e), Q (snd e)))) ls) st in
    cache_ok (fst r) /\ snd r = snd st ++ flat_map (fun f => (if in_cell g (fst f) (c_quad (dcell dst)) then [fst f] else []) ++
       edge_edge g (P a) (P b) (fst f) (snd f)) (map mk' ls)).
  { intros a b. clear - g P Q dcell SYM. induction ls as [|[c d] ls IH]; intros st SS D OK; cbn [map fold_left flat_map].
    - rewrite app_nil_r. auto.
    - cbn [fst snd]. destruct (srcNode_ok dst st c d OK) as [O1 E1]. set (st1 := ci_srcNode _ _ _ _ _) in *.
      destruct (edgePair_ok a b c d st1 D (SS c d (or_introl eq_refl)) O1) as [O2 E2]. set (st2 := ci_edgePair _ _ _ _) in *.
      destruct (IH st2 (fun c d H => SS c d (or_intror H)) D O2) as [O3 E3]. split; auto.
      cbv zeta in E3. rewrite E3, E2, E1. unfold if_in, mk'. cbn [fst snd]. rewrite <- !app_assoc. reflexivity. }
  assert (OUT : forall ld st, (forall c d, In (c, d) ld -> dst_edge c d) -> cache_ok (fst st) ->
    let r := fold_left (fun st e => fold_left (fun st f => ci_edgePair g e (ci_srcNode g dst (c_quad (dcell dst)) st f) f)
               (map (fun e => (e, (Q (fst e), Q (snd e)))) ls) (ci_dstNode g src (c_quad (scell src)) st e))
               (map (fun e => (e, (P (fst e), P (snd e)))) ld) st in
    cache_ok (fst r) /\ snd r = snd st ++ flat_map (fun e => (if in_cell g (fst e) (c_quad (scell src)) then [fst e] else []) ++
       flat_map (fun f => (if in_cell g (fst f) (c_quad (dcell dst)) then [fst f] else []) ++
       edge_edge g (fst e) (snd e) (fst f) (snd f)) (map mk' ls)) (map mk ld)).
  { clear ld DD. induction ld as [|[a b] ld IH]; intros st DD OK'; cbn [map fold_left flat_map].
    - rewrite app_nil_r. auto.
    - cbn [fst snd]. destruct (dstNode_ok src st a b OK') as [O1 E1]. set (st1 := ci_dstNode _ _ _ _ _) in *.
      destruct (IN a b ls st1 SS (DD a b (or_introl eq_refl)) O1) as [O2 E2]. set (st2 := fold_left _ _ st1) in *. cbv zeta in E2.
      destruct (IH st2 (fun c d H => DD c d (or_intror H)) O2) as [O3 E3]. split; auto.
      cbv zeta in E3. rewrite E3, E2, E1. unfold if_in, mk. cbn [fst snd]. rewrite <- !app_assoc. reflexivity. }
  apply (OUT ld (k, [])); auto.
Qed.

End Any.
