(** Conservative interpolation, any arithmetic: the table of weights. *)
From Coq Require Import ZArith List Bool Lia FinFun.
From Verif Require Import Base Num M_BoxIterator M_LinearSolve M_FindPoint M_Triangulate M_Quad M_QuadIntersect M_FlowInterp M_ConserveInterp
  S_Array S_ConserveTable L_Box2 L_FlowInterp L_Conserve.
Import ListNotations.
Open Scope Z_scope.

Section Maps.
Context {A : Type}.

Lemma asc_le : forall (m : list (Z * A)) lo lo', lo' <= lo -> ascending lo m -> ascending lo' m.
Proof. intros [|e m] lo lo' H; simpl; auto. intros [? ?]. split; auto. lia. Qed.

Lemma asc_in : forall (m : list (Z * A)) lo e, ascending lo m -> In e m -> lo < fst e.
Proof.
  induction m as [|x m IH]; intros lo e H I; [destruct I|]. destruct H as [H1 H2]. destruct I as [<-|I]; auto.
  specialize (IH _ _ H2 I). lia.
Qed.

Lemma asc_snoc : forall (m : list (Z * A)) lo e, ascending lo m -> lo < fst e -> (forall x, In x m -> fst x < fst e) -> ascending lo (m ++ [e]).
Proof.
  induction m as [|x m IH]; intros lo e H L F; cbn [app ascending] in *; [auto|]. destruct H as [H1 H2]. split; auto.
  apply IH; auto. apply F. left. reflexivity. intros; apply F. right. auto.
Qed.
End Maps.

Section Maps2.
Context {A : Type}.
Definition rows_full (m : list (Z * list A)) : Prop := forall k r, In (k, r) m -> r <> [].

Lemma insert_asc : forall (m : list (Z * list A)) lo k r, ascending lo m -> lo < k -> ascending lo (map_insert m k r).
Proof.
  induction m as [|[k' v] m IH]; intros lo k r H L; [simpl; auto|]. destruct H as [H1 H2]. cbn [fst] in *. cbn [map_insert].
  destruct (k =? k') eqn:E; [simpl; auto|]. apply Z.eqb_neq in E. destruct (k <? k') eqn:F.
  - apply Z.ltb_lt in F. simpl. auto.
  - apply Z.ltb_ge in F. cbn [ascending fst]. split; auto. apply IH; auto. lia.
Qed.

Lemma insert_in : forall (m : list (Z * list A)) k r e, In e (map_insert m k r) -> In e m \/ e = (k, r).
Proof.
  induction m as [|[k' v] m IH]; intros k r e H; cbn [map_insert] in H; [destruct H as [<-|[]]; auto|].
  destruct (k =? k'); [auto|]. destruct (k <? k').
  - destruct H as [<-|H]; auto.
  - destruct H as [<-|H]; [left; left; reflexivity|]. apply IH in H. destruct H; [left; right; auto|auto].
Qed.

Lemma insert_keeps : forall (m : list (Z * list A)) k r e, In e m -> In e (map_insert m k r).
Proof.
  induction m as [|[k' v] m IH]; intros k r e H; [destruct H|]. cbn [map_insert].
  destruct (k =? k'); [auto|]. destruct (k <? k'); [right; auto|]. destruct H as [<-|H]; [left; auto|right; auto].
Qed.

Lemma row_below : forall (m : list (Z * list A)) lo k, ascending lo m -> k <= lo -> row_of m k = [].
Proof.
  induction m as [|[k' v] m IH]; intros lo k H L; auto. destruct H as [H1 H2]. cbn [fst] in *. cbn [row_of].
  replace (k =? k') with false by (symmetry; apply Z.eqb_neq; lia). apply (IH k'); auto. lia.
Qed.

Lemma row_insert_other : forall (m : list (Z * list A)) k r k', k' <> k -> row_of (map_insert m k r) k' = row_of m k'.
Proof.
  induction m as [|[k0 v] m IH]; intros k r k' H; cbn [map_insert row_of].
  - apply Z.eqb_neq in H. rewrite H. reflexivity.
  - destruct (k =? k0) eqn:E; [reflexivity|]. destruct (k <? k0); cbn [row_of].
    + apply Z.eqb_neq in H. rewrite H. reflexivity.
    + rewrite IH by auto. reflexivity.
Qed.

Lemma row_insert_same : forall (m : list (Z * list A)) lo k r, ascending lo m -> rows_full m ->
  row_of (map_insert m k r) k = match row_of m k with [] => r | r0 => r0 end.
Proof.
  induction m as [|[k0 v] m IH]; intros lo k r H F; cbn [map_insert row_of].
  - rewrite Z.eqb_refl. reflexivity.
  - destruct H as [H1 H2]. cbn [fst] in *. destruct (k =? k0) eqn:E; cbn [row_of].
    + rewrite E. assert (X := F k0 v (or_introl eq_refl)). destruct v; congruence.
    + destruct (k <? k0) eqn:L; cbn [row_of].
      * rewrite Z.eqb_refl. apply Z.ltb_lt in L. rewrite (row_below m k0) by (auto; lia). reflexivity.
      * rewrite E. apply (IH k0); auto. intros k1 r1 I. apply (F k1). right. auto.
Qed.

Lemma row_in : forall (m : list (Z * list A)) lo k r, ascending lo m -> In (k, r) m -> row_of m k = r.
Proof.
  induction m as [|[k' v] m IH]; intros lo k r H I; [destruct I|]. destruct H as [H1 H2]. cbn [fst] in *. destruct I as [I|I]; cbn [row_of].
  - injection I as -> ->. rewrite Z.eqb_refl. reflexivity.
  - assert (L := asc_in m k' _ H2 I). cbn [fst] in L. replace (k =? k') with false by (symmetry; apply Z.eqb_neq; lia). eapply IH; eauto.
Qed.

Lemma row_found : forall (m : list (Z * list A)) k, row_of m k <> [] -> In (k, row_of m k) m.
Proof.
  induction m as [|[k' v] m IH]; intros k H; cbn [row_of] in *; [congruence|]. destruct (k =? k') eqn:E.
  - apply Z.eqb_eq in E. subst. left. reflexivity.
  - right. auto.
Qed.
End Maps2.

Section Any.
Context {T : Type} {N : Num T}.
Variable srt : (nat -> nat -> bool) -> list nat -> list nat.
Variable memd : Z -> nat -> pt T.
Variable mem : Z -> Z -> nat -> pt T.
Variable g : gels T.

(** A row computed for ns source cells. *)
Definition row_ok (ns : Z) (r : list (Z * T)) : Prop := ascending (-1) r /\ forall e, In e r -> fst e < ns.

Definition table_ok (nd ns : Z) (m : list (Z * list (Z * T))) : Prop :=
  ascending (-1) m /\ rows_full m /\ forall k r, In (k, r) m -> k < nd /\ row_ok ns r.

Lemma srcSteps_row : forall sg dst dc darea n st st', 
  foldM (ci_srcStep srt mem g sg dst dc darea) (range n) st = Ret st' -> snd st = [] -> row_ok n (snd st').
Proof.
  intros sg dst dc darea n st st' H E.
  assert (G : forall l a st st', foldM (ci_srcStep srt mem g sg dst dc darea) (map Z.of_nat (seq a l)) st = Ret st' ->
    row_ok (Z.of_nat a) (snd st) -> row_ok (Z.of_nat (a + l)) (snd st')).
  { clear. induction l as [|l IH]; intros a st st' H OK; cbn [seq map foldM] in H.
    - injection H as <-. rewrite Nat.add_0_r. auto.
    - apply bind_ret_inv in H. destruct H as (st1 & H1 & H). replace (a + S l)%nat with (S a + l)%nat by lia.
      apply (IH (S a) st1); auto. unfold ci_srcStep in H1. destruct st as [k row]. cbn [snd] in *.
      apply bind_ret_inv in H1. destruct H1 as (sc & _ & H1).
      assert (OK' : row_ok (Z.of_nat (S a)) row) by (destruct OK as [O1 O2]; split; auto; intros e He; specialize (O2 e He); lia).
      destruct (negb _); [injection H1 as <-; auto|]. destruct (ci_points _ _ _ _ _ _) as [k' pts].
      destruct (3 <=? length pts)%nat; injection H1 as <-; [|auto]. cbn [snd]. destruct OK as [O1 O2]. split.
      + apply asc_snoc; auto; cbn [fst]; lia.
      + intros e He. apply in_app_or in He. destruct He as [He|[<-|[]]]; [specialize (O2 e He); lia|]. cbn [fst]. lia. }
  unfold range, zseq in H. destruct (Z_le_gt_dec 0 n) as [L|L].
  - specialize (G (Z.to_nat n) 0%nat st st' H). rewrite E in G. replace (Z.of_nat (0 + Z.to_nat n)) with n in G by lia. apply G.
    split; [exact I|]. intros e [].
  - replace (Z.to_nat n) with 0%nat in H by lia. injection H as <-. rewrite E. split; [exact I|]. intros e [].
Qed.

(** The rows after the loop over destination cells: those present are kept, the others are new. *)
Lemma dstSteps : forall dg sg (I : cache T -> Prop) (R : Z -> list (Z * T) -> Prop) ds k w k' w', NoDup ds -> (forall d, In d ds -> 0 <= d) ->
  (forall d dc k k' row, In d ds -> ci_cell dg d = Ret dc -> I k ->
     foldM (ci_srcStep srt mem g sg d dc (hull_of srt (memd d) [q0 (c_quad dc); q1 (c_quad dc); q2 (c_quad dc); q3 (c_quad dc)])) (range (g_numCells sg)) (k, []) = Ret (k', row) ->
     I k' /\ R d row) ->
  I k -> ascending (-1) w -> rows_full w -> foldM (ci_dstStep srt memd mem g dg sg) ds (k, w) = Ret (k', w') ->
  ascending (-1) w' /\ rows_full w' /\
  forall d, (In d ds -> exists r, R d r /\ row_of w' d = match row_of w d with [] => r | r0 => r0 end) /\
            (~ In d ds -> row_of w' d = row_of w d).
Proof.
  intros dg sg I R. induction ds as [|d ds IH]; intros k w k' w' ND POS STEP IK AW FW H; cbn [foldM] in H.
  - injection H as <- <-. split; auto. split; auto. intros d. split; [intros []|auto].
  - inversion ND as [|? ? NI ND']; subst. apply bind_ret_inv in H. destruct H as ([k1 w1] & H1 & H).
    unfold ci_dstStep in H1. apply bind_ret_inv in H1. destruct H1 as (dc & HC & H1). apply bind_ret_inv in H1. destruct H1 as ([k2 row] & HF & H1).
    destruct (STEP d dc k k2 row (or_introl eq_refl) HC IK HF) as [IK2 RD].
    injection H1 as <- EW.
    assert (A1 : ascending (-1) w1 /\ rows_full w1 /\ row_of w1 d = match row_of w d with [] => row | r0 => r0 end /\
      forall d', d' <> d -> row_of w1 d' = row_of w d').
    { destruct row as [|x row]; subst w1.
      - split; auto. split; auto. split; auto. destruct (row_of w d); auto.
      - split; [apply insert_asc; auto; assert (X := POS d (or_introl eq_refl)); lia|]. split.
        + intros kk rr Hin. apply insert_in in Hin. destruct Hin as [Hin|Hin]; [apply (FW kk); auto|]. injection Hin as -> ->. discriminate.
        + split; [apply (row_insert_same w (-1)); auto|]. intros d' NE. apply row_insert_other; auto. }
    destruct A1 as (A1 & F1 & S1 & O1).
    destruct (IH k2 w1 k' w' ND' (fun d I => POS d (or_intror I)) (fun d dc k k' row I => STEP d dc k k' row (or_intror I)) IK2 A1 F1 H) as (A2 & F2 & K2).
    split; auto. split; auto. intros d'. destruct (K2 d') as [K3 K4]. split.
    + intros [<-|Hin].
      * exists row. split; auto. rewrite K4 by auto. auto.
      * destruct (K3 Hin) as (r & Rr & Er). exists r. split; auto. rewrite Er, O1; auto. congruence.
    + intros NI'. rewrite K4 by (intros X; apply NI'; right; auto). apply O1. intros ->. apply NI'. left. reflexivity.
Qed.

Lemma range_NoDup : forall n, NoDup (range n).
Proof. intros. unfold range, zseq. apply FinFun.Injective_map_NoDup; [intros a b; apply Nat2Z.inj|apply seq_NoDup]. Qed.

(** Any grids: rows present are kept; the others refer to source cells in ascending order. *)
Theorem computeWeights_rows : forall s s' dg sg, ci_dst s = Some dg -> ci_src s = Some sg -> ascending (-1) (ci_weights s) -> rows_full (ci_weights s) ->
  ci_computeWeights srt memd mem g s = Ret s' ->
  ci_dst s' = ci_dst s /\ ci_src s' = ci_src s /\ ci_it s' = ci_it s /\ ascending (-1) (ci_weights s') /\ rows_full (ci_weights s') /\
  forall d, (0 <= d < g_numCells dg -> exists r, row_ok (g_numCells sg) r /\ row_of (ci_weights s') d = match row_of (ci_weights s) d with [] => r | r0 => r0 end) /\
            (~ 0 <= d < g_numCells dg -> row_of (ci_weights s') d = row_of (ci_weights s) d).
Proof.
  intros s s' dg sg ED ES A F H. unfold ci_computeWeights in H. rewrite ED, ES in H. apply bind_ret_inv in H. destruct H as ([k w] & H & H2).
  injection H2 as <-. cbn [ci_dst ci_src ci_it ci_weights snd]. split; auto. split; auto. split; auto.
  destruct (dstSteps dg sg (fun _ => True) (fun _ r => row_ok (g_numCells sg) r) (range (g_numCells dg)) ck_empty (ci_weights s) k w) as (A1 & F1 & K); auto.
  - apply range_NoDup.
  - intros d Hd. apply in_range in Hd. lia.
  - intros d dc k0 k' row _ _ _ HF. split; auto. apply (srcSteps_row _ _ _ _ _ _ _ HF). reflexivity.
  - split; auto. split; auto. intros d. destruct (K d) as [K1 K2]. split; intros X.
    + apply K1. apply in_range. auto.
    + apply K2. intros Y. apply X. apply in_range. auto.
Qed.

Lemma rows_table : forall nd ns w w', table_ok nd ns w -> ascending (-1) w' -> rows_full w' ->
  (forall d, (0 <= d < nd -> exists r, row_ok ns r /\ row_of w' d = match row_of w d with [] => r | r0 => r0 end) /\
            (~ 0 <= d < nd -> row_of w' d = row_of w d)) -> table_ok nd ns w'.
Proof.
  intros nd ns w w' (A & F & B) A' F' K. split; auto. split; auto. intros k r Hr.
  assert (E := row_in w' (-1) k r A' Hr). assert (NE := F' k r Hr). assert (P := asc_in w' (-1) _ A' Hr). cbn [fst] in P.
  destruct (K k) as [K1 K2].
  destruct (Z_lt_ge_dec k nd) as [L|L].
  - split; auto. destruct (K1 ltac:(lia)) as (r0 & R0 & E0). rewrite E in E0. destruct (row_of w k) as [|x y] eqn:EW; [subst; auto|].
    apply (B k). rewrite E0, <- EW. apply row_found. congruence.
  - exfalso. rewrite K2 in E by lia. rewrite <- E in NE. apply row_found in NE. rewrite E in NE. apply B in NE. lia.
Qed.

(** ** Grids given by their nodes *)
Section Grids.
Variables d0 d1 e0 e1 : Z.
Variables nx ny mx my : Z -> Z -> T.
Variables dg sg : grid T.
Hypothesis GD : grid_ok d0 d1 nx ny dg.
Hypothesis GS : grid_ok e0 e1 mx my sg.
Let dcell c := mkCell (inds_at d1 c) (cell_at d1 nx ny c).
Let scell c := mkCell (inds_at e1 c) (cell_at e1 mx my c).
Let P := node_at d1 nx ny.
Let Q := node_at e1 mx my.

Definition no_direction : Prop :=
  forall c c' e f, 0 <= c < g_numCells dg -> 0 <= c' < g_numCells sg -> In e (qedges (cell_at d1 nx ny c)) -> In f (qedges (cell_at e1 mx my c')) ->
  direction_free g (fst e) (snd e) (fst f) (snd f).

Lemma dedges : forall c, 0 <= c < g_numCells dg -> c_edges (dcell c) = map (fun e => (e, (P (fst e), P (snd e)))) (edge_inds (c_inds (dcell c))).
Proof. intros c Hc. destruct GD as (A & B & _ & _ & E & _). rewrite E in Hc. apply (c_edges_ok d0); auto. Qed.
Lemma sedges : forall c, 0 <= c < g_numCells sg -> c_edges (scell c) = map (fun e => (e, (Q (fst e), Q (snd e)))) (edge_inds (c_inds (scell c))).
Proof. intros c Hc. destruct GS as (A & B & _ & _ & E & _). rewrite E in Hc. apply (c_edges_ok e0); auto. Qed.
Lemma dquads : forall c, map snd (c_edges (dcell c)) = qedges (c_quad (dcell c)).
Proof. reflexivity. Qed.
Lemma squads : forall c, map snd (c_edges (scell c)) = qedges (c_quad (scell c)).
Proof. reflexivity. Qed.

Lemma sym_from : no_direction -> sym_ok g P Q dcell scell (g_numCells dg) (g_numCells sg).
Proof.
  intros H a b c d (i & Hi & Ii) (j & Hj & Ij). apply (H i j (P a, P b) (Q c, Q d)); auto.
  - change (qedges (cell_at d1 nx ny i)) with (map snd (c_edges (dcell i))). rewrite dedges by auto. rewrite map_map. apply (in_map (fun x => snd (x, (P (fst x), P (snd x)))) _ (a, b)). auto.
  - change (qedges (cell_at e1 mx my j)) with (map snd (c_edges (scell j))). rewrite sedges by auto. rewrite map_map. apply (in_map (fun x => snd (x, (Q (fst x), Q (snd x)))) _ (c, d)). auto.
Qed.

Lemma srcSteps_tested : no_direction -> forall d, 0 <= d < g_numCells dg -> forall l k row, cache_ok g P Q dcell scell (g_numCells dg) (g_numCells sg) k ->
  (forall c, In c l -> 0 <= c < g_numCells sg) ->
  exists k', cache_ok g P Q dcell scell (g_numCells dg) (g_numCells sg) k' /\
  foldM (ci_srcStep srt mem g sg d (dcell d) (hull_of srt (memd d) (quad_nodes (cell_at d1 nx ny d)))) l (k, row) =
  Ret (k', row ++ flat_map (entry_of srt (memd d) (mem d) g (cell_at d1 nx ny d) (cell_at e1 mx my)) l).
Proof.
  intros SY d Hd. induction l as [|c l IH]; intros k row OK HL; cbn [foldM flat_map].
  - exists k. rewrite app_nil_r. auto.
  - assert (Hc := HL c (or_introl eq_refl)). unfold ci_srcStep at 1. rewrite (ci_cell_ok e0 e1 mx my) by auto. cbn [bind].
    fold (scell c). unfold entry_of at 1. cbn [c_quad dcell scell].
    destruct (boxes_overlap (cell_at d1 nx ny d) (cell_at e1 mx my c)) eqn:BO; cbn [negb andb].
    + destruct (points_ok g P Q dcell scell (g_numCells dg) (g_numCells sg) dedges sedges (fun c _ => dquads c) (fun c _ => squads c) (sym_from SY) d c k Hd Hc OK) as [O1 E1].
      destruct (ci_points g d c (dcell d) (scell c) k) as [k1 pts]. cbn [fst snd dcell scell c_quad] in O1, E1. subst pts.
      destruct (3 <=? length (tested_points g (cell_at d1 nx ny d) (cell_at e1 mx my c)))%nat; cbn [bind].
      * destruct (IH k1 (row ++ [(c, ndiv (hull_of srt (mem d c) (tested_points g (cell_at d1 nx ny d) (cell_at e1 mx my c))) (hull_of srt (memd d) (quad_nodes (cell_at d1 nx ny d))))]) O1 (fun c I => HL c (or_intror I))) as (k2 & O2 & E2).
        exists k2. split; auto. rewrite E2, <- app_assoc. reflexivity.
      * cbn [app]. apply IH; auto. intros; apply HL; right; auto.
    + cbn [bind app]. apply IH; auto. intros; apply HL; right; auto.
Qed.

Theorem computeWeights_tested : forall s, no_direction -> ci_dst s = Some dg -> ci_src s = Some sg -> ascending (-1) (ci_weights s) -> rows_full (ci_weights s) ->
  exists s', ci_computeWeights srt memd mem g s = Ret s' /\ ci_dst s' = ci_dst s /\ ci_src s' = ci_src s /\ ci_it s' = ci_it s /\
  ascending (-1) (ci_weights s') /\ rows_full (ci_weights s') /\
  forall d, (0 <= d < g_numCells dg -> row_of (ci_weights s') d =
      match row_of (ci_weights s) d with [] => tested_row srt (memd d) (mem d) g (cell_at d1 nx ny d) (cell_at e1 mx my) (g_numCells sg) | r0 => r0 end) /\
            (~ 0 <= d < g_numCells dg -> row_of (ci_weights s') d = row_of (ci_weights s) d).
Proof.
  intros s SY ED ES A F.
  assert (STEP : forall d k, 0 <= d < g_numCells dg -> cache_ok g P Q dcell scell (g_numCells dg) (g_numCells sg) k ->
    exists k', cache_ok g P Q dcell scell (g_numCells dg) (g_numCells sg) k' /\
    foldM (ci_srcStep srt mem g sg d (dcell d) (hull_of srt (memd d) (quad_nodes (cell_at d1 nx ny d)))) (range (g_numCells sg)) (k, []) =
    Ret (k', tested_row srt (memd d) (mem d) g (cell_at d1 nx ny d) (cell_at e1 mx my) (g_numCells sg))).
  { intros d k Hd OK. apply (srcSteps_tested SY d Hd (range (g_numCells sg)) k []); auto. intros c Hc. apply in_range. auto. }
  assert (TOT : exists r, foldM (ci_dstStep srt memd mem g dg sg) (range (g_numCells dg)) (ck_empty, ci_weights s) = Ret r /\ cache_ok g P Q dcell scell (g_numCells dg) (g_numCells sg) (fst r)).
  { apply (foldM_total (fun r => cache_ok g P Q dcell scell (g_numCells dg) (g_numCells sg) (fst r))); [apply empty_ok|].
    intros [k w] d OK Hd. apply in_range in Hd. unfold ci_dstStep. rewrite (ci_cell_ok d0 d1 nx ny) by auto. cbn [bind c_quad].
    destruct (STEP d k Hd OK) as (k' & O' & E'). unfold quad_nodes in E'. fold (dcell d). rewrite E'. cbn [bind]. eexists. split; [reflexivity|]. auto. }
  destruct TOT as ([k w] & TOT & _).
  eexists. split; [unfold ci_computeWeights; rewrite ED, ES, TOT; cbn [bind]; reflexivity|].
  cbn [ci_dst ci_src ci_it ci_weights snd]. split; [auto|]. split; [auto|]. split; [auto|].
  destruct (dstSteps dg sg (cache_ok g P Q dcell scell (g_numCells dg) (g_numCells sg))
    (fun d r => r = tested_row srt (memd d) (mem d) g (cell_at d1 nx ny d) (cell_at e1 mx my) (g_numCells sg)) (range (g_numCells dg)) ck_empty (ci_weights s) k w) as (A1 & F1 & K); auto.
  - apply range_NoDup.
  - intros d Hd. apply in_range in Hd. lia.
  - intros d dc k0 k' row Hd HC OK HF. apply in_range in Hd. rewrite (ci_cell_ok d0 d1 nx ny) in HC by auto. injection HC as <-. cbn [c_quad] in HF.
    destruct (STEP d k0 Hd OK) as (k1 & O1 & E1). unfold quad_nodes in E1. fold (dcell d) in HF. rewrite E1 in HF. injection HF as <- <-. auto.
  - apply empty_ok.
  - split; auto. split; auto. intros d. destruct (K d) as [K1 K2]. split; intros X.
    + destruct (K1 (proj2 (in_range _ _) X)) as (r & -> & E). auto.
    + apply K2. intros Y. apply X. apply in_range. auto.
Qed.

End Grids.
End Any.
