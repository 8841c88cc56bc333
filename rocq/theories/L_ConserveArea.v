(** The weights of the conservative interpolation are area fractions; conservation (exact
    arithmetic, regular pairs of cells). *)
From Coq Require Import ZArith List Bool Reals Lra Lia Classical Permutation Psatz.
From Coquelicot Require Import Coquelicot.
From Verif Require Import Base Num NumR S_LinAlg S_Array S_Geometry S_Quad S_Area S_Overlap S_Sort S_ConserveGrid M_LinearSolve M_Triangulate M_Quad M_QuadIntersect
  M_ConserveInterp S_ConserveTable L_Polygon L_Hull L_Quad L_QuadIntersect L_Triangulate L_Area L_AreaPolygon L_Corners L_TriFlat L_OverlapArea
  L_FlowInterp L_Conserve L_ConserveTable L_ConserveApply.
Import ListNotations.
Open Scope R_scope.

(** ** Directions of the edges *)
Lemma edge_short : forall (g : gels R) a b c d, (length (edge_edge g a b c d) <= 1)%nat.
Proof.
  intros. unfold edge_edge. destruct (solve2 _ _ _ _ _ _ _) as [ier [xi eta]]. destruct (0 <? ier)%Z; [cbn; lia|]. destruct (_ && _); cbn; lia.
Qed.

Lemma short_eq : forall {A} (l l' : list A), (length l <= 1)%nat -> (length l' <= 1)%nat -> (forall x, In x l <-> In x l') -> l = l'.
Proof.
  intros A [|x [|y l]] [|x' [|y' l']] H H' E; cbn in *; try lia; auto.
  - exfalso. apply (E x'). auto.
  - exfalso. apply (E x). auto.
  - destruct (proj1 (E x)) as [->|[]]; auto.
Qed.

Section Direction.
Variable g : gels R.
Hypothesis G : gels_spec g 2 2.

Definition meets (a b c d p : point) : Prop := exists s t, p = on_seg a b s /\ p = on_seg c d t /\ tolR < s < 1 - tolR /\ tolR < t < 1 - tolR /\ turn a b c d <> 0.

Lemma edge_meets : forall a b c d p, off_tolerance tolR (a, b) (c, d) -> In p (edge_edge g a b c d) <-> meets a b c d p.
Proof.
  intros a b c d p O. assert (TP := tol_pos). split.
  - intros H. apply (edge_edge_sound g G) in H. destruct H as (s & t & E1 & E2 & Hs & Ht & T). exists s, t. split; auto. split; auto.
    assert (X := O s t). cbn [fst snd] in X. rewrite <- E1, <- E2 in X. destruct (X eq_refl T) as (X1 & X2 & X3 & X4); try lra.
  - intros (s & t & E1 & E2 & Hs & Ht & T). rewrite E1. apply (edge_edge_complete g G a b c d s t); auto; try lra. congruence.
Qed.

Lemma on_seg_back : forall a b s, on_seg b a (1 - s) = on_seg a b s.
Proof. intros [] [] s. unfold on_seg. cbn [fst snd]. f_equal; ring. Qed.
Lemma turn_back1 : forall a b c d, turn b a c d = - turn a b c d.
Proof. intros. unfold turn. ring. Qed.
Lemma turn_back2 : forall a b c d, turn a b d c = - turn a b c d.
Proof. intros. unfold turn. ring. Qed.

Lemma off_back1 : forall a b c d, off_tolerance tolR (a, b) (c, d) -> off_tolerance tolR (b, a) (c, d).
Proof.
  intros a b c d O s t E T Hs Ht. cbn [fst snd] in *. destruct (O (1 - s) t) as (X1 & X2 & X3 & X4); cbn [fst snd]; try lra.
  - rewrite <- E. rewrite <- (on_seg_back a b (1 - s)). f_equal. ring.
  - intros Z. apply T. rewrite turn_back1, Z. ring.
Qed.
Lemma off_back2 : forall a b c d, off_tolerance tolR (a, b) (c, d) -> off_tolerance tolR (a, b) (d, c).
Proof.
  intros a b c d O s t E T Hs Ht. cbn [fst snd] in *. destruct (O s (1 - t)) as (X1 & X2 & X3 & X4); cbn [fst snd]; try lra.
  - rewrite E. rewrite <- (on_seg_back c d (1 - t)). f_equal. ring.
  - intros Z. apply T. rewrite turn_back2, Z. ring.
Qed.

Lemma meets_back1 : forall a b c d p, meets a b c d p -> meets b a c d p.
Proof.
  intros a b c d p (s & t & E1 & E2 & Hs & Ht & T). exists (1 - s), t. rewrite on_seg_back, turn_back1. repeat split; auto; try lra.
Qed.
Lemma meets_back2 : forall a b c d p, meets a b c d p -> meets a b d c p.
Proof.
  intros a b c d p (s & t & E1 & E2 & Hs & Ht & T). exists s, (1 - t). rewrite on_seg_back, turn_back2. repeat split; auto; try lra.
Qed.

Theorem off_direction : forall a b c d, off_tolerance tolR (a, b) (c, d) -> direction_free g a b c d.
Proof.
  intros a b c d O. assert (O1 := off_back1 _ _ _ _ O). assert (O2 := off_back2 _ _ _ _ O). assert (O3 := off_back2 _ _ _ _ O1).
  split; [|split]; apply short_eq; try apply edge_short; intros p; rewrite !edge_meets by auto.
  - split; apply meets_back1.
  - split; apply meets_back2.
  - split; intros H; [apply meets_back1, meets_back2; auto|apply meets_back2, meets_back1; auto].
Qed.

Lemma clear_off : forall e f, clear_of_ends tolR e f -> off_tolerance tolR e f.
Proof. intros e f C s t E T Hs Ht. destruct (C s t E T Hs Ht). repeat split; intros Z; subst; lra. Qed.
End Direction.

(** ** The area of a cell *)
Lemma strict4 : forall a b c d, 0 < cr a b c -> 0 < cr b c d -> 0 < cr c d a -> 0 < cr d a b -> strict_ccw [a; b; c; d].
Proof.
  intros a b c d H1 H2 H3 H4 i j k Hij Hk. cbn in Hk. destruct i as [|[|i]], j as [|[|[|j]]], k as [|[|[|[|k]]]]; try lia; unfold nthp; cbn [nth]; auto.
  - replace (cr a b d) with (cr d a b) by (unfold cr; ring). auto.
  - replace (cr a c d) with (cr c d a) by (unfold cr; ring). auto.
Qed.

Lemma area4 : forall a b c d, polygon_area [a; b; c; d] = (cr a b d + cr b c d) / 2.
Proof. intros. unfold polygon_area, shoelace. cbn [app chain_sum]. unfold det2, cr. field. Qed.

Lemma cell_area : forall srt junk (q : quadR), (forall lt l, Permutation (srt lt l) l) -> convex4 (q0 q) (q1 q) (q2 q) (q3 q) -> separated (/ 10 ^ 12) (nodes q) ->
  has_area (in_hull (nodes q)) (area_of srt junk (quad_nodes q)) /\ 0 < area_of srt junk (quad_nodes q).
Proof.
  intros srt junk q SRT C4 SEP.
  assert (P : exists P, Permutation (nodes q) P /\ strict_ccw P /\ 0 < polygon_area P /\ (3 <= length P)%nat).
  { destruct C4 as [(H1 & H2 & H3 & H4)|(H1 & H2 & H3 & H4)].
    - exists (nodes q). split; auto. split; [apply strict4; auto|]. split; [|cbn; lia]. unfold nodes. rewrite area4.
      replace (cr (q0 q) (q1 q) (q3 q)) with (cr (q3 q) (q0 q) (q1 q)) by (unfold cr; ring). lra.
    - exists (rev (nodes q)). split; [apply Permutation_rev|]. cbn [nodes rev app].
      assert (R : forall x y z, cr z y x = - cr x y z) by (intros; unfold cr; ring).
      split; [apply strict4; rewrite R; lra|]. split; [|cbn; lia]. rewrite area4.
      rewrite (R (q0 q) (q1 q) (q2 q)). replace (cr (q3 q) (q2 q) (q0 q)) with (- cr (q2 q) (q3 q) (q0 q)) by (unfold cr; ring). lra. }
  destruct P as (P & PP & SC & AP & L3).
  assert (E : area_of srt junk (quad_nodes q) = polygon_area P).
  { unfold area_of. destruct (hull_area srt junk (length (quad_nodes q)) (quad_nodes q) P) as [E _]; auto.
    - intros p. rewrite firstn_all. change (quad_nodes q) with (nodes q). split; apply Permutation_in; auto using Permutation_sym.
    - apply ccw_strict. auto.
    - apply (Permutation_NoDup PP). apply convex4_nodup. auto.
    - exists 0%nat, 1%nat, 2%nat. repeat split; try lia. assert (S := SC 0%nat 1%nat 2%nat ltac:(lia) ltac:(lia)). lra.
    - unfold epsR, tr_eps. rewrite lit_R. replace (IZR 1 / IZR 1000000000000) with (/ 10 ^ 12) by lra.
      assert (I : forall p, In p P -> In p (nodes q)) by (intros p; apply Permutation_in; auto using Permutation_sym).
      destruct SEP as [S1 S2]. split; intros; auto. }
  rewrite E. split; auto. apply (area_perm P); auto using Permutation_sym. apply area_polygon. auto.
Qed.

(** ** Rows as functions *)
Lemma total_rsum : forall l, total l = rsum l.
Proof. induction l; cbn; congruence. Qed.

Section Rows.
Variable ns : Z.
Variable e : Z -> list (Z * R).
Variable val : Z -> R.
Hypothesis EV : forall k, (0 <= k < ns)%Z -> e k = [(k, val k)] \/ (e k = [] /\ val k = 0).

Lemma row_weight : forall l k, (forall x, In x l -> (0 <= x < ns)%Z) -> NoDup l -> weight_of (flat_map e l) k = if in_dec Z.eq_dec k l then val k else 0.
Proof.
  induction l as [|x l IH]; intros k H ND; [reflexivity|]. apply NoDup_cons_iff in ND. destruct ND as [Nx ND].
  cbn [flat_map]. specialize (IH k (fun z I => H z (or_intror I)) ND).
  destruct (EV x (H x (or_introl eq_refl))) as [E|[E V]]; rewrite E; cbn [app weight_of].
  - destruct (k =? x)%Z eqn:Q.
    + apply Z.eqb_eq in Q. subst. destruct (in_dec Z.eq_dec x (x :: l)) as [_|N]; auto. exfalso. apply N. left. auto.
    + apply Z.eqb_neq in Q. rewrite IH. destruct (in_dec Z.eq_dec k l) as [I|I], (in_dec Z.eq_dec k (x :: l)) as [J|J]; auto.
      * exfalso. apply J. right. auto.
      * destruct J; [congruence|contradiction].
  - rewrite IH. destruct (in_dec Z.eq_dec k l) as [I|I], (in_dec Z.eq_dec k (x :: l)) as [J|J]; auto.
    + exfalso. apply J. right. auto.
    + destruct J as [<-|]; [auto|contradiction].
Qed.

Lemma row_weighted : forall f l acc, (forall x, In x l -> (0 <= x < ns)%Z) ->
  weighted acc (flat_map e l) f = acc + rsum (map (fun k => val k * f k) l).
Proof.
  intros f. induction l as [|x l IH]; intros acc H; cbn [flat_map map rsum]; [cbn; lra|].
  assert (H' := fun z I => H z (or_intror I)).
  destruct (EV x (H x (or_introl eq_refl))) as [E|[E V]]; rewrite E; cbn [app weighted].
  - rewrite IH by auto. cbn [nadd nmul NumR]. lra.
  - rewrite IH by auto. rewrite V. lra.
Qed.

Lemma row_total : forall l, (forall x, In x l -> (0 <= x < ns)%Z) -> total (map snd (flat_map e l)) = rsum (map val l).
Proof.
  induction l as [|x l IH]; intros H; cbn [flat_map map rsum]; [reflexivity|]. rewrite map_app.
  destruct (EV x (H x (or_introl eq_refl))) as [E|[E V]]; rewrite E; cbn [app map total snd]; rewrite IH by (intros; apply H; right; auto); lra.
Qed.
End Rows.

Lemma rsum_ext : forall {A} (f h : A -> R) l, (forall x, In x l -> f x = h x) -> rsum (map f l) = rsum (map h l).
Proof. intros A f h. induction l as [|x l IH]; intros H; cbn; auto. rewrite H by (left; auto). rewrite IH; auto. intros; apply H; right; auto. Qed.
Lemma rsum_scale : forall {A} (f : A -> R) c l, rsum (map (fun x => c * f x) l) = c * rsum (map f l).
Proof. intros A f c. induction l as [|x l IH]; cbn; [ring|]. rewrite IH. ring. Qed.
Lemma rsum_add : forall {A} (f h : A -> R) l, rsum (map (fun x => f x + h x) l) = rsum (map f l) + rsum (map h l).
Proof. intros A f h. induction l as [|x l IH]; cbn; [ring|]. rewrite IH. ring. Qed.
Lemma rsum_swap : forall {A B} (f : A -> B -> R) l m, rsum (map (fun x => rsum (map (f x) m)) l) = rsum (map (fun y => rsum (map (fun x => f x y) l)) m).
Proof.
  intros A B f l m. induction l as [|x l IH]; cbn.
  - induction m as [|y m IH]; cbn; auto. rewrite <- IH. ring.
  - rewrite IH. rewrite <- rsum_add. reflexivity.
Qed.

(** Sets tiling a set. *)
Lemma tiles_area : forall n (cell : Z -> list point) V r (area : Z -> R), tiles n cell V -> has_area (in_hull V) r ->
  (forall k, (0 <= k < n)%Z -> has_area (overlap V (cell k)) (area k)) -> rsum (map area (range n)) = r.
Proof.
  intros n cell V r area [COV FL] HV HA.
  apply (area_tiles (in_hull V) r (map (fun k => overlap V (cell k)) (range n))); auto.
  - assert (IR : forall k, In k (range n) -> (0 <= k < n)%Z) by (intros k; apply in_range).
    induction (range n) as [|k l IH]; cbn; constructor; auto.
    + apply HA. apply IR. left. auto.
    + apply IH. intros; apply IR; right; auto.
  - assert (IR : forall k, In k (range n) -> (0 <= k < n)%Z) by (intros k; apply in_range).
    assert (ND := range_NoDup n). induction (range n) as [|k l IH]; cbn; auto. apply NoDup_cons_iff in ND. destruct ND as [Nk ND].
    split; [|apply IH; auto; intros; apply IR; right; auto].
    intros K' HK. apply in_map_iff in HK. destruct HK as (k' & <- & Ik').
    intros p q s [[_ P1] [_ P2]] [[_ Q1] [_ Q2]] [[_ S1] [_ S2]].
    apply (FL k k'); [apply IR; left; auto|apply IR; right; auto|intros ->; contradiction|split; auto|split; auto|split; auto].
  - intros K' p HK HP. apply in_map_iff in HK. destruct HK as (k & <- & _). apply HP.
  - intros p Hp. destruct (COV p Hp) as (k & Hk & I). exists (overlap V (cell k)). split; [|split; auto].
    apply (in_map (fun k => overlap V (cell k))). apply in_range. auto.
Qed.

(** ** The interpolation *)
Section Conserve.
Variable g : gels R.
Hypothesis G : gels_spec g 2 2.
Variable srt : (nat -> nat -> bool) -> list nat -> list nat.
Hypothesis SRT : sorts srt.
Hypothesis TIES : keeps_ties srt.
Variable memd : Z -> nat -> pt R.
Variable mem : Z -> Z -> nat -> pt R.
Variables d0 d1 e0 e1 : Z.
Variables nx ny mx my : Z -> Z -> R.
Variables dg sg : grid R.
Hypothesis GD : grid_ok d0 d1 nx ny dg.
Hypothesis GS : grid_ok e0 e1 mx my sg.
Let nd := ((d0 - 1) * (d1 - 1))%Z.
Let ns := ((e0 - 1) * (e1 - 1))%Z.
Let dcell := grid_cell d1 nx ny.
Let scell := grid_cell e1 mx my.
Hypothesis REG : forall c k, (0 <= c < nd)%Z -> (0 <= k < ns)%Z -> regular_pair tolR (/ 10 ^ 12) (dcell c) (scell k).
Hypothesis SEP : forall c, (0 <= c < nd)%Z -> separated (/ 10 ^ 12) (dcell c).

Lemma cell_nodes : forall n1 x y c, nodes (cell_at n1 x y c) = grid_cell n1 x y c.
Proof. reflexivity. Qed.

Definition part (c k : Z) : R := pair_value g (cell_at d1 nx ny c) (cell_at e1 mx my k) srt (mem c k).
Definition darea (c : Z) : R := area_of srt (memd c) (quad_nodes (cell_at d1 nx ny c)).

Lemma part_area : forall c k, (0 <= c < nd)%Z -> (0 <= k < ns)%Z -> has_area (overlap (dcell c) (scell k)) (part c k).
Proof. intros c k Hc Hk. apply (pair_area g G (cell_at d1 nx ny c) (cell_at e1 mx my k) (REG c k Hc Hk) srt SRT TIES (mem c k)). Qed.

Lemma darea_area : forall c, (0 <= c < nd)%Z -> (0 < ns)%Z -> has_area (in_hull (dcell c)) (darea c) /\ 0 < darea c.
Proof.
  intros c Hc Hn. apply (cell_area srt (memd c) (cell_at d1 nx ny c)); [intros; apply SRT| |apply SEP; auto].
  apply (rp_dst _ _ _ _ (REG c 0%Z Hc ltac:(lia))).
Qed.

Lemma entries : forall c, (0 <= c < nd)%Z -> forall k, (0 <= k < ns)%Z ->
  entry_of srt (memd c) (mem c) g (cell_at d1 nx ny c) (cell_at e1 mx my) k = [(k, part c k / darea c)] \/
  (entry_of srt (memd c) (mem c) g (cell_at d1 nx ny c) (cell_at e1 mx my) k = [] /\ part c k / darea c = 0).
Proof.
  intros c Hc k Hk. unfold entry_of, part, pair_value, darea. destruct (_ && _); [left; reflexivity|right]. split; auto. unfold Rdiv. ring.
Qed.

Lemma ns_pos : (0 < ns)%Z.
Proof. destruct GS as (A & B & _). unfold ns. nia. Qed.

Lemma free : no_direction g d1 e1 nx ny mx my dg sg.
Proof.
  intros c k e f Hc Hk He Hf. destruct GD as (_ & _ & _ & _ & E & _). destruct GS as (_ & _ & _ & _ & E' & _). rewrite E in Hc. rewrite E' in Hk.
  destruct e as [a b], f as [u v]. apply (off_direction g G). apply clear_off. apply (rp_cross _ _ _ _ (REG c k Hc Hk)); auto.
Qed.

(** Result of computing weights from a table without rows. *)
Theorem conserve_weights : forall s, ci_dst s = Some dg -> ci_src s = Some sg -> ci_weights s = [] ->
  exists s', ci_computeWeights srt memd mem g s = Ret s' /\ ci_dst s' = Some dg /\ ci_src s' = Some sg /\ ci_it s' = ci_it s /\
  ascending (-1) (ci_weights s') /\ rows_full (ci_weights s') /\
  (forall d r, In (d, r) (ci_weights s') -> (d < nd)%Z /\ forall e, In e r -> (0 <= fst e < ns)%Z) /\
  forall c, (0 <= c < nd)%Z -> row_of (ci_weights s') c = tested_row srt (memd c) (mem c) g (cell_at d1 nx ny c) (cell_at e1 mx my) ns.
Proof.
  intros s ED ES EW.
  destruct (computeWeights_tested srt memd mem g d0 d1 e0 e1 nx ny mx my dg sg GD GS s free ED ES) as (s' & R & A1 & A2 & A3 & A4 & A5 & A6).
  { rewrite EW. exact I. } { rewrite EW. intros ? ? []. }
  exists s'. split; auto. split; [congruence|]. split; [congruence|]. split; auto. split; auto. split; auto.
  assert (EN : g_numCells dg = nd) by (apply GD). assert (EN' : g_numCells sg = ns) by (apply GS). rewrite EN, EN', EW in A6.
  assert (ROW : forall c, (0 <= c < nd)%Z -> row_of (ci_weights s') c = tested_row srt (memd c) (mem c) g (cell_at d1 nx ny c) (cell_at e1 mx my) ns).
  { intros c Hc. destruct (A6 c) as [X _]. apply X; auto. }
  split; auto. intros d r I. assert (RO := row_in _ _ _ _ A4 I). assert (LO := asc_in _ _ _ A4 I). cbn [fst] in LO.
  assert (RN := A5 d r I). destruct (Z_lt_le_dec d nd) as [L|L].
  - split; auto. intros e He. rewrite <- RO, (ROW d ltac:(lia)) in He. unfold tested_row in He. apply in_flat_map in He. destruct He as (k & Ik & He).
    apply in_range in Ik. unfold entry_of in He. destruct (_ && _); [|contradiction]. destruct He as [<-|[]]. exact Ik.
  - exfalso. destruct (A6 d) as [_ X]. rewrite X in RO by lia. cbn in RO. congruence.
Qed.

Section Computed.
Variable s' : ci R.
Hypothesis ROWS : forall c, (0 <= c < nd)%Z -> row_of (ci_weights s') c = tested_row srt (memd c) (mem c) g (cell_at d1 nx ny c) (cell_at e1 mx my) ns.

Lemma in_rng : forall n x, In x (range n) -> (0 <= x < n)%Z.
Proof. intros n x. apply in_range. Qed.

Theorem fractions : forall c k, (0 <= c < nd)%Z -> (0 <= k < ns)%Z -> weight_of (row_of (ci_weights s') c) k = part c k / darea c.
Proof.
  intros c k Hc Hk. rewrite ROWS by auto. unfold tested_row.
  rewrite (row_weight ns _ (fun k => part c k / darea c) (entries c Hc)); [|apply in_rng|apply range_NoDup].
  destruct (in_dec Z.eq_dec k (range ns)) as [_|N]; auto. exfalso. apply N. apply in_range. auto.
Qed.

Theorem fraction_bounds : forall c k, (0 <= c < nd)%Z -> (0 <= k < ns)%Z -> 0 <= part c k / darea c <= 1.
Proof.
  intros c k Hc Hk. destruct (darea_area c Hc ns_pos) as [A P]. assert (PA := part_area c k Hc Hk).
  assert (N := area_nonneg _ _ PA). assert (M := area_mono _ _ _ _ (fun p (H : overlap (dcell c) (scell k) p) => proj1 H) A PA).
  split; [apply Rcomplements.Rdiv_le_0_compat; auto|]. apply (Rmult_le_reg_r (darea c)); auto. unfold Rdiv. rewrite Rmult_assoc, Rinv_l by lra. lra.
Qed.

Theorem fractions_total : forall c, (0 <= c < nd)%Z -> tiles ns scell (dcell c) -> total (map snd (row_of (ci_weights s') c)) = 1.
Proof.
  intros c Hc T. rewrite ROWS by auto. unfold tested_row. rewrite (row_total ns _ (fun k => part c k / darea c) (entries c Hc)) by apply in_rng.
  destruct (darea_area c Hc ns_pos) as [A P].
  assert (E := tiles_area ns scell (dcell c) (darea c) (part c) T A (fun k Hk => part_area c k Hc Hk)).
  rewrite (rsum_ext _ (fun k => / darea c * part c k)) by (intros; unfold Rdiv; ring). rewrite rsum_scale, E. field. lra.
Qed.

Theorem value_at : forall c f, (0 <= c < nd)%Z -> weighted (n0 : R) (row_of (ci_weights s') c) f = rsum (map (fun k => part c k * f k) (range ns)) / darea c.
Proof.
  intros c f Hc. rewrite ROWS by auto. unfold tested_row. rewrite (row_weighted ns _ (fun k => part c k / darea c) (entries c Hc)) by apply in_rng.
  rewrite n0_R, Rplus_0_l. rewrite (rsum_ext _ (fun k => / darea c * (part c k * f k))) by (intros; unfold Rdiv; ring). rewrite rsum_scale. unfold Rdiv. ring.
Qed.

Theorem conservation : forall f Ad As, (forall c, (0 <= c < nd)%Z -> has_area (in_hull (dcell c)) (Ad c)) ->
  (forall k, (0 <= k < ns)%Z -> has_area (in_hull (scell k)) (As k) /\ tiles nd dcell (scell k)) ->
  total (map (fun c => Ad c * weighted (n0 : R) (row_of (ci_weights s') c) f) (range nd)) = total (map (fun k => As k * f k) (range ns)).
Proof.
  intros f Ad As HD HS. rewrite !total_rsum.
  rewrite (rsum_ext _ (fun c => rsum (map (fun k => part c k * f k) (range ns)))).
  - rewrite rsum_swap. apply rsum_ext. intros k Hk. apply in_range in Hk. destruct (HS k Hk) as [HA HT].
    rewrite (rsum_ext _ (fun c => f k * part c k)) by (intros; ring). rewrite rsum_scale.
    rewrite (tiles_area nd dcell (scell k) (As k) (fun c => part c k) HT HA); [ring|].
    intros c Hc. apply (area_ext (overlap (dcell c) (scell k))); [|apply part_area; auto]. intros p. unfold overlap. tauto.
  - intros c Hc. apply in_range in Hc. rewrite value_at by auto. destruct (darea_area c Hc ns_pos) as [A P].
    rewrite (area_unique _ _ _ (HD c Hc) A). field. lra.
Qed.

End Computed.
End Conserve.
