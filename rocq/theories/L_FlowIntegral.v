(** The weights of a parallelogram cell are the line integral of the interpolated field. *)
From Coq Require Import ZArith List Bool Reals Lra Lia Permutation.
From Coquelicot Require Import Coquelicot.
From Verif Require Import Base Num NumR M_BoxIterator M_LinearSolve M_FindPoint M_Triangulate M_Quad M_QuadLine M_FlowInterp
  S_LinAlg S_Geometry S_Quad S_Grid S_Flow S_FlowTable S_FlowIntegral S_Sort S_Array L_LinearSolve L_Box2 L_Hull L_Quad L_QuadLine L_Flow L_FlowFind L_FlowInterp
  L_FlowGen L_FlowPar L_FlowTotal L_FlowPath L_FlowRev.
Import ListNotations.
Open Scope R_scope.

(** Integral from a to b along the straight line, in a parallelogram. *)
Definition straight (v0 v1 v2 v3 : R) (q : quad R) (a b : point) : R :=
  let xm := (par_x q a + par_x q b) / 2 in let ym := (par_y q a + par_y q b) / 2 in
  (v0 * (1 - ym) + v1 * ym) * (par_x q b - par_x q a) + (v2 * (1 - xm) + v3 * xm) * (par_y q b - par_y q a).

Lemma par_seg : forall q A B t, par_x q (on_seg A B t) = par_x q A + t * (par_x q B - par_x q A) /\
  par_y q (on_seg A B t) = par_y q A + t * (par_y q B - par_y q A).
Proof. intros q A B t. unfold par_x, par_y, on_seg, cr, Rdiv. cbn [fst snd]. split; ring. Qed.

Lemma straight_add : forall v0 v1 v2 v3 q A B r s t,
  straight v0 v1 v2 v3 q (on_seg A B r) (on_seg A B t) =
  straight v0 v1 v2 v3 q (on_seg A B r) (on_seg A B s) + straight v0 v1 v2 v3 q (on_seg A B s) (on_seg A B t).
Proof.
  intros v0 v1 v2 v3 q A B r s t. unfold straight. rewrite !(proj1 (par_seg q A B _)), !(proj2 (par_seg q A B _)). field.
Qed.

Lemma straight_RInt : forall v0 v1 v2 v3 q A B t0 t1 (x y : R -> R), t0 < t1 ->
  (forall t, t0 < t < t1 -> x t = par_x q (on_seg A B t) /\ y t = par_y q (on_seg A B t)) ->
  is_RInt (fun t => (v0 * (1 - y t) + v1 * y t) * Derive x t + (v2 * (1 - x t) + v3 * x t) * Derive y t) t0 t1
    (straight v0 v1 v2 v3 q (on_seg A B t0) (on_seg A B t1)).
Proof.
  intros v0 v1 v2 v3 q A B t0 t1 x y LT XY.
  set (a := par_x q A). set (a' := par_x q B - a). set (b := par_y q A). set (b' := par_y q B - b).
  assert (E : forall t, t0 < t < t1 -> x t = a + t * a' /\ y t = b + t * b' /\ Derive x t = a' /\ Derive y t = b').
  { intros t Ht.
    assert (D : forall (f : R -> R) c c', (forall u, t0 < u < t1 -> f u = c + u * c') -> Derive f t = c').
    { intros f c c' HF. transitivity (Derive (fun u => c + u * c') t).
      - apply Derive_ext_loc. assert (HE : 0 < Rmin (t - t0) (t1 - t)) by (apply Rmin_glb_lt; lra). exists (mkposreal _ HE).
        intros u Hu. apply HF. unfold ball in Hu. cbn in Hu. unfold AbsRing_ball, abs, minus, plus, opp in Hu. cbn in Hu.
        apply Rabs_def2 in Hu. assert (H1 := Rmin_l (t - t0) (t1 - t)). assert (H2 := Rmin_r (t - t0) (t1 - t)). lra.
      - apply is_derive_unique. auto_derive; auto. ring. }
    assert (X : forall u, t0 < u < t1 -> x u = a + u * a') by (intros u Hu; rewrite (proj1 (XY u Hu)), (proj1 (par_seg q A B u)); unfold a', a; ring).
    assert (Y : forall u, t0 < u < t1 -> y u = b + u * b') by (intros u Hu; rewrite (proj2 (XY u Hu)), (proj2 (par_seg q A B u)); unfold b', b; ring).
    rewrite (X t Ht), (Y t Ht), (D x a a' X), (D y b b' Y). auto. }
  apply (is_RInt_ext (fun t => (v0 * (1 - (b + t * b')) + v1 * (b + t * b')) * a' + (v2 * (1 - (a + t * a')) + v3 * (a + t * a')) * b')).
  { intros t Ht. rewrite Rmin_left, Rmax_right in Ht by lra. destruct (E t Ht) as (-> & -> & -> & ->). reflexivity. }
  set (F := fun t => a' * (v0 * (t - (b * t + b' * t ^ 2 / 2)) + v1 * (b * t + b' * t ^ 2 / 2)) + b' * (v2 * (t - (a * t + a' * t ^ 2 / 2)) + v3 * (a * t + a' * t ^ 2 / 2))).
  replace (straight v0 v1 v2 v3 q (on_seg A B t0) (on_seg A B t1)) with (minus (F t1) (F t0)).
  - apply (is_RInt_derive F).
    + intros t _. unfold F. auto_derive; auto. field.
    + intros t _. apply (ex_derive_continuous (V := R_NormedModule)). auto_derive. auto.
  - unfold straight. rewrite !(proj1 (par_seg q A B _)), !(proj2 (par_seg q A B _)). fold a b a' b'.
    unfold minus, plus, opp, F. cbn. field.
Qed.

(** ** The specification on parallelograms *)
Lemma corners_nodes : forall nx ny i j, corners nx ny i j = nodes (cell_quad nx ny i j).
Proof. reflexivity. Qed.

Lemma flux_straight : forall nx ny h0 h1 i j A B I, parallelogram (cell_quad nx ny i j) -> cell_flux nx ny h0 h1 i j A B I ->
  (forall t t', 0 <= t <= 1 -> 0 <= t' <= 1 -> in_hull (corners nx ny i j) (on_seg A B t) -> in_hull (corners nx ny i j) (on_seg A B t') -> t = t') /\
    I = 0 \/
  exists t0 t1, 0 <= t0 < t1 /\ t1 <= 1 /\ (forall t, 0 <= t <= 1 -> (in_hull (corners nx ny i j) (on_seg A B t) <-> t0 <= t <= t1)) /\
    I = straight (h0 i j) (h0 i (j + 1)%Z) (h1 i j) (h1 (i + 1)%Z j) (cell_quad nx ny i j) (on_seg A B t0) (on_seg A B t1).
Proof.
  intros nx ny h0 h1 i j A B I PA [H|(t0 & t1 & x & y & T0 & T1 & IN & XY & RI)]; [left; exact H|right].
  exists t0, t1. split; auto. split; auto. split; auto.
  set (q := cell_quad nx ny i j) in *.
  assert (RI' := straight_RInt (h0 i j) (h0 i (j + 1)%Z) (h1 i j) (h1 (i + 1)%Z j) q A B t0 t1 x y ltac:(lra)).
  assert (H : forall t, t0 < t < t1 -> x t = par_x q (on_seg A B t) /\ y t = par_y q (on_seg A B t)).
  { intros t Ht. destruct (XY t ltac:(lra)) as (_ & _ & _ & _ & E). apply frame_uniq; auto. rewrite E. apply (par_map q); auto. }
  specialize (RI' H). rewrite <- (is_RInt_unique (V := R_CompleteNormedModule) _ _ _ _ RI). apply (is_RInt_unique (V := R_CompleteNormedModule)) in RI'. exact RI'.
Qed.

Lemma straight_flux : forall nx ny h0 h1 i j A B t0 t1, parallelogram (cell_quad nx ny i j) -> 0 <= t0 < t1 -> t1 <= 1 ->
  (forall t, 0 <= t <= 1 -> (in_hull (corners nx ny i j) (on_seg A B t) <-> t0 <= t <= t1)) ->
  cell_flux nx ny h0 h1 i j A B
    (straight (h0 i j) (h0 i (j + 1)%Z) (h1 i j) (h1 (i + 1)%Z j) (cell_quad nx ny i j) (on_seg A B t0) (on_seg A B t1)).
Proof.
  intros nx ny h0 h1 i j A B t0 t1 PA T0 T1 IN. right. set (q := cell_quad nx ny i j) in *.
  exists t0, t1, (fun t => par_x q (on_seg A B t)), (fun t => par_y q (on_seg A B t)). split; auto. split; auto. split; auto.
  split; [|apply straight_RInt; [lra|auto]].
  intros t Ht. assert (HH := proj2 (IN t ltac:(lra)) Ht). apply (par_hull q) in HH; auto. destruct HH as [Hx Hy].
  split; auto. split; auto. split; [|split].
  - apply (ex_derive_ext (fun t => par_x q A + t * (par_x q B - par_x q A))); [intros u; symmetry; apply par_seg|]. auto_derive. auto.
  - apply (ex_derive_ext (fun t => par_y q A + t * (par_y q B - par_y q A))); [intros u; symmetry; apply par_seg|]. auto_derive. auto.
  - etransitivity; [apply (frame_id q); auto|]. symmetry. apply (par_map q); auto.
Qed.

(** The value is determined. *)
Lemma cell_flux_unique : forall nx ny h0 h1 i j A B I I', parallelogram (cell_quad nx ny i j) ->
  cell_flux nx ny h0 h1 i j A B I -> cell_flux nx ny h0 h1 i j A B I' -> I = I'.
Proof.
  intros nx ny h0 h1 i j A B I I' PA H H'. apply flux_straight in H; auto. apply flux_straight in H'; auto.
  assert (D : forall t0 t1, 0 <= t0 < t1 -> t1 <= 1 -> (forall t, 0 <= t <= 1 -> (in_hull (corners nx ny i j) (on_seg A B t) <-> t0 <= t <= t1)) ->
    ~ forall t t', 0 <= t <= 1 -> 0 <= t' <= 1 -> in_hull (corners nx ny i j) (on_seg A B t) -> in_hull (corners nx ny i j) (on_seg A B t') -> t = t').
  { intros t0 t1 T0 T1 IN U. assert (X := U t0 t1 ltac:(lra) ltac:(lra) ltac:(apply IN; lra) ltac:(apply IN; lra)). lra. }
  destruct H as [[U ->]|(t0 & t1 & T0 & T1 & IN & ->)], H' as [[U' ->]|(s0 & s1 & S0 & S1 & IN' & ->)]; auto.
  - destruct (D _ _ S0 S1 IN' U).
  - destruct (D _ _ T0 T1 IN U').
  - assert (A0 := proj1 (IN' t0 ltac:(lra)) (proj2 (IN t0 ltac:(lra)) ltac:(lra))).
    assert (A1 := proj1 (IN' t1 ltac:(lra)) (proj2 (IN t1 ltac:(lra)) ltac:(lra))).
    assert (B0 := proj1 (IN s0 ltac:(lra)) (proj2 (IN' s0 ltac:(lra)) ltac:(lra))).
    assert (B1 := proj1 (IN s1 ltac:(lra)) (proj2 (IN' s1 ltac:(lra)) ltac:(lra))).
    assert (s0 = t0) by lra. assert (s1 = t1) by lra. subst. reflexivity.
Qed.

(** ** The code *)
Section Cell.
Variable g : gels R.
Hypothesis G : gels_spec g 2 2.
Variable srt : (R -> R -> bool) -> list R -> list R.
Hypothesis ST : sorts srt.

Lemma ix_par : forall q p, parallelogram q -> in_hull (nodes q) p -> ix g q p = par_x q p /\ iy g q p = par_y q p.
Proof.
  intros q p PA HH. apply par_hull in HH; auto. destruct HH as [Hx Hy].
  destruct (find_par g q (fresh q) p (par_x q p) (par_y q p) G (fresh_ready q) PA Hx Hy (frame_id q p PA)) as (f' & E & _).
  unfold ix, iy, found. rewrite E. cbn. auto.
Qed.

Definition dot4 (v0 v1 v2 v3 : R) (w : list R) : R := nth 0 w 0 * v0 + nth 1 w 0 * v1 + nth 2 w 0 * v2 + nth 3 w 0 * v3.

Lemma proj_straight : forall v0 v1 v2 v3 q a b, parallelogram q -> in_hull (nodes q) a -> in_hull (nodes q) b ->
  pj g 0 q a b * v0 + pj g 1 q a b * v1 + pj g 2 q a b * v2 + pj g 3 q a b * v3 = straight v0 v1 v2 v3 q a b.
Proof.
  intros v0 v1 v2 v3 q a b PA HA HB. unfold pj, proj. destruct (ix_par q a PA HA) as [-> ->]. destruct (ix_par q b PA HB) as [-> ->].
  unfold projections, straight. rewrite nhalf_R. change (n1 : R) with 1. cbn [nmul nadd nsub NumR nth]. field.
Qed.

Lemma path_straight : forall v0 v1 v2 v3 q A B rest t0, parallelogram q -> (forall t, In t (t0 :: rest) -> in_hull (nodes q) (on_seg A B t)) ->
  dot4 v0 v1 v2 v3 (path g q (map (fun t => M_Quad.along A B t) (t0 :: rest)) [n0; n0; n0; n0]) =
  straight v0 v1 v2 v3 q (on_seg A B t0) (on_seg A B (last rest t0)).
Proof.
  intros v0 v1 v2 v3 q A B rest t0 PA HI. rewrite path_sum. unfold dot4. cbn [nth]. change (n0 : R) with 0.
  revert t0 HI. induction rest as [|t1 rest IH]; intros t0 HI.
  - cbn [map last]. unfold psum. unfold straight. field.
  - rewrite last_cons. rewrite (straight_add _ _ _ _ q A B t0 t1). rewrite <- IH by (intros t Ht; apply HI; right; exact Ht).
    rewrite <- proj_straight by (auto; apply HI; cbn; auto). rewrite <- (on_seg_along A B t0), <- (on_seg_along A B t1).
    cbn [map]. set (p0 := M_Quad.along A B t0). set (p1 := M_Quad.along A B t1). set (ps := map _ rest).
    assert (E : forall f, psum f (p0 :: p1 :: ps) = f p0 p1 + psum f (p1 :: ps)) by reflexivity. rewrite !E. ring.
Qed.

Definition entry_value (v0 v1 v2 v3 : R) (es : list (Z * list R)) : R :=
  match es with [] => 0 | e :: _ => dot4 v0 v1 v2 v3 (snd e) end.

Lemma cell_entry_flux : forall nx ny h0 h1 i j A B c, parallelogram (cell_quad nx ny i j) ->
  no_near_miss qtolR (nx i j, ny i j) (nx (i + 1)%Z j, ny (i + 1)%Z j) (nx (i + 1)%Z (j + 1)%Z, ny (i + 1)%Z (j + 1)%Z) (nx i (j + 1)%Z, ny i (j + 1)%Z) A B ->
  let es := cell_entry g srt (cell_quad nx ny i j) (A, B) c in
  cell_flux nx ny h0 h1 i j A B (entry_value (h0 i j) (h0 i (j + 1)%Z) (h1 i j) (h1 (i + 1)%Z j) es) /\
  (es = [] -> forall t t', 0 <= t <= 1 -> 0 <= t' <= 1 -> in_hull (corners nx ny i j) (on_seg A B t) -> in_hull (corners nx ny i j) (on_seg A B t') -> t = t').
Proof.
  intros nx ny h0 h1 i j A B c PA NM es. set (q := cell_quad nx ny i j) in *.
  destruct (par_convexq q PA) as (sg & CQ & _).
  assert (OKC : flow_cell g q) by (apply (convex_flow_cell g sg); auto).
  assert (IN : forall t, In t (line_lambdas g q (A, B)) -> inside q (A, B) t).
  { apply (no_miss_lambdas g G parallelogram); auto.
    - intros q' PA'. destruct (par_convexq q' PA') as (sg' & CQ' & _). apply (convex_flow_cell g sg'); auto.
    - intros e He [E _]. apply (convex_edges sg q e CQ He E). }
  assert (NO : (forall t t', 0 <= t <= 1 -> 0 <= t' <= 1 -> in_hull (corners nx ny i j) (on_seg A B t) -> in_hull (corners nx ny i j) (on_seg A B t') -> t = t') ->
    entry_value (h0 i j) (h0 i (j + 1)%Z) (h1 i j) (h1 (i + 1)%Z j) [] = 0 /\ cell_flux nx ny h0 h1 i j A B 0).
  { intros U. split; [reflexivity|left; auto]. }
  unfold es, cell_entry. destruct (quad_line_overlap q (A, B)) eqn:OV.
  2:{ assert (U : forall t t', 0 <= t <= 1 -> 0 <= t' <= 1 -> in_hull (corners nx ny i j) (on_seg A B t) -> in_hull (corners nx ny i j) (on_seg A B t') -> t = t').
      { intros t t' Ht _ HH _. exfalso. apply (no_overlap parallelogram q (A, B) t); auto. split; auto. }
      split; [apply NO; auto|auto]. }
  unfold cell_points. cbn [fst snd]. rewrite map_length.
  destruct (ST nlt (line_lambdas g q (A, B))) as [PM AS]. specialize (AS (strict_weak_R _)).
  set (lams := srt nlt (line_lambdas g q (A, B))) in *.
  assert (IL : forall t, In t lams -> inside q (A, B) t) by (intros t Ht; apply IN; eapply Permutation_in; eauto).
  assert (IL' : forall t, In t (line_lambdas g q (A, B)) -> In t lams) by (intros t Ht; eapply Permutation_in; [apply Permutation_sym; exact PM|auto]).
  clearbody lams.
  assert (PART : forall t, inside q (A, B) t -> exists t0 t1, t0 <= t <= t1 /\ In t0 lams /\ In t1 lams /\ forall u, inside q (A, B) u <-> t0 <= u <= t1).
  { intros t Ht. destruct (proj2 OKC (A, B) t Ht) as (t0 & t1 & Bd & J0 & J1 & J). exists t0, t1. auto. }
  destruct (2 <=? length lams)%nat eqn:L2.
  - apply Nat.leb_le in L2. destruct lams as [|x0 rest]; [cbn in L2; lia|].
    destruct (PART x0 (IL x0 (or_introl eq_refl))) as (t0 & t1 & Bd & J0 & J1 & J).
    destruct (sorted_ends (x0 :: rest) x0 rest t0 t1 eq_refl AS J0 J1) as [E0 E1]; [intros t Ht; apply J, IL; auto|].
    split; [|discriminate]. cbn [entry_value snd].
    rewrite path_straight by (auto; intros t Ht; apply (IL t Ht)). rewrite E1, E0.
    assert (HJ : forall t, 0 <= t <= 1 -> (in_hull (corners nx ny i j) (on_seg A B t) <-> t0 <= t <= t1)).
    { intros t Ht. rewrite <- J. unfold inside, P. cbn [fst snd]. rewrite corners_nodes. fold q. tauto. }
    assert (I0 := IL _ J0). assert (I1 := IL _ J1). destruct I0 as [I0 _]. destruct I1 as [I1 _].
    destruct (Req_dec t0 t1) as [->|NE].
    + left. split; [|unfold straight; field]. intros t t' Ht Ht' H H'. apply HJ in H; auto. apply HJ in H'; auto. lra.
    + apply straight_flux; auto; lra.
  - apply Nat.leb_gt in L2.
    assert (U : forall t t', 0 <= t <= 1 -> 0 <= t' <= 1 -> in_hull (corners nx ny i j) (on_seg A B t) -> in_hull (corners nx ny i j) (on_seg A B t') -> t = t').
    { intros t t' Ht Ht' HH HH'. assert (I1 : inside q (A, B) t) by (split; auto). assert (I2 : inside q (A, B) t') by (split; auto).
      destruct (PART t I1) as (t0 & t1 & Bd & J0 & J1 & J). apply J in I2.
      destruct lams as [|y [|]]; [destruct J0| |cbn in L2; lia]. destruct J0 as [<-|[]]. destruct J1 as [<-|[]]. lra. }
    split; [apply NO; auto|auto].
Qed.

End Cell.

Lemma edge_sum_cells : forall g srt d1 h0 h1 cq l cs acc,
  edge_sum d1 h0 h1 acc (cell_entries g srt cq l cs) = acc + fold_right Rplus 0 (map (fun c =>
    entry_value (h0 (c / (d1 - 1))%Z (c mod (d1 - 1))%Z) (h0 (c / (d1 - 1)) (c mod (d1 - 1) + 1))%Z (h1 (c / (d1 - 1))%Z (c mod (d1 - 1))%Z)
      (h1 (c / (d1 - 1) + 1) (c mod (d1 - 1)))%Z (cell_entry g srt (cq c) l c)) cs).
Proof.
  intros g srt d1 h0 h1 cq l. induction cs as [|c cs IH]; intros acc; [cbn; ring|].
  unfold cell_entries in *. cbn [flat_map map fold_right]. unfold cell_entry at 1 3. destruct (quad_line_overlap (cq c) l).
  2:{ cbn [app entry_value]. rewrite IH. ring. }
  destruct (2 <=? _)%nat; [|cbn [app entry_value]; rewrite IH; ring].
  cbn [app edge_sum entry_value snd]. rewrite IH. cbn [nadd nmul NumR]. unfold dot4. change (n0 : R) with 0. ring.
Qed.

(** ** A segment in two parts *)
Lemma on_seg_nest : forall A B m t, on_seg A (on_seg A B m) t = on_seg A B (m * t) /\ on_seg (on_seg A B m) B t = on_seg A B (m + t * (1 - m)).
Proof. intros A B m t. unfold on_seg. cbn [fst snd]. split; apply pair_eq; cbn [fst snd]; ring. Qed.

Lemma cell_flux_split : forall nx ny h0 h1 i j A B m I I1 I2, parallelogram (cell_quad nx ny i j) -> 0 < m < 1 ->
  cell_flux nx ny h0 h1 i j A B I -> cell_flux nx ny h0 h1 i j A (on_seg A B m) I1 -> cell_flux nx ny h0 h1 i j (on_seg A B m) B I2 -> I = I1 + I2.
Proof.
  intros nx ny h0 h1 i j A B m I I1 I2 PA Hm HI H1 H2. set (q := cell_quad nx ny i j) in *.
  set (M := on_seg A B m) in *.
  assert (Z1 : (forall t t', 0 <= t <= m -> 0 <= t' <= m -> in_hull (corners nx ny i j) (on_seg A B t) -> in_hull (corners nx ny i j) (on_seg A B t') -> t = t') ->
    cell_flux nx ny h0 h1 i j A M 0).
  { intros U. left. split; auto. intros t t' Ht Ht'. unfold M. rewrite !(proj1 (on_seg_nest A B m _)). intros H H'.
    assert (X := U (m * t) (m * t') ltac:(nra) ltac:(nra) H H'). apply Rmult_eq_reg_l in X; lra. }
  assert (Z2 : (forall t t', m <= t <= 1 -> m <= t' <= 1 -> in_hull (corners nx ny i j) (on_seg A B t) -> in_hull (corners nx ny i j) (on_seg A B t') -> t = t') ->
    cell_flux nx ny h0 h1 i j M B 0).
  { intros U. left. split; auto. intros t t' Ht Ht'. unfold M. rewrite !(proj2 (on_seg_nest A B m _)). intros H H'.
    assert (X := U (m + t * (1 - m)) (m + t' * (1 - m)) ltac:(nra) ltac:(nra) H H'). apply (Rmult_eq_reg_r (1 - m)); lra. }
  set (K := straight (h0 i j) (h0 i (j + 1)%Z) (h1 i j) (h1 (i + 1)%Z j) q).
  assert (F1 : forall t0 t1, 0 <= t0 < t1 -> t1 <= m -> (forall t, 0 <= t <= m -> (in_hull (corners nx ny i j) (on_seg A B t) <-> t0 <= t <= t1)) ->
    cell_flux nx ny h0 h1 i j A M (K (on_seg A B t0) (on_seg A B t1))).
  { intros t0 t1 T0 T1 IN. assert (D0 : t0 / m < t1 / m) by (apply Rmult_lt_compat_r; [apply Rinv_0_lt_compat|]; lra).
    assert (E0 : m * (t0 / m) = t0) by (field; lra). assert (E1 : m * (t1 / m) = t1) by (field; lra).
    rewrite <- E0, <- E1, <- !(proj1 (on_seg_nest A B m _)). apply straight_flux; auto; try (split; nra); try nra.
    intros t Ht. rewrite (proj1 (on_seg_nest A B m t)), IN by nra. split; intros; split; nra. }
  assert (F2 : forall t0 t1, m <= t0 < t1 -> t1 <= 1 -> (forall t, m <= t <= 1 -> (in_hull (corners nx ny i j) (on_seg A B t) <-> t0 <= t <= t1)) ->
    cell_flux nx ny h0 h1 i j M B (K (on_seg A B t0) (on_seg A B t1))).
  { intros t0 t1 T0 T1 IN. assert (D0 : (t0 - m) / (1 - m) < (t1 - m) / (1 - m)) by (apply Rmult_lt_compat_r; [apply Rinv_0_lt_compat|]; lra).
    assert (E0 : m + (t0 - m) / (1 - m) * (1 - m) = t0) by (field; lra). assert (E1 : m + (t1 - m) / (1 - m) * (1 - m) = t1) by (field; lra).
    set (u0 := (t0 - m) / (1 - m)) in *. set (u1 := (t1 - m) / (1 - m)) in *. clearbody u0 u1.
    rewrite <- E0, <- E1, <- !(proj2 (on_seg_nest A B m _)). apply straight_flux; auto; try (split; nra); try nra.
    intros t Ht. rewrite (proj2 (on_seg_nest A B m t)), IN by nra. split; intros; split; nra. }
  apply flux_straight in HI; auto. destruct HI as [[U ->]|(t0 & t1 & T0 & T1 & IN & ->)].
  - rewrite <- (cell_flux_unique _ _ _ _ _ _ _ _ _ _ PA (Z1 ltac:(intros; apply U; auto; lra)) H1).
    rewrite <- (cell_flux_unique _ _ _ _ _ _ _ _ _ _ PA (Z2 ltac:(intros; apply U; auto; lra)) H2). ring.
  - fold q. fold K. destruct (Rle_dec t1 m) as [L|L]; [|destruct (Rle_dec m t0) as [L'|L']].
    + rewrite <- (cell_flux_unique _ _ _ _ _ _ _ _ _ _ PA (F1 t0 t1 T0 L ltac:(intros; apply IN; lra)) H1).
      assert (Y : cell_flux nx ny h0 h1 i j M B 0). { apply Z2. intros t t' Ht Ht' H H'. apply IN in H; [|lra]. apply IN in H'; [|lra]. lra. }
      rewrite <- (cell_flux_unique _ _ _ _ _ _ _ _ _ _ PA Y H2). ring.
    + rewrite <- (cell_flux_unique _ _ _ _ _ _ _ _ _ _ PA (F2 t0 t1 ltac:(lra) T1 ltac:(intros; apply IN; lra)) H2).
      assert (Y : cell_flux nx ny h0 h1 i j A M 0). { apply Z1. intros t t' Ht Ht' H H'. apply IN in H; [|lra]. apply IN in H'; [|lra]. lra. }
      rewrite <- (cell_flux_unique _ _ _ _ _ _ _ _ _ _ PA Y H1). ring.
    + rewrite <- (cell_flux_unique _ _ _ _ _ _ _ _ _ _ PA (F1 t0 m ltac:(lra) ltac:(lra) ltac:(intros; rewrite IN by lra; lra)) H1).
      rewrite <- (cell_flux_unique _ _ _ _ _ _ _ _ _ _ PA (F2 m t1 ltac:(lra) T1 ltac:(intros; rewrite IN by lra; lra)) H2).
      apply straight_add.
Qed.
