(** Properties C25-C28: intersection of two quads. *)
From Coq Require Import ZArith List Bool Reals Lra Lia Floats.SpecFloat.
From Verif Require Import Base Num NumR NumF M_LinearSolve M_Triangulate M_Quad M_QuadIntersect S_LinAlg S_Geometry S_Quad
  L_LinearSolve L_Cramer L_Hull L_Solve2 L_Quad L_QuadIntersect L_Float L_QuadBoxF.
Import ListNotations.
Open Scope R_scope.

(** The four nodes of a quad. *)
Definition corners (q : quad R) : list point := [q0 q; q1 q; q2 q; q3 q].

(** The unit square, the unit square moved by (x, y), and a diamond. *)
Definition square (x y : R) : quad R := mkQuad (x, y) (x + 1, y) (x + 1, y + 1) (x, y + 1).

(** C25: quads whose boxes do not overlap have no common point; the order does not matter. *)
Theorem C25_box_rejection : forall a b : quad R,
  (boxes_overlap a b = false -> forall p, ~ (in_hull (corners a) p /\ in_hull (corners b) p)) /\
  boxes_overlap a b = boxes_overlap b a.
Proof. intros a b. split; [intros H p [A B]; exact (boxes_sound a b H p A B)|apply boxes_sym]. Qed.
Print Assumptions C25_box_rejection.

(** The same with the comparisons of IEEE doubles, for quads with finite coordinates. *)
Theorem C25_box_rejection_ieee : forall a b : quad spec_float, dblq a -> dblq b ->
  (boxes_overlap a b = false -> forall p, ~ (in_hull (corners (valq a)) p /\ in_hull (corners (valq b)) p)) /\
  boxes_overlap a b = boxes_overlap b a.
Proof.
  intros a b Ha Hb. rewrite !boxes_val; auto. apply C25_box_rejection.
Qed.
Print Assumptions C25_box_rejection_ieee.

(** Two squares one apart, in doubles: rejected; half apart: not rejected. *)
Definition fsquare (n d : Z) : quad spec_float :=
  mkQuad (lit n d, nofZ 0) (lit (n + d) d, nofZ 0) (lit (n + d) d, nofZ 1) (lit n d, nofZ 1).
Example C25_example : dblq (fsquare 0 1) /\ dblq (fsquare 11 10) /\
  boxes_overlap (fsquare 0 1) (fsquare 11 10) = false /\ boxes_overlap (fsquare 0 1) (fsquare 1 2) = true.
Proof. repeat split; vm_compute; reflexivity. Qed.

(** C26: every point returned by a fresh object is in both quads: it is a combination of the
    nodes of each with weights not below -1.e-12.  The quads may be anything but one whose
    nodes 0, 1, 3 or nodes 1, 2, 3 coincide. *)
Theorem C26_points_in_both : forall g (a b : quad R) pts s, gels_spec g 2 2 ->
  qi_collect g (qi_setQuadPoints qi_new a b) = Ret (pts, s) ->
  (forall q, q = a \/ q = b -> ~ (q0 q = q1 q /\ q0 q = q3 q) /\ ~ (q2 q = q3 q /\ q2 q = q1 q)) ->
  forall p, In p pts -> combination (/ 10 ^ 12) (corners a) p /\ combination (/ 10 ^ 12) (corners b) p.
Proof.
  intros g a b pts s G H NC p Hp. unfold qi_collect, qi_setQuadPoints, qi_new in H. cbn [qi_quads qi_points app] in H.
  injection H as <- _. apply (points_sound g G a b p); auto; apply NC; auto.
Qed.
Print Assumptions C26_points_in_both.

(** Without the condition it is false: a quad whose nodes 0, 1 and 3 are the same contains
    everything, because the solver reports success for a zero matrix.  Here a square and a
    segment ten units away. *)
Theorem C26_points_in_both_refuted : forall g, gels_spec g 2 2 ->
  let a := mkQuad (10, 0) (10, 0) (11, 0) (10, 0) in
  exists pts s, qi_collect g (qi_setQuadPoints qi_new a (square 0 0)) = Ret (pts, s) /\
    In (0, 0) pts /\ ~ combination (/ 10 ^ 12) (corners a) (0, 0).
Proof.
  intros g G a. eexists. eexists. split; [reflexivity|]. split.
  - cbn [qi_setQuadPoints qi_new qi_points app]. unfold quad_points. apply in_or_app. right. apply in_or_app. left.
    apply filter_In. split; [left; unfold square; cbn [q0]; reflexivity|].
    unfold in_cell, quad_inside. rewrite qi_tol_R. apply orb_true_iff. left. apply tri_collapsed; auto using tol_pos.
  - intros (w & L & F & S & X & _). cbn [corners a q0 q1 q2 q3 map fst snd] in *.
    destruct w as [|w0 [|w1 [|w2 [|w3 [|]]]]]; try discriminate L. cbn [wsum] in *.
    apply Forall_inv_tail, Forall_inv_tail, Forall_inv in F. lra.
Qed.
Print Assumptions C26_points_in_both_refuted.

(** C27: for strictly convex quads whose edges do not meet within the tolerance of an end,
    the common part of the two quads is in the hull of the points returned. *)
Theorem C27_points_span_overlap : forall g (a b : quad R) pts s, gels_spec g 2 2 ->
  qi_collect g (qi_setQuadPoints qi_new a b) = Ret (pts, s) ->
  convex4 (q0 a) (q1 a) (q2 a) (q3 a) -> convex4 (q0 b) (q1 b) (q2 b) (q3 b) ->
  (forall e f, In e [(q0 a, q1 a); (q1 a, q2 a); (q2 a, q3 a); (q3 a, q0 a)] ->
     In f [(q0 b, q1 b); (q1 b, q2 b); (q2 b, q3 b); (q3 b, q0 b)] ->
     clear_crossing (/ 10 ^ 12) (fst e) (snd e) (fst f) (snd f)) ->
  forall p, in_hull (corners a) p -> in_hull (corners b) p -> in_hull pts p.
Proof.
  intros g a b pts s G H CA CB CL p HA HB. unfold qi_collect, qi_setQuadPoints, qi_new in H. cbn [qi_quads qi_points app] in H.
  injection H as <- _. apply (points_complete g G a b p); auto.
Qed.
Print Assumptions C27_points_span_overlap.

(** The unit square and the square moved by (1/2, 1/2) meet the hypotheses of C26 and C27, and
    have the common points of the square from (1/2, 1/2) to (1, 1). *)
Lemma gels2_ok : gels_spec gels2 2 2. Proof. exact gels2_spec22. Qed.

Example C27_example : exists pts s,
  qi_collect gels2 (qi_setQuadPoints qi_new (square 0 0) (square (1 / 2) (1 / 2))) = Ret (pts, s) /\
  in_hull pts (3 / 4, 3 / 4) /\ in_hull pts (1 / 2, 1) /\
  forall p, In p pts -> combination (/ 10 ^ 12) (corners (square 0 0)) p.
Proof.
  eexists. eexists. split; [reflexivity|].
  assert (C : forall x y, convex4 (q0 (square x y)) (q1 (square x y)) (q2 (square x y)) (q3 (square x y))).
  { intros x y. left. unfold cr, square. cbn [q0 q1 q2 q3 fst snd]. lra. }
  assert (CL : forall e f, In e (qedges (square 0 0)) -> In f (qedges (square (1 / 2) (1 / 2))) ->
     clear_crossing (/ 10 ^ 12) (fst e) (snd e) (fst f) (snd f)).
  { intros e f He Hf. simpl in He, Hf.
    destruct He as [<-|[<-|[<-|[<-|[]]]]]; destruct Hf as [<-|[<-|[<-|[<-|[]]]]];
      unfold clear_crossing, on_seg, turn; cbn [fst snd]; intros s t E D Hs Ht; injection E as E1 E2; lra. }
  assert (W : forall x y, 1 / 2 <= x <= 1 -> 1 / 2 <= y <= 1 ->
    in_hull (corners (square 0 0)) (x, y) /\ in_hull (corners (square (1 / 2) (1 / 2))) (x, y)).
  { intros x y Hx Hy. split.
    - exists [(1 - x) * (1 - y); x * (1 - y); x * y; (1 - x) * y]. split; [reflexivity|].
      split; [repeat (constructor; [nra|]); constructor|]. unfold square. cbn [corners map wsum q0 q1 q2 q3 fst snd].
      repeat split; ring.
    - exists [(3 / 2 - x) * (3 / 2 - y); (x - 1 / 2) * (3 / 2 - y); (x - 1 / 2) * (y - 1 / 2); (3 / 2 - x) * (y - 1 / 2)]. split; [reflexivity|].
      split; [repeat (constructor; [nra|]); constructor|]. unfold square. cbn [corners map wsum q0 q1 q2 q3 fst snd].
      repeat split; field. }
  split; [|split].
  - eapply (C27_points_span_overlap gels2 (square 0 0) (square (1 / 2) (1 / 2)) _ _ gels2_ok eq_refl); auto; apply W; lra.
  - eapply (C27_points_span_overlap gels2 (square 0 0) (square (1 / 2) (1 / 2)) _ _ gels2_ok eq_refl); auto; apply W; lra.
  - intros p Hp. eapply (C26_points_in_both gels2 (square 0 0) (square (1 / 2) (1 / 2)) _ _ gels2_ok eq_refl); eauto.
    intros q [-> | ->]; unfold square; cbn [q0 q1 q2 q3]; split; intros [E _]; injection E; intros; lra.
Qed.

(** A run in doubles. *)
Example C27_run : match qi_collect cramer (qi_setQuadPoints qi_new (fsquare 0 1) (fsquare 1 2)) with
  | Ret (pts, _) => pts = [(nofZ 1, nofZ 0); (nofZ 1, nofZ 1); (lit 1 2, nofZ 0); (lit 1 2, nofZ 1)]
  | Undef _ => False end.
Proof. vm_compute. reflexivity. Qed.

(** C28 is false: the second use of an object returns the points of the first pair too.
    Here the second pair of quads is disjoint and four points are returned. *)
Theorem C28_reuse_refuted :
  exists pts s, qi_collect cramer (qi_setQuadPoints (T := spec_float) qi_new (fsquare 0 1) (fsquare 1 2)) = Ret (pts, s) /\
  exists s', qi_collect cramer (qi_setQuadPoints s (fsquare 0 1) (fsquare 5 1)) = Ret (pts, s') /\ length pts = 4%nat /\
  exists s'', qi_collect cramer (qi_setQuadPoints (T := spec_float) qi_new (fsquare 0 1) (fsquare 5 1)) = Ret ([], s'').
Proof. eexists. eexists. split; [vm_compute; reflexivity|]. eexists. split; [vm_compute; reflexivity|]. split; [reflexivity|].
  eexists. vm_compute. reflexivity. Qed.
Print Assumptions C28_reuse_refuted.

(** C28, what holds for any arithmetic: what is returned is what the uses before returned, followed by
    what a fresh object returns for the new pair; after reset it is the latter. *)
Theorem C28_reuse_partial : forall T (N : Num T) g (s0 : qi T) a b a' b' pts s pts' s',
  qi_collect g (qi_setQuadPoints s0 a b) = Ret (pts, s) ->
  qi_collect g (qi_setQuadPoints s a' b') = Ret (pts', s') ->
  exists fresh sf, qi_collect g (qi_setQuadPoints qi_new a' b') = Ret (fresh, sf) /\ pts' = pts ++ fresh /\
  exists sr, qi_collect g (qi_setQuadPoints (qi_reset s) a' b') = Ret (fresh, sr).
Proof.
  intros T N g s0 a b a' b' pts s pts' s' H1 H2. unfold qi_collect, qi_setQuadPoints, qi_new, qi_reset in *.
  cbn [qi_quads qi_points app] in *. injection H1 as <- <-. injection H2 as <- <-. cbn [qi_points].
  eexists. eexists. split; [reflexivity|]. split; [reflexivity|]. eexists. reflexivity.
Qed.
Print Assumptions C28_reuse_partial.
