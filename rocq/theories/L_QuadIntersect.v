(** Intersection of two quads, exact arithmetic. *)
From Coq Require Import ZArith List Bool Reals Lra Lia.
From Verif Require Import Base Num NumR M_LinearSolve M_Triangulate M_Quad M_QuadIntersect S_LinAlg S_Geometry S_Quad
  L_Solve2 L_Polygon L_Hull L_Quad.
Import ListNotations.
Open Scope R_scope.

Definition tolR : R := / 10 ^ 12.

Lemma qi_tol_R : qi_tol (T := R) = tolR.
Proof. unfold qi_tol, tolR. rewrite lit_R. lra. Qed.
Lemma tol_pos : 0 < tolR < 1 / 2.
Proof. unfold tolR. lra. Qed.

(** ** Boxes *)
Theorem boxes_sound : forall a b : quadR, boxes_overlap a b = false ->
  forall p, in_hull (nodes a) p -> in_hull (nodes b) p -> False.
Proof.
  intros a b H p Ha Hb. unfold boxes_overlap in H. apply andb_false_iff in H.
  assert (X1 := hull_x _ p (qmin fst a) (qmax fst a) Ha (fun q Hq => conj (qmin_le fst a q Hq) (qmax_ge fst a q Hq))).
  assert (X2 := hull_x _ p (qmin fst b) (qmax fst b) Hb (fun q Hq => conj (qmin_le fst b q Hq) (qmax_ge fst b q Hq))).
  assert (Y1 := hull_y _ p (qmin snd a) (qmax snd a) Ha (fun q Hq => conj (qmin_le snd a q Hq) (qmax_ge snd a q Hq))).
  assert (Y2 := hull_y _ p (qmin snd b) (qmax snd b) Hb (fun q Hq => conj (qmin_le snd b q Hq) (qmax_ge snd b q Hq))).
  destruct H as [H|H]; apply Rleb_false in H.
  - destruct (smin_one (qmax fst a) (qmax fst b)) as [E|E], (smax_one (qmin fst a) (qmin fst b)) as [F|F];
      rewrite E, F in H; lra.
  - destruct (smin_one (qmax snd a) (qmax snd b)) as [E|E], (smax_one (qmin snd a) (qmin snd b)) as [F|F];
      rewrite E, F in H; lra.
Qed.

Theorem boxes_sym : forall a b : quadR, boxes_overlap a b = boxes_overlap b a.
Proof.
  assert (M : forall x y : R, smin x y = smin y x).
  { intros. unfold smin. cbn [nlt NumR]. destruct (Rltb x y) eqn:E, (Rltb y x) eqn:F;
      rewrite ?Rltb_true, ?Rltb_false in *; lra. }
  assert (M' : forall x y : R, smax x y = smax y x).
  { intros. unfold smax. cbn [nlt NumR]. destruct (Rltb x y) eqn:E, (Rltb y x) eqn:F;
      rewrite ?Rltb_true, ?Rltb_false in *; lra. }
  intros a b. unfold boxes_overlap. rewrite (M (qmax fst a)), (M (qmax snd a)), (M' (qmin fst a)), (M' (qmin snd a)). reflexivity.
Qed.

(** ** The solver on the two kinds of systems *)
Section Solver.
Variable g : gels R.
Hypothesis G : gels_spec g 2 2.

(** Edges. *)
Lemma edge_edge_sound : forall a b c d p, In p (edge_edge g a b c d) ->
  exists s t, p = on_seg a b s /\ p = on_seg c d t /\ tolR < s <= 1 - tolR /\ tolR < t <= 1 - tolR /\ turn a b c d <> 0.
Proof.
  intros a b c d p H. unfold edge_edge in H. cbn [nsub NumR] in H.
  assert (S := solve2_spec g G (fst b - fst a) (fst c - fst d) (snd b - snd a) (snd c - snd d) (fst c - fst a) (snd c - snd a)).
  cbv zeta in S.
  destruct (solve2 g _ _ _ _ _ _) as [ier [xi eta]]. cbn [fst snd] in S. destruct S as (S1 & S2 & S3).
  destruct (0 <? ier)%Z eqn:I; [destruct H|]. apply Z.ltb_ge in I.
  destruct (_ && _) eqn:B; [|destruct H]. destruct H as [<-|[]].
  rewrite !andb_true_iff in B. destruct B as [[[H1 H2] H3] H4].
  apply Rltb_true in H1. apply Rleb_true in H2. apply Rltb_true in H3. apply Rleb_true in H4.
  rewrite qi_tol_R, ?n1_R in *. cbn [nsub NumR] in *. pose proof tol_pos.
  destruct (Req_dec ((fst b - fst a) * (snd c - snd d) - (fst c - fst d) * (snd b - snd a)) 0) as [D|D].
  - exfalso.
    destruct (Req_dec (fst b - fst a) 0) as [E1|E1]; [|assert (0 < ier)%Z; [apply S2; auto; tauto|lia]].
    destruct (Req_dec (fst c - fst d) 0) as [E2|E2]; [|assert (0 < ier)%Z; [apply S2; auto; tauto|lia]].
    destruct (Req_dec (snd b - snd a) 0) as [E3|E3]; [|assert (0 < ier)%Z; [apply S2; auto; tauto|lia]].
    destruct (Req_dec (snd c - snd d) 0) as [E4|E4]; [|assert (0 < ier)%Z; [apply S2; auto; tauto|lia]].
    destruct (S3 E1 E2 E3 E4) as (_ & -> & _). lra.
  - destruct (S1 D) as (_ & Q1 & Q2). exists xi, eta. repeat split; try lra.
    + apply pair_eq; cbn [fst snd along nadd nmul nsub NumR]; unfold on_seg; cbn [fst snd]; lra.
    + unfold turn. lra.
Qed.

Lemma edge_edge_complete : forall a b c d s t, on_seg a b s = on_seg c d t -> turn a b c d <> 0 ->
  tolR < s <= 1 - tolR -> tolR < t <= 1 - tolR -> In (on_seg a b s) (edge_edge g a b c d).
Proof.
  intros a b c d s t E D Hs Ht. unfold edge_edge. cbn [nsub NumR].
  assert (S := solve2_spec g G (fst b - fst a) (fst c - fst d) (snd b - snd a) (snd c - snd d) (fst c - fst a) (snd c - snd a)).
  cbv zeta in S.
  destruct (solve2 g _ _ _ _ _ _) as [ier [x y]]. cbn [fst snd] in S. destruct S as (S1 & _ & _).
  unfold on_seg in E. injection E as P1 P2. unfold turn in D.
  set (d' := (fst b - fst a) * (snd c - snd d) - (fst c - fst d) * (snd b - snd a)) in *.
  assert (D' : d' <> 0) by (unfold d'; lra).
  destruct (S1 D') as (-> & Q1 & Q2). cbn [Z.ltb Z.compare].
  assert (Ex : x = s).
  { apply (Rmult_eq_reg_l d'); auto. unfold d'.
    replace (((fst b - fst a) * (snd c - snd d) - (fst c - fst d) * (snd b - snd a)) * x) with
      ((snd c - snd d) * ((fst b - fst a) * x + (fst c - fst d) * y) - (fst c - fst d) * ((snd b - snd a) * x + (snd c - snd d) * y)) by ring.
    rewrite Q1, Q2.
    assert (F1 : s * (fst b - fst a) + t * (fst c - fst d) = fst c - fst a) by lra.
    assert (F2 : s * (snd b - snd a) + t * (snd c - snd d) = snd c - snd a) by lra.
    rewrite <- F1, <- F2. ring. }
  assert (Ey : y = t).
  { apply (Rmult_eq_reg_l d'); auto. unfold d'.
    replace (((fst b - fst a) * (snd c - snd d) - (fst c - fst d) * (snd b - snd a)) * y) with
      ((fst b - fst a) * ((snd b - snd a) * x + (snd c - snd d) * y) - (snd b - snd a) * ((fst b - fst a) * x + (fst c - fst d) * y)) by ring.
    rewrite Q1, Q2.
    assert (F1 : s * (fst b - fst a) + t * (fst c - fst d) = fst c - fst a) by lra.
    assert (F2 : s * (snd b - snd a) + t * (snd c - snd d) = snd c - snd a) by lra.
    rewrite <- F1, <- F2. ring. }
  subst x y. rewrite qi_tol_R, n1_R. cbn [nsub NumR nlt nle].
  assert (B : Rltb tolR s && Rleb s (1 - tolR) && Rltb tolR t && Rleb t (1 - tolR) = true).
  { rewrite !andb_true_iff. repeat split; apply Rltb_true || apply Rleb_true; lra. }
  rewrite B. simpl. auto.
Qed.

(** ** Soundness: points are in both quads *)
Theorem points_sound : forall a b p, not_collapsed a -> not_collapsed b -> In p (quad_points g a b) ->
  combination tolR (nodes a) p /\ combination tolR (nodes b) p.
Proof.
  intros a b p Na Nb H. unfold quad_points in H. pose proof tol_pos.
  rewrite !in_app_iff in H. destruct H as [H|[H|H]].
  - unfold nodes_inside in H. apply filter_In in H. destruct H as [H1 H2].
    split; [apply (hull_comb tolR tol_pos), hull_member; exact H1|apply (quad_inside_sound g G tolR tol_pos); auto; rewrite <- qi_tol_R; auto].
  - unfold nodes_inside in H. apply filter_In in H. destruct H as [H1 H2].
    split; [apply (quad_inside_sound g G tolR tol_pos); auto; rewrite <- qi_tol_R; auto|apply (hull_comb tolR tol_pos), hull_member; exact H1].
  - apply in_flat_map in H. destruct H as (e1 & He1 & H). apply in_flat_map in H. destruct H as (e2 & He2 & H).
    apply edge_edge_sound in H. destruct H as (s & t & E1 & E2 & Hs & Ht & _).
    split; apply (hull_comb tolR tol_pos); [rewrite E1|rewrite E2]; apply seg_in_hull; auto; lra.
Qed.

(** ** Completeness for convex quads *)
(** A point on an edge of [a] and in [b] is in the hull of the nodes of [a] in [b] and of the
    points where edges cross. *)
Lemma edge_hull : forall (V : list point) sa a sb b e p, convexq sa a -> convexq sb b -> In e (qedges a) ->
  (forall x, In x (nodes a) -> in_quad sb b x -> in_hull V x) ->
  (forall x f s t, In f (qedges b) -> turn (fst e) (snd e) (fst f) (snd f) <> 0 -> x = on_seg (fst e) (snd e) s ->
     x = on_seg (fst f) (snd f) t -> 0 <= s <= 1 -> 0 <= t <= 1 -> in_quad sb b x -> in_hull V x) ->
  in_quad sa a p -> in_quad sb b p -> cr (fst e) (snd e) p = 0 -> in_hull V p.
Proof.
  intros V sa a sb b e p CA CB He HN HX HA HB Z.
  destruct (edge_param sa a e p CA He HA Z) as (s & Hs & Ep).
  set (d := (fst (snd e) - fst (fst e), snd (snd e) - snd (fst e)) : point).
  assert (ON : forall t, on_seg (fst e) (snd e) t = (fst (fst e) + t * fst d, snd (fst e) + t * snd d)) by reflexivity.
  set (L := (0, 1) :: (1, -1) :: cons sb b (fst e) d).
  assert (SL : forall t, (forall c, In c L -> sat t c) <-> (0 <= t <= 1 /\ in_quad sb b (on_seg (fst e) (snd e) t))).
  { intros t. rewrite ON, cons_sat. split.
    - intros H. assert (A := H _ (or_introl eq_refl)). assert (B := H _ (or_intror (or_introl eq_refl))).
      unfold sat in A, B. cbn [fst snd] in A, B. split; [lra|]. intros c Hc. apply H. simpl. auto.
    - intros [H1 H2] c [<-|[<-|Hc]]; [unfold sat; simpl; lra|unfold sat; simpl; lra|auto]. }
  assert (Ends : In (fst e) (nodes a) /\ In (snd e) (nodes a)).
  { simpl in He. destruct He as [<-|[<-|[<-|[<-|[]]]]]; simpl; tauto. }
  assert (E0 : on_seg (fst e) (snd e) 0 = fst e) by (apply pair_eq; unfold on_seg; cbn [fst snd]; ring).
  assert (E1 : on_seg (fst e) (snd e) 1 = snd e) by (apply pair_eq; unfold on_seg; cbn [fst snd]; ring).
  assert (K : forall t c, (forall c, In c L -> sat t c) -> In c L -> snd c <> 0 -> fst c + snd c * t = 0 ->
    in_hull V (on_seg (fst e) (snd e) t)).
  { intros t c H Hc NZ Tg. apply SL in H. destruct H as [Ht Hq]. destruct Hc as [<-|[<-|Hc]]; cbn [fst snd] in *.
    - assert (t = 0) by lra. subst t. rewrite E0 in *. apply HN; tauto.
    - assert (t = 1) by lra. subst t. rewrite E1 in *. apply HN; tauto.
    - unfold cons in Hc. apply in_map_iff in Hc. destruct Hc as (f & <- & Hf). cbn [fst snd] in *.
      assert (Sb : sb <> 0) by (destruct CB as [[-> | ->] _]; lra).
      assert (Zf : cr (fst f) (snd f) (on_seg (fst e) (snd e) t) = 0).
      { rewrite ON, cr_line. apply (Rmult_eq_reg_l sb); auto. rewrite Rmult_0_r. lra. }
      destruct (edge_param sb b f _ CB Hf Hq Zf) as (u & Hu & Eu).
      apply (HX _ f t u); auto.
      intros T0. apply NZ. unfold turn in T0. unfold lin, d. cbn [fst snd].
      clear - T0. destruct e as [ea eb], f as [fa fb]. cbn [fst snd] in *.
      replace (sb * _) with (- sb * ((fst eb - fst ea) * (snd fb - snd fa) - (snd eb - snd ea) * (fst fb - fst fa))) by ring.
      rewrite T0. ring. }
  assert (F0 : forall c, In c L -> sat s c) by (apply SL; rewrite <- Ep; auto).
  destruct (low_end L s F0) as (t0 & T1 & T2 & c0 & C1 & C2 & C3); [exists (0, 1); simpl; split; [auto|lra]|].
  destruct (high_end L s F0) as (t1 & U1 & U2 & c1 & D1 & D2 & D3); [exists (1, -1); simpl; split; [auto|lra]|].
  assert (H0 := K t0 c0 T2 C1 ltac:(lra) C3). assert (H1 := K t1 c1 U2 D1 ltac:(lra) D3).
  destruct (Req_dec t0 t1) as [E|E].
  - assert (s = t0) by lra. subst s. rewrite Ep. exact H0.
  - replace p with (on_seg (on_seg (fst e) (snd e) t0) (on_seg (fst e) (snd e) t1) ((s - t0) / (t1 - t0))).
    + apply hull_convex; auto. split.
      * apply Rmult_le_pos; [lra|apply Rlt_le, Rinv_0_lt_compat; lra].
      * apply (Rmult_le_reg_r (t1 - t0)); [lra|]. field_simplify; lra.
    + rewrite Ep. apply pair_eq; unfold on_seg; cbn [fst snd]; field; lra.
Qed.

(** Every point of both quads is between two such points on edges. *)
Lemma region_hull : forall (V : list point) sa a sb b p, convexq sa a -> convexq sb b ->
  in_quad sa a p -> in_quad sb b p ->
  (forall x e, in_quad sa a x -> in_quad sb b x -> In e (qedges a ++ qedges b) -> cr (fst e) (snd e) x = 0 -> in_hull V x) ->
  in_hull V p.
Proof.
  intros V sa a sb b p CA CB HA HB H. set (d := (1, 0) : point).
  set (L := cons sa a p d ++ cons sb b p d).
  assert (SL : forall t, (forall c, In c L -> sat t c) <->
    (in_quad sa a (fst p + t * fst d, snd p + t * snd d) /\ in_quad sb b (fst p + t * fst d, snd p + t * snd d))).
  { intros t. rewrite !cons_sat. unfold L. split.
    - intros Q. split; intros c Hc; apply Q; apply in_or_app; auto.
    - intros [Q1 Q2] c Hc. apply in_app_or in Hc. destruct Hc; auto. }
  assert (P0 : forall q : point, (fst q + 0 * fst d, snd q + 0 * snd d) = q) by (intros [x y]; cbn [fst snd]; f_equal; ring).
  assert (F0 : forall c, In c L -> sat 0 c) by (apply SL; rewrite P0; auto).
  assert (Sa : sa <> 0) by (destruct CA as [[-> | ->] _]; lra). assert (Sb : sb <> 0) by (destruct CB as [[-> | ->] _]; lra).
  assert (NF : forall s, (s = 1 \/ s = -1) -> (exists e, In e (qedges a) /\ 0 < s * (sa * lin (fst e) (snd e) d))).
  { intros s Hs. destruct CA as (Sg & A0 & A1 & A2 & A3).
    destruct (Rlt_dec 0 (s * (sa * lin (q0 a) (q1 a) d))) as [|N0]; [eexists; split; [simpl; left; reflexivity|auto]|].
    destruct (Rlt_dec 0 (s * (sa * lin (q1 a) (q2 a) d))) as [|N1]; [eexists; split; [simpl; right; left; reflexivity|auto]|].
    destruct (Rlt_dec 0 (s * (sa * lin (q2 a) (q3 a) d))) as [|N2]; [eexists; split; [simpl; right; right; left; reflexivity|auto]|].
    destruct (Rlt_dec 0 (s * (sa * lin (q3 a) (q0 a) d))) as [|N3]; [eexists; split; [simpl; right; right; right; left; reflexivity|auto]|].
    exfalso. unfold lin, d in *. cbn [fst snd] in *.
    set (k := s * sa) in *. assert (k = 1 \/ k = -1) by (unfold k; destruct Hs as [-> | ->], Sg as [-> | ->]; lra).
    assert (Y1 : snd (q1 a) = snd (q0 a)) by (destruct H0 as [K|K]; unfold k in K; nra).
    assert (Y2 : snd (q2 a) = snd (q1 a)) by (destruct H0 as [K|K]; unfold k in K; nra).
    unfold cr in A0. rewrite Y2, Y1 in A0. lra. }
  destruct (low_end L 0 F0) as (t0 & T1 & T2 & c0 & C1 & C2 & C3).
  { destruct (NF 1 (or_introl eq_refl)) as (e & He & Pe).
    exists (sa * cr (fst e) (snd e) p, sa * lin (fst e) (snd e) d). split; [|cbn [snd]; lra].
    apply in_or_app. left. unfold cons. apply (in_map (fun e => (sa * cr (fst e) (snd e) p, sa * lin (fst e) (snd e) d))). auto. }
  destruct (high_end L 0 F0) as (t1 & U1 & U2 & c1 & D1 & D2 & D3).
  { destruct (NF (-1) (or_intror eq_refl)) as (e & He & Pe).
    exists (sa * cr (fst e) (snd e) p, sa * lin (fst e) (snd e) d). split; [|cbn [snd]; lra].
    apply in_or_app. left. unfold cons. apply (in_map (fun e => (sa * cr (fst e) (snd e) p, sa * lin (fst e) (snd e) d))). auto. }
  assert (K : forall t c, (forall c, In c L -> sat t c) -> In c L -> fst c + snd c * t = 0 ->
    in_hull V (fst p + t * fst d, snd p + t * snd d)).
  { intros t c Q Hc Tg. apply SL in Q. destruct Q as [Q1 Q2]. unfold L in Hc. apply in_app_or in Hc.
    destruct Hc as [Hc|Hc]; apply in_map_iff in Hc; destruct Hc as (e & <- & He); cbn [fst snd] in Tg;
      apply (H _ e); auto; try (apply in_or_app; auto); rewrite cr_line.
    - clear - Tg Sa. destruct e as [ea eb]. cbn [fst snd] in *. apply (Rmult_eq_reg_l sa); auto. rewrite Rmult_0_r. lra.
    - clear - Tg Sb. destruct e as [ea eb]. cbn [fst snd] in *. apply (Rmult_eq_reg_l sb); auto. rewrite Rmult_0_r. lra. }
  assert (H0 := K t0 c0 T2 C1 C3). assert (H1 := K t1 c1 U2 D1 D3).
  destruct (Req_dec t0 t1) as [E|E].
  - replace t0 with 0 in H0 by lra. rewrite P0 in H0. exact H0.
  - replace p with (on_seg (fst p + t0 * fst d, snd p + t0 * snd d) (fst p + t1 * fst d, snd p + t1 * snd d) ((0 - t0) / (t1 - t0))).
    + apply hull_convex; auto. split.
      * apply Rmult_le_pos; [lra|apply Rlt_le, Rinv_0_lt_compat; lra].
      * apply (Rmult_le_reg_r (t1 - t0)); [lra|]. field_simplify; lra.
    + apply pair_eq; unfold on_seg; cbn [fst snd]; field; lra.
Qed.

Theorem points_complete : forall a b p, convex4 (q0 a) (q1 a) (q2 a) (q3 a) -> convex4 (q0 b) (q1 b) (q2 b) (q3 b) ->
  (forall e f, In e (qedges a) -> In f (qedges b) -> clear_crossing tolR (fst e) (snd e) (fst f) (snd f)) ->
  in_hull (nodes a) p -> in_hull (nodes b) p -> in_hull (quad_points g a b) p.
Proof.
  intros a b p A4 B4 CL HA HB.
  destruct (convex4_convexq a A4) as (sa & CA). destruct (convex4_convexq b B4) as (sb & CB).
  set (V := quad_points g a b).
  assert (NA : forall x, In x (nodes a) -> in_quad sb b x -> in_hull V x).
  { intros x Hx Hq. apply hull_member. unfold V, quad_points. apply in_or_app. left.
    apply filter_In. split; auto. unfold in_cell; rewrite qi_tol_R; apply (in_quad_cell g G tolR tol_pos sb); auto. }
  assert (NB : forall x, In x (nodes b) -> in_quad sa a x -> in_hull V x).
  { intros x Hx Hq. apply hull_member. unfold V, quad_points. apply in_or_app. right. apply in_or_app. left.
    apply filter_In. split; auto. unfold in_cell; rewrite qi_tol_R; apply (in_quad_cell g G tolR tol_pos sa); auto. }
  assert (E0 : forall x y : point, on_seg x y 0 = x) by (intros; apply pair_eq; unfold on_seg; cbn [fst snd]; ring).
  assert (E1 : forall x y : point, on_seg x y 1 = y) by (intros; apply pair_eq; unfold on_seg; cbn [fst snd]; ring).
  assert (EN : forall q e, In e (qedges q) -> In (fst e) (nodes q) /\ In (snd e) (nodes q)).
  { intros q e He. simpl in He. destruct He as [<-|[<-|[<-|[<-|[]]]]]; simpl; tauto. }
  assert (XX : forall x e f s t, In e (qedges a) -> In f (qedges b) -> turn (fst e) (snd e) (fst f) (snd f) <> 0 ->
    x = on_seg (fst e) (snd e) s -> x = on_seg (fst f) (snd f) t -> 0 <= s <= 1 -> 0 <= t <= 1 -> in_hull V x).
  { intros x e f s t He Hf D Ex Ey Hs Ht.
    assert (QA : in_quad sa a x) by (apply hull_in_quad; auto; rewrite Ex; apply seg_in_hull; auto).
    assert (QB : in_quad sb b x) by (apply hull_in_quad; auto; rewrite Ey; apply seg_in_hull; auto).
    destruct (EN a e He). destruct (EN b f Hf).
    destruct (Req_dec s 0) as [->|]; [rewrite E0 in Ex; subst x; auto|].
    destruct (Req_dec s 1) as [->|]; [rewrite E1 in Ex; subst x; auto|].
    destruct (Req_dec t 0) as [->|]; [rewrite E0 in Ey; rewrite Ey in *; auto|].
    destruct (Req_dec t 1) as [->|]; [rewrite E1 in Ey; rewrite Ey in *; auto|].
    apply hull_member. unfold V, quad_points. apply in_or_app. right. apply in_or_app. right.
    apply in_flat_map. exists e. split; auto. apply in_flat_map. exists f. split; auto.
    assert (EQ : on_seg (fst e) (snd e) s = on_seg (fst f) (snd f) t) by congruence.
    destruct (CL e f He Hf s t EQ D) as [Bs Bt]; try lra.
    rewrite Ex. apply (edge_edge_complete _ _ _ _ s t); auto. }
  apply (region_hull V sa a sb b); auto; [apply hull_in_quad; auto|apply hull_in_quad; auto|].
  intros x e QA QB He Z. apply in_app_or in He. destruct He as [He|He].
  - apply (edge_hull V sa a sb b e); auto.
    intros y f s t Hf D Ey Ez Hs Ht _. apply (XX y e f s t); auto.
  - apply (edge_hull V sb b sa a e); auto.
    intros y f s t Hf D Ey Ez Hs Ht _. apply (XX y f e t s); auto.
    intros T0. apply D. unfold turn in *. lra.
Qed.

End Solver.
