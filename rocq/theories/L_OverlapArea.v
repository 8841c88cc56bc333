(** The area found for the common part of two regular cells. *)
From Coq Require Import ZArith List Bool Reals Lra Lia Classical Permutation Psatz.
From Coquelicot Require Import Coquelicot.
From Verif Require Import Base Num NumR S_LinAlg S_Geometry S_Quad S_Area S_Overlap S_Sort M_LinearSolve M_Triangulate M_Quad M_QuadIntersect S_ConserveTable
  L_Polygon L_Hull L_Quad L_QuadIntersect L_Triangulate L_Area L_AreaPolygon L_Corners L_TriFlat.
Import ListNotations.
Open Scope R_scope.

(** A point on two sides that are not parallel is a corner. *)
Lemma corner_two : forall (K : point -> Prop) (e f : point * point) u v p, K p -> u <> 0 -> v <> 0 ->
  (forall q, K q -> 0 <= u * cr (fst e) (snd e) q) -> (forall q, K q -> 0 <= v * cr (fst f) (snd f) q) ->
  cr (fst e) (snd e) p = 0 -> cr (fst f) (snd f) p = 0 -> turn (fst e) (snd e) (fst f) (snd f) <> 0 -> corner K p.
Proof.
  intros K [a b] [c d] u v p Kp U V HE HF Ep Fp T. cbn [fst snd] in *. split; auto. intros q r t Kq Kr Ht E.
  assert (Z : forall w x y, w <> 0 -> (forall z, K z -> 0 <= w * cr x y z) -> cr x y p = 0 -> cr x y q = 0 /\ cr x y r = 0).
  { intros w x y W H Zp. rewrite E, cr_seg in Zp. assert (A := H q Kq). assert (B := H r Kr).
    assert (S : (1 - t) * (w * cr x y q) + t * (w * cr x y r) = 0) by (replace ((1 - t) * (w * cr x y q) + t * (w * cr x y r)) with (w * ((1 - t) * cr x y q + t * cr x y r)) by ring; rewrite Zp; ring).
    assert (A' : 0 <= (1 - t) * (w * cr x y q)) by (apply Rmult_le_pos; lra). assert (B' : 0 <= t * (w * cr x y r)) by (apply Rmult_le_pos; lra).
    assert (A2 : (1 - t) * (w * cr x y q) = 0) by lra. assert (B2 : t * (w * cr x y r) = 0) by lra.
    apply Rmult_integral in A2. apply Rmult_integral in B2. destruct A2 as [A2|A2]; [lra|]. destruct B2 as [B2|B2]; [lra|].
    apply Rmult_integral in A2. apply Rmult_integral in B2. tauto. }
  destruct (Z u a b U HE Ep) as [E1 E2]. destruct (Z v c d V HF Fp) as [F1 F2].
  clear - E1 E2 F1 F2 T. destruct a as [ax ay], b as [bx by_], c as [cx cy], d as [dx dy], q as [qx qy], r as [rx ry]. unfold cr, turn in *. cbn [fst snd] in *.
  assert (U1 : (bx - ax) * (qy - ry) = (by_ - ay) * (qx - rx)) by lra.
  assert (U2 : (dx - cx) * (qy - ry) = (dy - cy) * (qx - rx)) by lra.
  assert (X : ((bx - ax) * (dy - cy) - (by_ - ay) * (dx - cx)) * (qx - rx) = 0).
  { transitivity ((bx - ax) * ((dy - cy) * (qx - rx)) - (dx - cx) * ((by_ - ay) * (qx - rx))); [ring|]. rewrite <- U1, <- U2. ring. }
  assert (Y : ((bx - ax) * (dy - cy) - (by_ - ay) * (dx - cx)) * (qy - ry) = 0).
  { transitivity ((dy - cy) * ((bx - ax) * (qy - ry)) - (by_ - ay) * ((dx - cx) * (qy - ry))); [ring|]. rewrite U1, U2. ring. }
  apply Rmult_integral in X. apply Rmult_integral in Y. destruct X as [X|X]; [contradiction|]. destruct Y as [Y|Y]; [contradiction|]. f_equal; lra.
Qed.

Section Pair.
Variable g : gels R.
Hypothesis G : gels_spec g 2 2.
Variables a b : quadR.
Notation V := (nodes a).
Notation W := (nodes b).
Notation K := (overlap V W).
Let eps := / 10 ^ 12.
Hypothesis REG : regular_pair tolR eps V W.

Lemma ra4 : convex4 (q0 a) (q1 a) (q2 a) (q3 a). Proof. exact (rp_dst _ _ _ _ REG). Qed.
Lemma rb4 : convex4 (q0 b) (q1 b) (q2 b) (q3 b). Proof. exact (rp_src _ _ _ _ REG). Qed.

Lemma overlap_convex : convex_set K.
Proof. intros p q t [P1 P2] [Q1 Q2] Ht. split; apply hull_convex; auto. Qed.

Lemma edges_nodes : forall (q : quadR), map fst (qedges q) = nodes q.
Proof. reflexivity. Qed.

Lemma tested_in : forall p, In p (tested_points g a b) <-> In p (quad_points g a b).
Proof.
  intros p. unfold tested_points, quad_points, nodes_inside. rewrite !in_app_iff, !filter_In, !in_flat_map.
  change [q0 a; q1 a; q2 a; q3 a] with (nodes a). change [q0 b; q1 b; q2 b; q3 b] with (nodes b). split.
  - intros (e & He & H). apply in_app_or in H. destruct H as [H|H].
    + left. destruct (in_cell g (fst e) b) eqn:C; [|contradiction]. destruct H as [<-|[]]. split; auto. rewrite <- edges_nodes. apply in_map. auto.
    + apply in_flat_map in H. destruct H as (f & Hf & H). apply in_app_or in H. destruct H as [H|H].
      * right. left. destruct (in_cell g (fst f) a) eqn:C; [|contradiction]. destruct H as [<-|[]]. split; auto. rewrite <- edges_nodes. apply in_map. auto.
      * right. right. exists e. split; auto. apply in_flat_map. exists f. auto.
  - intros [[H C]|[[H C]|(e & He & H)]].
    + rewrite <- edges_nodes in H. apply in_map_iff in H. destruct H as (e & <- & He). exists e. split; auto. apply in_or_app. left. rewrite C. left. auto.
    + rewrite <- edges_nodes in H. apply in_map_iff in H. destruct H as (f & <- & Hf). exists (q0 a, q1 a). split; [left; auto|].
      apply in_or_app. right. apply in_flat_map. exists f. split; auto. rewrite C. left. auto.
    + apply in_flat_map in H. destruct H as (f & Hf & H). exists e. split; auto. apply in_or_app. right. apply in_flat_map. exists f. split; auto. apply in_or_app. right. auto.
Qed.

Lemma sides_edges : forall q : quadR, sides4 (nodes q) = qedges q.
Proof. reflexivity. Qed.

Lemma convex4_collapsed : forall q : quadR, convex4 (q0 q) (q1 q) (q2 q) (q3 q) -> not_collapsed q.
Proof.
  intros q H. split; intros [E1 E2]; destruct H as [H|H]; destruct H as (H1 & H2 & H3 & H4).
  all: rewrite <- ?E1, <- ?E2 in *; rewrite ?cr_same1, ?cr_same2, ?cr_same3 in *; lra.
Qed.

Lemma node_in_b : forall p, In p V -> in_cell g p b = true <-> in_hull W p.
Proof.
  intros p Hp. unfold in_cell. rewrite qi_tol_R. split; intros H.
  - apply (rp_in_src _ _ _ _ REG p Hp). apply (quad_inside_sound g G tolR tol_pos); auto. apply convex4_collapsed. apply rb4.
  - destruct (convex4_convexq b rb4) as (sb & CB). apply (in_quad_cell g G tolR tol_pos sb); auto. apply hull_in_quad; auto.
Qed.

Lemma node_in_a : forall p, In p W -> in_cell g p a = true <-> in_hull V p.
Proof.
  intros p Hp. unfold in_cell. rewrite qi_tol_R. split; intros H.
  - apply (rp_in_dst _ _ _ _ REG p Hp). apply (quad_inside_sound g G tolR tol_pos); auto. apply convex4_collapsed. apply ra4.
  - destruct (convex4_convexq a ra4) as (sa & CA). apply (in_quad_cell g G tolR tol_pos sa); auto. apply hull_in_quad; auto.
Qed.

(** The neighbouring sides of a node. *)
Lemma node_sides : forall sg (q : quadR) p, convexq sg q -> In p (nodes q) ->
  exists e f, In e (qedges q) /\ In f (qedges q) /\ cr (fst e) (snd e) p = 0 /\ cr (fst f) (snd f) p = 0 /\ turn (fst e) (snd e) (fst f) (snd f) <> 0.
Proof.
  intros sg q p (Sg & C0 & C1 & C2 & C3) Hp.
  assert (T : forall x y z : point, turn x y y z = cr x y z) by (intros; unfold turn, cr; ring).
  assert (NZ : forall x, 0 < sg * x -> x <> 0) by (intros x H E; subst; lra).
  destruct Hp as [<-|[<-|[<-|[<-|[]]]]].
  - exists (q3 q, q0 q), (q0 q, q1 q). simpl. rewrite cr_same2, cr_same3, T. repeat split; auto 10.
  - exists (q0 q, q1 q), (q1 q, q2 q). simpl. rewrite cr_same2, cr_same3, T. repeat split; auto 10.
  - exists (q1 q, q2 q), (q2 q, q3 q). simpl. rewrite cr_same2, cr_same3, T. repeat split; auto 10.
  - exists (q2 q, q3 q), (q3 q, q0 q). simpl. rewrite cr_same2, cr_same3, T. repeat split; auto 10.
Qed.

Lemma sg_nz : forall sg (q : quadR), convexq sg q -> sg <> 0.
Proof. intros sg q ([-> | ->] & _); lra. Qed.

Lemma cr_on : forall x y t, cr x y (on_seg x y t) = 0.
Proof. intros. rewrite cr_seg, cr_same2, cr_same3. ring. Qed.

Lemma tested_corner : forall p, In p (tested_points g a b) -> corner K p.
Proof.
  intros p H. apply tested_in in H. unfold quad_points in H. rewrite !in_app_iff in H.
  destruct (convex4_convexq a ra4) as (sa & CA). destruct (convex4_convexq b rb4) as (sb & CB).
  assert (KA : forall q, K q -> in_quad sa a q) by (intros q [H1 _]; apply hull_in_quad; auto).
  assert (KB : forall q, K q -> in_quad sb b q) by (intros q [_ H1]; apply hull_in_quad; auto).
  assert (NA := sg_nz sa a CA). assert (NB := sg_nz sb b CB).
  destruct H as [H|[H|H]].
  - apply filter_In in H. destruct H as [H C]. apply node_in_b in C; auto. destruct (node_sides sa a p CA H) as (e & f & He & Hf & E0 & F0 & T).
    apply (corner_two K e f sa sa p); auto; [split; auto; apply hull_member; auto| |]; intros q Kq; apply KA; auto.
  - apply filter_In in H. destruct H as [H C]. apply node_in_a in C; auto. destruct (node_sides sb b p CB H) as (e & f & He & Hf & E0 & F0 & T).
    apply (corner_two K e f sb sb p); auto; [split; auto; apply hull_member; auto| |]; intros q Kq; apply KB; auto.
  - apply in_flat_map in H. destruct H as (e & He & H). apply in_flat_map in H. destruct H as (f & Hf & H).
    apply (edge_edge_sound g G) in H. destruct H as (s & t & E1 & E2 & Hs & Ht & T). assert (TP := tol_pos).
    apply (corner_two K e f sa sb p); auto.
    + split; [rewrite E1|rewrite E2]; apply seg_in_hull; auto; lra.
    + intros q Kq. apply KA; auto.
    + intros q Kq. apply KB; auto.
    + rewrite E1. apply cr_on.
    + rewrite E2. apply cr_on.
Qed.

Lemma tested_hull : forall p, in_hull (tested_points g a b) p <-> K p.
Proof.
  intros p. split.
  - apply convex_hull_in; [apply overlap_convex|]. intros q Hq. apply tested_corner; auto.
  - intros [H1 H2]. apply (hull_trans (quad_points g a b)).
    + apply (points_complete g G); auto; [apply ra4|apply rb4|]. intros e f He Hf s t E T Hs Ht.
      assert (C := rp_cross _ _ _ _ REG e f He Hf s t E T Hs Ht). lra.
    + intros q Hq. apply hull_member. apply tested_in. auto.
Qed.

Lemma corner_tested : forall p, corner K p -> In p (tested_points g a b).
Proof.
  intros p C. apply (corner_hull K); auto; [intros q; apply tested_hull|]. apply tested_hull. apply C.
Qed.

(** ** A crossing gives the common part an area *)
Lemma small_step : forall x y : R, 0 < x -> exists d, 0 < d <= 1 /\ forall d', 0 <= d' <= d -> 0 <= x + d' * y.
Proof.
  intros x y H. destruct (Rle_dec 0 y) as [L|L].
  - exists 1. split; [lra|]. intros d' Hd. assert (0 <= d' * y) by (apply Rmult_le_pos; lra). lra.
  - exists (Rmin 1 (x / - y)). assert (X : 0 < x / - y) by (apply Rcomplements.Rdiv_lt_0_compat; lra).
    split; [split; [apply Rmin_glb_lt; lra|apply Rmin_l]|]. intros d' Hd. assert (M := Rmin_r 1 (x / - y)).
    assert (d' * - y <= x); [|lra]. apply Rle_trans with (x / - y * - y); [apply Rmult_le_compat_r; lra|]. right. field. lra.
Qed.

(** From an inner point of a side, a step towards a point on the inner side of it stays in the quad. *)
Lemma step_inside : forall sg (q : quadR) f t z, convexq sg q -> In f (qedges q) -> 0 < t < 1 -> 0 < sg * cr (fst f) (snd f) z ->
  exists d, 0 < d <= 1 /\ in_hull (nodes q) (on_seg (on_seg (fst f) (snd f) t) z d).
Proof.
  intros sg q f t z CQ Hf Ht Hz. destruct (edge_nbrs sg q f CQ Hf) as (y & c & Hy & Hc & P1 & P2).
  destruct f as [u v]. cbn [fst snd] in *. set (p := on_seg u v t).
  assert (EN : forall e, In e (qedges q) -> In (fst e) (nodes q) /\ In (snd e) (nodes q)).
  { intros e He. simpl in He. destruct He as [<-|[<-|[<-|[<-|[]]]]]; simpl; tauto. }
  assert (SG := proj1 CQ).
  assert (ID : forall x, cr u v c = cr u v x + cr v c x + cr c u x) by (intros; unfold cr; ring).
  assert (B1 : sg * cr v c p = (1 - t) * (sg * cr u v c)) by (unfold p, cr, on_seg; cbn [fst snd]; ring).
  assert (B2 : sg * cr c u p = t * (sg * cr u v c)) by (unfold p, cr, on_seg; cbn [fst snd]; ring).
  assert (B1' : 0 < sg * cr v c p) by (rewrite B1; apply Rmult_lt_0_compat; lra).
  assert (B2' : 0 < sg * cr c u p) by (rewrite B2; apply Rmult_lt_0_compat; lra).
  destruct (small_step (sg * cr v c p) (sg * cr v c z - sg * cr v c p) B1') as (d1 & D1 & S1).
  destruct (small_step (sg * cr c u p) (sg * cr c u z - sg * cr c u p) B2') as (d2 & D2 & S2).
  exists (Rmin d1 d2). assert (M1 := Rmin_l d1 d2). assert (M2 := Rmin_r d1 d2). assert (M3 : 0 < Rmin d1 d2) by (apply Rmin_glb_lt; lra).
  split; [lra|]. set (d := Rmin d1 d2) in *. set (x := on_seg p z d).
  assert (X0 : 0 <= sg * cr u v x). { unfold x. rewrite cr_seg. unfold p. rewrite cr_on. replace (sg * ((1 - d) * 0 + d * cr u v z)) with (d * (sg * cr u v z)) by ring. apply Rmult_le_pos; lra. }
  assert (X1 : 0 <= sg * cr v c x). { unfold x. rewrite cr_seg. specialize (S1 d ltac:(lra)). lra. }
  assert (X2 : 0 <= sg * cr c u x). { unfold x. rewrite cr_seg. specialize (S2 d ltac:(lra)). lra. }
  destruct (EN _ Hc) as [_ I3]. destruct (EN _ Hf) as [I1 I2]. cbn [fst snd] in I1, I2, I3.
  destruct SG as [-> | ->].
  - apply (hull_trans [u; v; c]); [apply in_triangle; lra|]. intros w [<-|[<-|[<-|[]]]]; apply hull_member; auto.
  - apply (hull_trans [v; u; c]); [|intros w [<-|[<-|[<-|[]]]]; apply hull_member; auto].
    assert (SW : forall x y w : point, cr y x w = - cr x y w) by (intros; unfold cr; ring).
    apply in_triangle; [rewrite (SW u v c); lra|rewrite (SW u v x); lra|rewrite (SW c u x); lra|rewrite (SW v c x); lra].
Qed.

Lemma crossing_not_flat : forall e f p, In e (qedges a) -> In f (qedges b) -> In p (edge_edge g (fst e) (snd e) (fst f) (snd f)) -> ~ flat K.
Proof.
  intros e f p He Hf H FL. apply (edge_edge_sound g G) in H. destruct H as (s & t & E1 & E2 & Hs & Ht & T). assert (TP := tol_pos).
  destruct (convex4_convexq a ra4) as (sa & CA). destruct (convex4_convexq b rb4) as (sb & CB).
  assert (NA := sg_nz sa a CA). assert (NB := sg_nz sb b CB).
  destruct e as [u v], f as [w z]. cbn [fst snd] in *.
  assert (ENA : In u V /\ In v V) by (simpl in He; destruct He as [E|[E|[E|[E|[]]]]]; injection E as <- <-; simpl; tauto).
  assert (ENB : In w W /\ In z W) by (simpl in Hf; destruct Hf as [E|[E|[E|[E|[]]]]]; injection E as <- <-; simpl; tauto).
  (* one end of the side e is on the inner side of f *)
  assert (STEP : forall sg (q q' : quadR) u v w z s t, sg <> 0 -> convexq sg q -> In (w, z) (qedges q) -> In u (nodes q') -> In v (nodes q') ->
    p = on_seg u v s -> p = on_seg w z t -> 0 < s < 1 -> 0 < t < 1 -> turn u v w z <> 0 ->
    exists x k, in_hull (nodes q) x /\ in_hull (nodes q') x /\ k <> 0 /\ x = (fst p + k * (fst v - fst u), snd p + k * (snd v - snd u))).
  { clear. intros sg q q' u v w z s t NS CQ Hf Iu Iv E1 E2 Hs Ht T.
    assert (L : cr w z v - cr w z u = - turn u v w z) by (unfold cr, turn; ring).
    assert (Z : (1 - s) * cr w z u + s * cr w z v = 0) by (rewrite <- cr_seg, <- E1, E2; apply cr_on).
    assert (Pin : in_hull (nodes q') p) by (rewrite E1; apply hull_convex; [apply hull_member; auto|apply hull_member; auto|lra]).
    assert (VV : 0 < sg * cr w z v \/ 0 < sg * cr w z u).
    { assert (ZS : (1 - s) * (sg * cr w z u) + s * (sg * cr w z v) = 0) by (transitivity (sg * ((1 - s) * cr w z u + s * cr w z v)); [ring|rewrite Z; ring]).
      destruct (Rtotal_order (sg * cr w z v) 0) as [X|[X|X]]; auto.
      - right. nra.
      - exfalso. apply Rmult_integral in X. destruct X as [X|X]; [auto|]. rewrite X in *. assert (cr w z u = 0) by nra. apply T. lra. }
    destruct VV as [VV|VV].
    - destruct (step_inside sg q (w, z) t v CQ Hf Ht VV) as (d & D & I). cbn [fst snd] in I. rewrite <- E2 in I.
      exists (on_seg p v d), (d * (1 - s)). split; [exact I|]. split; [apply hull_convex; auto; [apply hull_member; auto|lra]|]. split; [apply Rmult_integral_contrapositive_currified; lra|].
      rewrite E1. unfold on_seg. cbn [fst snd]. f_equal; ring.
    - destruct (step_inside sg q (w, z) t u CQ Hf Ht VV) as (d & D & I). cbn [fst snd] in I. rewrite <- E2 in I.
      exists (on_seg p u d), (- (d * s)). split; [exact I|]. split; [apply hull_convex; auto; [apply hull_member; auto|lra]|]. split; [apply Ropp_neq_0_compat, Rmult_integral_contrapositive_currified; lra|].
      rewrite E1. unfold on_seg. cbn [fst snd]. f_equal; ring. }
  destruct (STEP sb b a u v w z s t) as (x & k & X1 & X2 & X3 & X4); try tauto; try lra.
  destruct (STEP sa a b w z u v t s) as (y & l & Y1 & Y2 & Y3 & Y4); try tauto; try lra.
  { intros E. apply T. unfold turn in *. lra. }
  assert (KP : K p). { split; [rewrite E1|rewrite E2]; [apply (seg_in_hull a (u, v) s He)|apply (seg_in_hull b (w, z) t Hf)]; lra. }
  assert (Z := FL p x y KP (conj X2 X1) (conj Y1 Y2)). rewrite X4, Y4 in Z. unfold cr in Z. cbn [fst snd] in Z.
  assert (KL : k * l * turn u v w z = 0) by (unfold turn; lra).
  apply Rmult_integral in KL. destruct KL as [KL|KL]; [|auto]. apply Rmult_integral in KL. tauto.
Qed.

(** ** The points when the cells only touch *)
Lemma touch_points : flat K -> tested_points g a b = flat_map (fun n => (if in_cell g n b then [n] else []) ++ nodes_inside g b a) V.
Proof.
  intros FL.
  assert (NX : forall e f, In e (qedges a) -> In f (qedges b) -> edge_edge g (fst e) (snd e) (fst f) (snd f) = []).
  { intros e f He Hf. destruct (edge_edge g (fst e) (snd e) (fst f) (snd f)) as [|p l] eqn:E; auto. exfalso.
    apply (crossing_not_flat e f p); auto. rewrite E. left. auto. }
  unfold tested_points. rewrite <- (edges_nodes a).
  assert (FM : forall {A B C} (f : B -> list C) (h : A -> B) l, flat_map f (map h l) = flat_map (fun x => f (h x)) l) by (induction l; cbn; congruence).
  rewrite FM. assert (FX : forall {A B} (f h : A -> list B) l, (forall x, In x l -> f x = h x) -> flat_map f l = flat_map h l).
  { induction l as [|x l IH]; intros H; cbn; auto. rewrite H by (left; auto). rewrite IH; auto. intros; apply H; right; auto. }
  apply FX. intros e He. f_equal.
  transitivity (flat_map (fun f : pt R * pt R => if in_cell g (fst f) a then [fst f] else []) (qedges b)).
  - apply FX. intros f Hf. rewrite (NX e f He Hf). apply app_nil_r.
  - unfold nodes_inside. cbn [qedges flat_map fst filter]. destruct (in_cell g (q0 b) a), (in_cell g (q1 b) a), (in_cell g (q2 b) a), (in_cell g (q3 b) a); reflexivity.
Qed.

Lemma copies_app : forall p l l', copies p (l ++ l') = (copies p l + copies p l')%nat.
Proof.
  intros p l l'. induction l as [|x l IH]; auto. cbn [app]. destruct (copies_cons p x l) as [A1 A2]. destruct (copies_cons p x (l ++ l')) as [B1 B2].
  destruct (classic (x = p)) as [E|E]; [rewrite A1, B1 by auto; lia|rewrite A2, B2 by auto; lia].
Qed.

Lemma copies_none : forall p l, ~ In p l -> copies p l = 0%nat.
Proof.
  intros p. induction l as [|x l IH]; intros H; auto. destruct (copies_cons p x l) as [_ A]. rewrite A, IH; auto.
  - intros I. apply H. right. auto.
  - intros ->. apply H. left. auto.
Qed.

Lemma copies_once : forall p l, NoDup l -> In p l -> copies p l = 1%nat.
Proof.
  intros p l ND. induction ND as [|x l Nx ND IH]; intros H; [contradiction|]. destruct (copies_cons p x l) as [A1 A2].
  destruct (classic (x = p)) as [E|E]; [rewrite A1, copies_none; auto; subst; auto|rewrite A2 by auto; apply IH]. destruct H; [congruence|auto].
Qed.

Lemma convex4_nodup : forall q : quadR, convex4 (q0 q) (q1 q) (q2 q) (q3 q) -> NoDup (nodes q).
Proof.
  intros q H. unfold convex4 in H.
  assert (N : q0 q <> q1 q /\ q0 q <> q2 q /\ q0 q <> q3 q /\ q1 q <> q2 q /\ q1 q <> q3 q /\ q2 q <> q3 q).
  { repeat split; intros E; rewrite E in H; rewrite ?cr_same1, ?cr_same2, ?cr_same3 in H; lra. }
  destruct N as (N1 & N2 & N3 & N4 & N5 & N6).
  unfold nodes. repeat (apply NoDup_cons; [cbn [In]; intros E; repeat (destruct E as [E|E]; [congruence|]); contradiction|]). apply NoDup_nil.
Qed.

Lemma inside_one : forall (n m : quadR) p, NoDup (nodes n) -> In p (nodes n) -> in_cell g p m = true -> copies p (nodes_inside g n m) = 1%nat.
Proof. intros n m p ND I C. apply copies_once; [apply NoDup_filter; exact ND|apply filter_In; auto]. Qed.
Lemma inside_zero : forall (n m : quadR) p, ~ In p (nodes n) -> copies p (nodes_inside g n m) = 0%nat.
Proof. intros n m p I. apply copies_none. intros J. apply filter_In in J. apply I. apply J. Qed.

Lemma copies_flat : forall p (test : point -> bool) B l,
  copies p (flat_map (fun n => (if test n then [n] else []) ++ B) l) = (copies p (filter test l) + length l * copies p B)%nat.
Proof.
  intros p test B. induction l as [|x l IH]; auto. cbn [flat_map filter length]. rewrite !copies_app, IH. destruct (test x).
  - change (x :: filter test l) with ([x] ++ filter test l). rewrite copies_app. lia.
  - change (copies p []) with 0%nat. lia.
Qed.

Lemma touch_copies : forall p, flat K -> copies p (tested_points g a b) = (copies p (nodes_inside g a b) + 4 * copies p (nodes_inside g b a))%nat.
Proof. intros p FL. rewrite (touch_points FL). apply (copies_flat p (fun n => in_cell g n b)). Qed.

Lemma touch_count : forall p, flat K -> corner K p ->
  ((In p V /\ copies p (nodes_inside g a b) = 1%nat) \/ (~ In p V /\ copies p (nodes_inside g a b) = 0%nat)) /\
  ((In p W /\ copies p (nodes_inside g b a) = 1%nat) \/ (~ In p W /\ copies p (nodes_inside g b a) = 0%nat)).
Proof.
  intros p FL [[K1 K2] _]. split.
  - destruct (classic (In p V)) as [I|I]; [left|right]; split; auto; [|apply inside_zero; auto].
    apply inside_one; auto; [apply convex4_nodup, ra4|apply node_in_b; auto].
  - destruct (classic (In p W)) as [I|I]; [left|right]; split; auto; [|apply inside_zero; auto].
    apply inside_one; auto; [apply convex4_nodup, rb4|apply node_in_a; auto].
Qed.

(** Both ends are nodes of both cells: a point appears twice in a row. *)
Lemma touch_twice : forall p q, flat K -> p <> q -> (forall x, In x (tested_points g a b) -> x = p \/ x = q) ->
  In p V -> In q V -> In p (nodes_inside g b a) -> In q (nodes_inside g b a) ->
  exists l1 x l2, tested_points g a b = l1 ++ x :: x :: l2.
Proof.
  intros p q FL NE ALL Vp Vq Bp Bq. rewrite (touch_points FL) in *. set (B := nodes_inside g b a) in *.
  destruct B as [|x B'] eqn:EB; [contradiction|].
  assert (XI : In x V /\ in_cell g x b = true).
  { assert (I : In x (flat_map (fun n => (if in_cell g n b then [n] else []) ++ x :: B') V)).
    { cbn [nodes flat_map]. apply in_or_app. left. apply in_or_app. right. left. auto. }
    assert (XW : in_hull W x). { apply hull_member. assert (J : In x (nodes_inside g b a)) by (fold B; rewrite EB; left; auto). apply filter_In in J. apply J. }
    destruct (ALL x I) as [-> | ->]; split; auto; apply node_in_b; auto. }
  destruct XI as [XV XC]. apply in_split in XV. destruct XV as (u & v & EV). rewrite EV.
  exists (flat_map (fun n => (if in_cell g n b then [n] else []) ++ x :: B') u), x, (B' ++ flat_map (fun n => (if in_cell g n b then [n] else []) ++ x :: B') v).
  rewrite flat_map_app. cbn [flat_map]. rewrite XC. reflexivity.
Qed.

Variable srt : (nat -> nat -> bool) -> list nat -> list nat.
Hypothesis SRT : sorts srt.
Hypothesis TIES : keeps_ties srt.
Variable junk : nat -> pt R.

Definition pair_value : R :=
  if boxes_overlap a b && (3 <=? length (tested_points g a b))%nat then area_of srt junk (tested_points g a b) else 0.

Lemma touch_value : flat K -> has_area K 0 /\ pair_value = 0.
Proof.
  intros FL. set (T := tested_points g a b).
  assert (CASES : (exists p, forall x, In x T -> x = p) \/ exists p q, p <> q /\ In p T /\ In q T /\ forall x, In x T -> x = p \/ x = q).
  { destruct T as [|p T'] eqn:ET; [left; exists origin; intros ? []|].
    destruct (classic (forall x, In x (p :: T') -> x = p)) as [A|A]; [left; eauto|].
    apply not_all_ex_not in A. destruct A as (q & A). apply imply_to_and in A. destruct A as [Iq Nq].
    right. exists p, q. split; auto. split; [left; auto|]. split; auto. intros x Ix.
    destruct (classic (x = p)) as [|N1]; auto. destruct (classic (x = q)) as [|N2]; auto. exfalso.
    assert (CT : forall z, In z (p :: T') -> corner K z) by (intros z Iz; apply tested_corner; fold T; rewrite ET; auto).
    apply (corners_not_collinear K p q x); auto; [apply overlap_convex|apply CT; left; auto|].
    apply FL; apply CT; auto. left; auto. }
  assert (HK : forall p q, (forall x, In x T -> x = p \/ x = q) -> T <> [] -> (forall x, x = p \/ x = q -> In x T) -> has_area K 0).
  { intros p q A _ B. apply (area_ext (in_hull [p; q])); [|apply area_hull2]. intros x. rewrite <- tested_hull. fold T.
    split; intros I; apply (hull_trans _ _ _ I); intros y Iy; apply hull_member.
    - destruct Iy as [<-|[<-|[]]]; apply B; auto.
    - destruct (A y Iy) as [-> | ->]; simpl; auto. }
  destruct CASES as [(p & A)|(p & q & NE & Ip & Iq & A)].
  - split.
    + destruct T as [|x T'] eqn:ET.
      * apply (area_ext (in_hull [])); [|apply area_hull0]. intros x. rewrite <- tested_hull. fold T. rewrite ET. reflexivity.
      * apply (HK p p); [intros y Iy; left; apply A; auto|discriminate|]. intros y [-> | ->]; left; apply A; left; auto.
    + unfold pair_value. fold T. destruct (_ && _); auto. unfold area_of. apply (one_point _ _ _ _ p); auto. intros. apply SRT.
  - split; [apply (HK p q); auto; [intros E; rewrite E in Ip; contradiction|intros x [-> | ->]; auto]|].
    unfold pair_value. fold T. destruct (boxes_overlap a b && (3 <=? length T)%nat) eqn:C; auto. apply andb_true_iff in C. destruct C as [_ C]. apply Nat.leb_le in C.
    unfold area_of. assert (Cp := tested_corner p Ip). assert (Cq := tested_corner q Iq).
    destruct (touch_count p FL Cp) as [P1 P2]. destruct (touch_count q FL Cq) as [Q1 Q2].
    assert (NP := touch_copies p FL). assert (NQ := touch_copies q FL). fold T in NP, NQ.
    assert (LEN : (copies p T + copies q T)%nat = @length (pt R) T) by exact (copies_sum p q T A NE).
    destruct (Nat.eq_dec (copies p T) (copies q T)) as [E|E]; [|apply (two_points srt junk T p q); auto].
    destruct P2 as [[PW P2]|[PW P2]], Q2 as [[QW Q2]|[QW Q2]], P1 as [[PV P1]|[PV P1]], Q1 as [[QV Q1]|[QV Q1]]; try lia.
    + assert (IB : forall x, copies x (nodes_inside g b a) = 1%nat -> In x (nodes_inside g b a)).
      { intros x Hx. apply NNPP. intros I. apply copies_none in I. lia. }
      destruct (touch_twice p q) as (l1 & x & l2 & EL); auto.
      apply (tied_points srt junk T p q l1 x l2); auto; [intros; apply SRT|]. change (@length point T) with (@length (pt R) T). lia.
    + exfalso. destruct (rp_touch _ _ _ _ REG FL p q Cp Cq NE PW QW); auto.
Qed.

Lemma ccw_strict : forall P, strict_ccw P -> convex_ccw P.
Proof. intros P H i j k H1 H2. left. apply H; auto. Qed.

Lemma flat_hull_two : forall P, (length P < 3)%nat -> flat (in_hull P).
Proof.
  intros [|p [|q [|r P]]] H; cbn in H; try lia.
  - intros x y z (w & L & _ & S & _). destruct w; [|discriminate L]. cbn in S. lra.
  - intros x y z X Y Z. apply hull_cons in X. apply hull_cons in Y. apply hull_cons in Z.
    assert (N : forall x : point, ~ in_hull [] x) by (intros x0 (w & L & _ & S & _); destruct w; [cbn in S; lra|discriminate L]).
    destruct X as [->|(? & ? & X & _)]; [|exfalso; apply (N _ X)]. destruct Y as [->|(? & ? & Y & _)]; [|exfalso; apply (N _ Y)]. rewrite cr_same1. auto.
  - intros x y z X Y Z. apply hull2 in X. apply hull2 in Y. apply hull2 in Z.
    destruct X as (u & v & _ & _ & S & X1 & X2). destruct Y as (u' & v' & _ & _ & S' & Y1 & Y2). destruct Z as (u2 & v2 & _ & _ & S2 & Z1 & Z2).
    unfold cr. rewrite X1, X2, Y1, Y2, Z1, Z2. replace u with (1 - v) by lra. replace u' with (1 - v') by lra. replace u2 with (1 - v2) by lra. ring.
Qed.

(** The value found is the area of the common part. *)
Theorem pair_area : has_area K pair_value.
Proof.
  destruct (classic (flat K)) as [FL|NF].
  - destruct (touch_value FL) as [A ->]. auto.
  - set (T := tested_points g a b). destruct (corners_ordered K T overlap_convex) as (P & ND & IN & SC); [intros p; apply tested_corner|].
    assert (HP : forall x, in_hull P x <-> K x).
    { intros x. rewrite <- tested_hull. fold T. split; intros I; apply (hull_trans _ _ _ I); intros y Iy; apply hull_member; apply IN; auto. }
    assert (L3 : (3 <= length P)%nat).
    { destruct (Nat.lt_ge_cases (length P) 3) as [L|L]; auto. exfalso. apply NF. intros x y z X Y Z. apply (flat_hull_two P L); apply HP; auto. }
    assert (LT : (length P <= length T)%nat) by (apply NoDup_incl_length; auto; intros x I; apply IN; auto).
    assert (PV : pair_value = area_of srt junk T).
    { unfold pair_value. fold T. replace (3 <=? length T)%nat with true by (symmetry; apply Nat.leb_le; lia).
      destruct (boxes_overlap a b) eqn:BO; auto. exfalso. destruct P as [|p P]; [cbn in L3; lia|].
      assert (Kp : K p) by (apply HP, hull_member; left; auto). apply (boxes_sound a b BO p); apply Kp. }
    rewrite PV. unfold area_of.
    destruct (hull_area srt junk (length T) T P) as [E _]; auto.
    + intros. apply SRT.
    + intros p. rewrite firstn_all. symmetry. apply IN.
    + apply ccw_strict; auto.
    + exists 0%nat, 1%nat, 2%nat. repeat split; try lia. assert (S := SC 0%nat 1%nat 2%nat ltac:(lia) ltac:(lia)). lra.
    + unfold epsR, tr_eps. rewrite lit_R. replace (IZR 1 / IZR 1000000000000) with eps by (unfold eps; lra).
      assert (CP : forall p, In p P -> corner K p) by (intros p I; apply tested_corner; apply IN; auto).
      split; [intros x y Ix Iy; apply (rp_apart _ _ _ _ REG); auto|intros x y z Ix Iy Iz; apply (rp_area _ _ _ _ REG); auto].
    + rewrite E. apply (area_ext (in_hull P)); [intros x; apply HP|]. apply area_polygon. auto.
Qed.

End Pair.
