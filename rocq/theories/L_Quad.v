(** Quads over the reals: triangle test, convex quads, lines through them. *)
From Coq Require Import ZArith List Bool Reals Lra Lia.
From Verif Require Import Base Num NumR M_LinearSolve M_Triangulate M_Quad S_LinAlg S_Geometry S_Quad
  L_Solve2 L_Polygon L_Hull.
Import ListNotations.
Open Scope R_scope.

Notation quadR := (quad R).
Definition nodes (q : quadR) : list point := [q0 q; q1 q; q2 q; q3 q].
Lemma on_seg_along : forall a b t, along (T := R) a b t = on_seg a b t.
Proof. reflexivity. Qed.

Lemma pair_eq : forall (p q : point), fst p = fst q -> snd p = snd q -> p = q.
Proof. intros [a b] [c d]; simpl; congruence. Qed.

Lemma n1_R : (n1 : R) = 1.
Proof. reflexivity. Qed.

(** ** Boxes *)
Lemma smin_le : forall x y : R, smin x y <= x /\ smin x y <= y.
Proof. intros. unfold smin. cbn [nlt NumR]. destruct (Rltb y x) eqn:E; [apply Rltb_true in E|apply Rltb_false in E]; lra. Qed.
Lemma smax_ge : forall x y : R, x <= smax x y /\ y <= smax x y.
Proof. intros. unfold smax. cbn [nlt NumR]. destruct (Rltb x y) eqn:E; [apply Rltb_true in E|apply Rltb_false in E]; lra. Qed.
Lemma smin_one : forall x y : R, smin x y = x \/ smin x y = y.
Proof. intros. unfold smin. destruct (nlt y x); auto. Qed.
Lemma smax_one : forall x y : R, smax x y = x \/ smax x y = y.
Proof. intros. unfold smax. destruct (nlt x y); auto. Qed.

Lemma qmin_le : forall f (q : quadR) p, In p (nodes q) -> qmin f q <= f p.
Proof.
  intros f q p Hp. unfold qmin.
  assert (A := smin_le (f (q3 q)) (smin (f (q2 q)) (smin (f (q1 q)) (f (q0 q))))).
  assert (B := smin_le (f (q2 q)) (smin (f (q1 q)) (f (q0 q)))). assert (C := smin_le (f (q1 q)) (f (q0 q))).
  simpl in Hp. destruct Hp as [<-|[<-|[<-|[<-|[]]]]]; lra.
Qed.
Lemma qmax_ge : forall f (q : quadR) p, In p (nodes q) -> f p <= qmax f q.
Proof.
  intros f q p Hp. unfold qmax.
  assert (A := smax_ge (f (q3 q)) (smax (f (q2 q)) (smax (f (q1 q)) (f (q0 q))))).
  assert (B := smax_ge (f (q2 q)) (smax (f (q1 q)) (f (q0 q)))). assert (C := smax_ge (f (q1 q)) (f (q0 q))).
  simpl in Hp. destruct Hp as [<-|[<-|[<-|[<-|[]]]]]; lra.
Qed.

Lemma hull_x : forall V p lo hi, in_hull V p -> (forall q, In q V -> lo <= fst q <= hi) -> lo <= fst p <= hi.
Proof.
  intros V p lo hi H B. assert (A1 := hull_linear V p (- lo) 1 0 H). assert (A2 := hull_linear V p hi (-1) 0 H).
  split.
  - enough (0 <= - lo + 1 * fst p + 0 * snd p) by lra. apply A1. intros q Hq. specialize (B q Hq). lra.
  - enough (0 <= hi + -1 * fst p + 0 * snd p) by lra. apply A2. intros q Hq. specialize (B q Hq). lra.
Qed.
Lemma hull_y : forall V p lo hi, in_hull V p -> (forall q, In q V -> lo <= snd q <= hi) -> lo <= snd p <= hi.
Proof.
  intros V p lo hi H B. assert (A1 := hull_linear V p (- lo) 0 1 H). assert (A2 := hull_linear V p hi 0 (-1) H).
  split.
  - enough (0 <= - lo + 0 * fst p + 1 * snd p) by lra. apply A1. intros q Hq. specialize (B q Hq). lra.
  - enough (0 <= hi + 0 * fst p + -1 * snd p) by lra. apply A2. intros q Hq. specialize (B q Hq). lra.
Qed.

Lemma seg_in_hull : forall (q : quadR) e t, In e (qedges q) -> 0 <= t <= 1 -> in_hull (nodes q) (on_seg (fst e) (snd e) t).
Proof.
  intros q e t He Ht. apply hull_convex; auto; apply hull_member; simpl in He;
    destruct He as [<-|[<-|[<-|[<-|[]]]]]; simpl; auto.
Qed.

(** Orientation +1 or -1. *)
Definition convexq (sg : R) (q : quadR) : Prop := (sg = 1 \/ sg = -1) /\
  0 < sg * cr (q0 q) (q1 q) (q2 q) /\ 0 < sg * cr (q1 q) (q2 q) (q3 q) /\
  0 < sg * cr (q2 q) (q3 q) (q0 q) /\ 0 < sg * cr (q3 q) (q0 q) (q1 q).

Lemma convex4_convexq : forall q, convex4 (q0 q) (q1 q) (q2 q) (q3 q) -> exists sg, convexq sg q.
Proof.
  intros q [H|H]; [exists 1|exists (-1)]; unfold convexq; (split; [auto|]); lra.
Qed.

Definition in_quad (sg : R) (q : quadR) (p : point) : Prop :=
  forall e, In e (qedges q) -> 0 <= sg * cr (fst e) (snd e) p.

Lemma hull_in_quad : forall sg q p, convexq sg q -> in_hull (nodes q) p -> in_quad sg q p.
Proof.
  intros sg q p (Sg & C0 & C1 & C2 & C3) H e He.
  assert (F : forall a b : point, sg * cr a b p = sg * (snd b - snd a) * fst a - sg * (fst b - fst a) * snd a +
      (- sg * (snd b - snd a)) * fst p + (sg * (fst b - fst a)) * snd p) by (intros; unfold cr; ring).
  rewrite F. apply hull_linear with (V := nodes q); auto.
  intros x Hx.
  replace (_ + _) with (sg * cr (fst e) (snd e) x) by (unfold cr; ring).
  assert (R0 : forall a b c, cr a b c = cr b c a) by (intros; apply cr_rot).
  simpl in He, Hx.
  destruct He as [<-|[<-|[<-|[<-|[]]]]]; destruct Hx as [<-|[<-|[<-|[<-|[]]]]]; cbn [fst snd];
    rewrite ?cr_same1, ?cr_same2, ?cr_same3; try lra;
    try (rewrite (R0 (q0 q) (q1 q) (q3 q))); unfold cr in *; lra.
Qed.

Lemma edge_nbrs : forall sg q e, convexq sg q -> In e (qedges q) ->
  exists z c, In (z, fst e) (qedges q) /\ In (snd e, c) (qedges q) /\
    0 < sg * cr z (fst e) (snd e) /\ 0 < sg * cr (fst e) (snd e) c.
Proof.
  intros sg q e (Sg & C0 & C1 & C2 & C3) He. simpl in He.
  destruct He as [<-|[<-|[<-|[<-|[]]]]]; cbn [fst snd].
  - exists (q3 q), (q2 q). simpl. tauto.
  - exists (q0 q), (q3 q). simpl. tauto.
  - exists (q1 q), (q0 q). simpl. tauto.
  - exists (q2 q), (q1 q). simpl. tauto.
Qed.

Lemma edge_param : forall sg q e p, convexq sg q -> In e (qedges q) -> in_quad sg q p ->
  cr (fst e) (snd e) p = 0 -> exists t, 0 <= t <= 1 /\ p = on_seg (fst e) (snd e) t.
Proof.
  intros sg q e p CQ He Hp Z. destruct (edge_nbrs sg q e CQ He) as (z & c & Hz & Hc & Pz & Pc).
  destruct e as [a b]. cbn [fst snd] in *.
  assert (NE : a <> b) by (intros ->; rewrite cr_same2 in Pz; lra).
  destruct (on_line a b p NE Z) as (t & T1 & T2).
  assert (A := Hp _ Hz). assert (B := Hp _ Hc). cbn [fst snd] in A, B.
  assert (A' : sg * cr z a p = t * (sg * cr z a b)) by (unfold cr; rewrite T1, T2; ring).
  assert (B' : sg * cr b c p = (1 - t) * (sg * cr a b c)) by (unfold cr; rewrite T1, T2; ring).
  exists t. split; [|apply pair_eq; auto]. rewrite A' in A. rewrite B' in B.
  split; [destruct (Rle_dec 0 t); auto; exfalso; nra|destruct (Rle_dec t 1); auto; exfalso; nra].
Qed.

(** cr along a line. *)
Definition lin (a b d : point) : R := (fst b - fst a) * snd d - (snd b - snd a) * fst d.

Lemma cr_line : forall a b p d t, cr a b (fst p + t * fst d, snd p + t * snd d) = cr a b p + lin a b d * t.
Proof. intros. unfold cr, lin. cbn [fst snd]. ring. Qed.

Definition cons (sg : R) (q : quadR) (p d : point) : list (R * R) :=
  map (fun e => (sg * cr (fst e) (snd e) p, sg * lin (fst e) (snd e) d)) (qedges q).

Lemma cons_sat : forall sg q p d t, in_quad sg q (fst p + t * fst d, snd p + t * snd d) <->
  (forall c, In c (cons sg q p d) -> sat t c).
Proof.
  intros sg q p d t. unfold in_quad, cons. split; intros H.
  - intros c Hc. apply in_map_iff in Hc. destruct Hc as (e & <- & He). unfold sat. cbn [fst snd].
    specialize (H e He). rewrite cr_line in H. destruct e as [u v]. cbn [fst snd] in *. lra.
  - intros e He. rewrite cr_line. specialize (H _ (in_map _ _ _ He)). unfold sat in H. cbn [fst snd] in H. destruct e as [u v]. cbn [fst snd] in *. lra.
Qed.

(** ** The solver on triangles *)
Section Solver.
Variable g : gels R.
Hypothesis G : gels_spec g 2 2.
Variable tol : R.
Hypothesis tol_pos : 0 < tol < 1 / 2.

(** Triangle test. *)
Lemma tri_sound : forall p a b c, tri_inside tol g p a b c = true -> ~ (a = b /\ a = c) ->
  exists xi eta, - tol <= xi /\ - tol <= eta /\ xi + eta <= 1 + tol /\
    fst p = fst a + xi * (fst b - fst a) + eta * (fst c - fst a) /\
    snd p = snd a + xi * (snd b - snd a) + eta * (snd c - snd a).
Proof.
  intros p a b c H NE. unfold tri_inside in H. cbn [nsub NumR] in H.
  assert (S := solve2_spec g G (fst b - fst a) (fst c - fst a) (snd b - snd a) (snd c - snd a) (fst p - fst a) (snd p - snd a)).
  cbv zeta in S.
  destruct (solve2 g _ _ _ _ _ _) as [ier [xi eta]]. cbn [fst snd] in S. destruct S as (S1 & S2 & S3).
  destruct (0 <? ier)%Z eqn:I; [discriminate|]. apply Z.ltb_ge in I.
  rewrite !andb_true_iff in H. destruct H as [[[H1 H2] H3] H4].
  apply Rltb_true in H1. apply Rleb_true in H2. apply Rltb_true in H3. apply Rleb_true in H4.
  rewrite ?n1_R in *. cbn [nopp nadd NumR] in *.
  destruct (Req_dec ((fst b - fst a) * (snd c - snd a) - (fst c - fst a) * (snd b - snd a)) 0) as [D|D].
  - exfalso. assert (0 < ier)%Z; [|lia]. apply S2; auto. intros (E1 & E2 & E3 & E4). apply NE.
    split; apply pair_eq; lra.
  - destruct (S1 D) as (_ & Q1 & Q2). exists xi, eta. repeat split; lra.
Qed.

Lemma tri_complete : forall p a b c xi eta, 0 <= xi -> 0 <= eta -> xi + eta <= 1 -> cr a b c <> 0 ->
  fst p = fst a + xi * (fst b - fst a) + eta * (fst c - fst a) ->
  snd p = snd a + xi * (snd b - snd a) + eta * (snd c - snd a) -> tri_inside tol g p a b c = true.
Proof.
  intros p a b c xi eta H1 H2 H3 D P1 P2. unfold tri_inside. cbn [nsub NumR].
  assert (S := solve2_spec g G (fst b - fst a) (fst c - fst a) (snd b - snd a) (snd c - snd a) (fst p - fst a) (snd p - snd a)).
  cbv zeta in S.
  destruct (solve2 g _ _ _ _ _ _) as [ier [x y]]. cbn [fst snd] in S. destruct S as (S1 & _ & _).
  assert (D' : (fst b - fst a) * (snd c - snd a) - (fst c - fst a) * (snd b - snd a) <> 0) by (intros E; apply D; unfold cr; lra).
  destruct (S1 D') as (-> & Q1 & Q2). cbn [Z.ltb Z.compare].
  set (d := (fst b - fst a) * (snd c - snd a) - (fst c - fst a) * (snd b - snd a)) in *.
  assert (Ex : x = xi).
  { apply (Rmult_eq_reg_l d); auto. unfold d.
    replace (((fst b - fst a) * (snd c - snd a) - (fst c - fst a) * (snd b - snd a)) * x) with
      ((snd c - snd a) * ((fst b - fst a) * x + (fst c - fst a) * y) - (fst c - fst a) * ((snd b - snd a) * x + (snd c - snd a) * y)) by ring.
    rewrite Q1, Q2, P1, P2. ring. }
  assert (Ey : y = eta).
  { apply (Rmult_eq_reg_l d); auto. unfold d.
    replace (((fst b - fst a) * (snd c - snd a) - (fst c - fst a) * (snd b - snd a)) * y) with
      ((fst b - fst a) * ((snd b - snd a) * x + (snd c - snd a) * y) - (snd b - snd a) * ((fst b - fst a) * x + (fst c - fst a) * y)) by ring.
    rewrite Q1, Q2, P1, P2. ring. }
  subst x y. rewrite n1_R. cbn [nopp nadd NumR nlt nle]. 
  rewrite !andb_true_iff. repeat split; apply Rltb_true || apply Rleb_true; lra.
Qed.

(** Three equal nodes: the matrix is zero and everything is inside. *)
Lemma tri_collapsed : forall p a b c, a = b -> a = c -> tri_inside tol g p a b c = true.
Proof.
  intros p a b c <- <-. unfold tri_inside. cbn [nsub NumR].
  assert (S := solve2_spec g G (fst a - fst a) (fst a - fst a) (snd a - snd a) (snd a - snd a) (fst p - fst a) (snd p - snd a)).
  cbv zeta in S.
  destruct (solve2 g _ _ _ _ _ _) as [ier [x y]]. cbn [fst snd] in S. destruct S as (_ & _ & S3).
  destruct S3 as (-> & -> & ->); try lra. cbn [Z.ltb Z.compare].
  rewrite n1_R. cbn [nopp nadd NumR nlt nle]. 
  rewrite !andb_true_iff. repeat split; apply Rltb_true || apply Rleb_true; lra.
Qed.

Definition not_collapsed (q : quadR) : Prop := ~ (q0 q = q1 q /\ q0 q = q3 q) /\ ~ (q2 q = q3 q /\ q2 q = q1 q).

Lemma quad_inside_sound : forall p q, not_collapsed q -> quad_inside tol g p q = true -> combination tol (nodes q) p.
Proof.
  intros p q [N1 N2] H. unfold quad_inside in H. apply orb_prop in H. 
  destruct H as [H|H]; apply tri_sound in H; auto; destruct H as (xi & eta & A1 & A2 & A3 & A4 & A5).
  - exists [1 - xi - eta; xi; 0; eta]. split; [reflexivity|]. split; [repeat (constructor; [lra|]); constructor|].
    cbn [wsum nodes map]. repeat split; lra.
  - exists [0; eta; 1 - xi - eta; xi]. split; [reflexivity|]. split; [repeat (constructor; [lra|]); constructor|].
    cbn [wsum nodes map]. repeat split; lra.
Qed.

Lemma hull_comb : forall V p, in_hull V p -> combination tol V p.
Proof.
  intros V p (w & A & B & C). exists w. split; auto. split; auto. 
  eapply Forall_impl; [|exact B]. cbn. intros. lra.
Qed.

Lemma in_quad_cell : forall sg q p, convexq sg q -> in_quad sg q p -> quad_inside tol g p q = true.
Proof.
  intros sg q p (Sg & C0 & C1 & C2 & C3) H. unfold quad_inside. apply orb_true_iff.
  assert (E0 := H _ (or_introl eq_refl)). assert (E1 := H _ (or_intror (or_introl eq_refl))).
  assert (E2 := H _ (or_intror (or_intror (or_introl eq_refl)))).
  assert (E3 := H _ (or_intror (or_intror (or_intror (or_introl eq_refl))))). cbn [fst snd] in *.
  destruct (Rle_dec 0 (sg * cr (q1 q) (q3 q) p)) as [D|D].
  - left. set (d := cr (q0 q) (q1 q) (q3 q)).
    assert (Dp : 0 < sg * d) by (unfold d; clear - C3; unfold cr in *; lra).
    assert (Dn : d <> 0) by (intros E; rewrite E in Dp; lra).
    assert (Di : forall x, 0 <= sg * x -> 0 <= x / d).
    { intros x Hx. destruct (Rlt_dec 0 d) as [L|L].
      - apply Rmult_le_pos; [|apply Rlt_le, Rinv_0_lt_compat; auto]. destruct Sg as [-> | ->]; lra.
      - replace (x / d) with ((- x) * / (- d)) by (field; auto).
        apply Rmult_le_pos; [|apply Rlt_le, Rinv_0_lt_compat; lra]. destruct Sg as [-> | ->]; lra. }
    apply (tri_complete p (q0 q) (q1 q) (q3 q) (cr (q3 q) (q0 q) p / d) (cr (q0 q) (q1 q) p / d)); auto.
    + enough (0 <= cr (q1 q) (q3 q) p / d); [|auto].
      replace (cr (q3 q) (q0 q) p / d + cr (q0 q) (q1 q) p / d) with (1 - cr (q1 q) (q3 q) p / d); [lra|].
      unfold d. unfold cr. field. exact Dn.
    + unfold d, cr in *. field. exact Dn.
    + unfold d, cr in *. field. exact Dn.
  - right. set (d := cr (q2 q) (q3 q) (q1 q)).
    assert (Dp : 0 < sg * d) by (unfold d; clear - C1; unfold cr in *; lra).
    assert (Dn : d <> 0) by (intros E; rewrite E in Dp; lra).
    assert (Di : forall x, 0 <= sg * x -> 0 <= x / d).
    { intros x Hx. destruct (Rlt_dec 0 d) as [L|L].
      - apply Rmult_le_pos; [|apply Rlt_le, Rinv_0_lt_compat; auto]. destruct Sg as [-> | ->]; lra.
      - replace (x / d) with ((- x) * / (- d)) by (field; auto).
        apply Rmult_le_pos; [|apply Rlt_le, Rinv_0_lt_compat; lra]. destruct Sg as [-> | ->]; lra. }
    apply (tri_complete p (q2 q) (q3 q) (q1 q) (cr (q1 q) (q2 q) p / d) (cr (q2 q) (q3 q) p / d)); auto.
    + assert (A : 0 <= sg * cr (q3 q) (q1 q) p).
      { replace (cr (q3 q) (q1 q) p) with (- cr (q1 q) (q3 q) p) by (unfold cr; ring). lra. }
      enough (0 <= cr (q3 q) (q1 q) p / d); [|auto].
      replace (cr (q1 q) (q2 q) p / d + cr (q2 q) (q3 q) p / d) with (1 - cr (q3 q) (q1 q) p / d); [lra|].
      unfold d. unfold cr. field. exact Dn.
    + unfold d, cr in *. field. exact Dn.
    + unfold d, cr in *. field. exact Dn.
Qed.

End Solver.
