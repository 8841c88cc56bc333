(** Intersection of a quad and a segment. *)
From Coq Require Import ZArith List Bool Reals Lra Lia Permutation.
From Verif Require Import Base Num NumR M_LinearSolve M_Triangulate M_Quad M_QuadLine S_LinAlg S_Geometry S_Quad S_Sort
  L_Solve2 L_Polygon L_Hull L_Quad.
Import ListNotations.
Open Scope R_scope.

(** ** Any arithmetic *)
Section Any.
Context {T : Type} {N : Num T}.

Lemma edge_line_range : forall g a b c d (t : T), In t (edge_line g a b c d) ->
  nle (nopp ql_tol) t = true /\ nlt t (nadd n1 ql_tol) = true.
Proof.
  intros g a b c d t H. unfold edge_line in H. destruct (solve2 g _ _ _ _ _ _) as [ier [xi eta]].
  destruct (0 <? ier)%Z; [destruct H|]. destruct (_ && _) eqn:B; [|destruct H]. destruct H as [<-|[]].
  rewrite !andb_true_iff in B. tauto.
Qed.

Lemma lambdas_range : forall g q l (t : T), In t (line_lambdas g q l) ->
  t = n0 \/ t = n1 \/ (nle (nopp ql_tol) t = true /\ nlt t (nadd n1 ql_tol) = true).
Proof.
  intros g q l t H. unfold line_lambdas in H. rewrite !in_app_iff in H. destruct H as [H|[H|H]].
  - destruct (quad_inside _ _ _ _); [|destruct H]. destruct H as [<-|[]]. auto.
  - apply in_flat_map in H. destruct H as (e & _ & H). right. right. eapply edge_line_range; eauto.
  - destruct (quad_inside _ _ _ _); [|destruct H]. destruct H as [<-|[]]. auto.
Qed.

End Any.

(** ** Exact arithmetic *)
Definition qtolR : R := 100 / 2 ^ 52.
Lemma ql_tol_R : ql_tol (T := R) = qtolR.
Proof. unfold ql_tol, neps, qtolR. rewrite lit_R. cbn [nmul nofZ NumR]. lra. Qed.
Lemma qtol_pos : 0 < qtolR < 1 / 2.
Proof. unfold qtolR. lra. Qed.

Section Solver.
Variable g : gels R.
Hypothesis G : gels_spec g 2 2.

Lemma edge_line_sound : forall a b c d t, In t (edge_line g a b c d) -> ~ (a = b /\ c = d) ->
  exists s, on_seg c d t = on_seg a b s /\ - qtolR <= s <= 1 + qtolR /\ - qtolR <= t <= 1 + qtolR /\ turn a b c d <> 0.
Proof.
  intros a b c d t H NE. unfold edge_line in H. cbn [nsub NumR] in H.
  assert (S := solve2_spec g G (fst b - fst a) (fst c - fst d) (snd b - snd a) (snd c - snd d) (fst c - fst a) (snd c - snd a)).
  cbv zeta in S.
  destruct (solve2 g _ _ _ _ _ _) as [ier [xi eta]]. cbn [fst snd] in S. destruct S as (S1 & S2 & S3).
  destruct (0 <? ier)%Z eqn:I; [destruct H|]. apply Z.ltb_ge in I.
  destruct (_ && _) eqn:B; [|destruct H]. destruct H as [<-|[]].
  rewrite !andb_true_iff in B. destruct B as [[[H1 H2] H3] H4].
  apply Rleb_true in H1. apply Rltb_true in H2. apply Rleb_true in H3. apply Rltb_true in H4.
  rewrite ql_tol_R, ?n1_R in *. cbn [nsub nadd nopp NumR] in *. pose proof qtol_pos.
  destruct (Req_dec ((fst b - fst a) * (snd c - snd d) - (fst c - fst d) * (snd b - snd a)) 0) as [D|D].
  - exfalso. assert (0 < ier)%Z; [|lia]. apply S2; auto. intros (E1 & E2 & E3 & E4). apply NE.
    split; apply pair_eq; lra.
  - destruct (S1 D) as (_ & Q1 & Q2). exists xi. repeat split; try lra.
    + apply pair_eq; unfold on_seg; cbn [fst snd]; lra.
    + unfold turn. lra.
Qed.

Lemma edge_line_complete : forall a b c d s t, on_seg a b s = on_seg c d t -> turn a b c d <> 0 ->
  - qtolR <= s < 1 + qtolR -> - qtolR <= t < 1 + qtolR -> In t (edge_line g a b c d).
Proof.
  intros a b c d s t E D Hs Ht. unfold edge_line. cbn [nsub NumR].
  assert (S := solve2_spec g G (fst b - fst a) (fst c - fst d) (snd b - snd a) (snd c - snd d) (fst c - fst a) (snd c - snd a)).
  cbv zeta in S.
  destruct (solve2 g _ _ _ _ _ _) as [ier [x y]]. cbn [fst snd] in S. destruct S as (S1 & _ & _).
  unfold on_seg in E. injection E as P1 P2. unfold turn in D.
  set (d' := (fst b - fst a) * (snd c - snd d) - (fst c - fst d) * (snd b - snd a)) in *.
  assert (D' : d' <> 0) by (unfold d'; lra).
  destruct (S1 D') as (-> & Q1 & Q2). cbn [Z.ltb Z.compare].
  assert (F1 : s * (fst b - fst a) + t * (fst c - fst d) = fst c - fst a) by lra.
  assert (F2 : s * (snd b - snd a) + t * (snd c - snd d) = snd c - snd a) by lra.
  assert (Ex : x = s).
  { apply (Rmult_eq_reg_l d'); auto. unfold d'.
    replace (((fst b - fst a) * (snd c - snd d) - (fst c - fst d) * (snd b - snd a)) * x) with
      ((snd c - snd d) * ((fst b - fst a) * x + (fst c - fst d) * y) - (fst c - fst d) * ((snd b - snd a) * x + (snd c - snd d) * y)) by ring.
    rewrite Q1, Q2, <- F1, <- F2. ring. }
  assert (Ey : y = t).
  { apply (Rmult_eq_reg_l d'); auto. unfold d'.
    replace (((fst b - fst a) * (snd c - snd d) - (fst c - fst d) * (snd b - snd a)) * y) with
      ((fst b - fst a) * ((snd b - snd a) * x + (snd c - snd d) * y) - (snd b - snd a) * ((fst b - fst a) * x + (fst c - fst d) * y)) by ring.
    rewrite Q1, Q2, <- F1, <- F2. ring. }
  subst x y. rewrite ql_tol_R, n1_R. cbn [nsub nadd nopp NumR nlt nle].
  assert (B : Rleb (- qtolR) s && Rltb s (1 + qtolR) && Rleb (- qtolR) t && Rltb t (1 + qtolR) = true).
  { rewrite !andb_true_iff. repeat split; apply Rltb_true || apply Rleb_true; lra. }
  rewrite B. simpl. auto.
Qed.

(** Returned points are in the quad up to the tolerance. *)
Lemma lambda_point_in_quad : forall q l t, not_collapsed q ->
  (forall e, In e (qedges q) -> ~ (fst e = snd e /\ fst l = snd l)) ->
  In t (line_lambdas g q l) -> combination qtolR (nodes q) (on_seg (fst l) (snd l) t).
Proof.
  intros q l t NC NE H. unfold line_lambdas in H. rewrite !in_app_iff in H. pose proof qtol_pos as QP.
  destruct H as [H|[H|H]].
  - destruct (quad_inside _ _ _ _) eqn:E; [|destruct H]. destruct H as [<-|[]]. rewrite ql_tol_R in E.
    replace (on_seg (fst l) (snd l) n0) with (fst l).
    + apply (quad_inside_sound g G qtolR QP); auto.
    + apply pair_eq; unfold on_seg; cbn [fst snd]; change (n0 : R) with 0; ring.
  - apply in_flat_map in H. destruct H as (e & He & H).
    apply edge_line_sound in H; [|apply NE; auto]. destruct H as (s & E & Hs & Ht & _). rewrite E.
    simpl in He. destruct He as [<-|[<-|[<-|[<-|[]]]]]; cbn [fst snd].
    + exists [1 - s; s; 0; 0]. split; [reflexivity|]. split; [repeat (constructor; [lra|]); constructor|].
      unfold on_seg. cbn [wsum nodes map fst snd]. repeat split; lra.
    + exists [0; 1 - s; s; 0]. split; [reflexivity|]. split; [repeat (constructor; [lra|]); constructor|].
      unfold on_seg. cbn [wsum nodes map fst snd]. repeat split; lra.
    + exists [0; 0; 1 - s; s]. split; [reflexivity|]. split; [repeat (constructor; [lra|]); constructor|].
      unfold on_seg. cbn [wsum nodes map fst snd]. repeat split; lra.
    + exists [s; 0; 0; 1 - s]. split; [reflexivity|]. split; [repeat (constructor; [lra|]); constructor|].
      unfold on_seg. cbn [wsum nodes map fst snd]. repeat split; lra.
  - destruct (quad_inside _ _ _ _) eqn:E; [|destruct H]. destruct H as [<-|[]]. rewrite ql_tol_R in E.
    replace (on_seg (fst l) (snd l) n1) with (snd l).
    + apply (quad_inside_sound g G qtolR QP); auto.
    + apply pair_eq; unfold on_seg; cbn [fst snd]; change (n1 : R) with 1; ring.
Qed.

(** The part of the segment inside a convex quad, possibly with sides of length zero: its two ends are
    returned. *)
Lemma inside_part_gen : forall sg q l t, sg <> 0 -> (forall p, in_quad sg q p -> quad_inside qtolR g p q = true) ->
  (forall e p, In e (qedges q) -> fst e <> snd e -> in_quad sg q p -> cr (fst e) (snd e) p = 0 ->
     exists t, 0 <= t <= 1 /\ p = on_seg (fst e) (snd e) t) ->
  0 <= t <= 1 -> in_quad sg q (on_seg (fst l) (snd l) t) ->
  exists t0 t1, t0 <= t <= t1 /\ 0 <= t0 /\ t1 <= 1 /\
    In t0 (line_lambdas g q l) /\ In t1 (line_lambdas g q l) /\
    (forall u, (0 <= u <= 1 /\ in_quad sg q (on_seg (fst l) (snd l) u)) <-> t0 <= u <= t1).
Proof.
  intros sg q l t Sb INS EPA Ht Hq. pose proof qtol_pos as QP.
  set (d := (fst (snd l) - fst (fst l), snd (snd l) - snd (fst l)) : point).
  assert (ON : forall t, on_seg (fst l) (snd l) t = (fst (fst l) + t * fst d, snd (fst l) + t * snd d)) by reflexivity.
  set (L := (0, 1) :: (1, -1) :: cons sg q (fst l) d).
  assert (SL : forall t, (forall c, In c L -> sat t c) <-> (0 <= t <= 1 /\ in_quad sg q (on_seg (fst l) (snd l) t))).
  { intros u. rewrite ON, cons_sat. split.
    - intros H. assert (A := H _ (or_introl eq_refl)). assert (B := H _ (or_intror (or_introl eq_refl))).
      unfold sat in A, B. cbn [fst snd] in A, B. split; [lra|]. intros c Hc. apply H. simpl. auto.
    - intros [H1 H2] c [<-|[<-|Hc]]; [unfold sat; simpl; lra|unfold sat; simpl; lra|auto]. }
  assert (E0 : on_seg (fst l) (snd l) 0 = fst l) by (apply pair_eq; unfold on_seg; cbn [fst snd]; ring).
  assert (E1 : on_seg (fst l) (snd l) 1 = snd l) by (apply pair_eq; unfold on_seg; cbn [fst snd]; ring).
  assert (K : forall t c, (forall c, In c L -> sat t c) -> In c L -> snd c <> 0 -> fst c + snd c * t = 0 ->
    In t (line_lambdas g q l)).
  { intros u c H Hc NZ Tg. apply SL in H. destruct H as [Hu Hqu]. unfold line_lambdas. rewrite !in_app_iff.
    destruct Hc as [<-|[<-|Hc]]; cbn [fst snd] in *.
    - assert (u = 0) by lra. subst u. rewrite E0 in Hqu. left.
      assert (IQ := INS _ Hqu). rewrite ql_tol_R.
      match goal with |- In _ (if ?b then _ else _) => change b with (quad_inside qtolR g (fst l) q) end. rewrite IQ. left. reflexivity.
    - assert (u = 1) by lra. subst u. rewrite E1 in Hqu. right. right.
      assert (IQ := INS _ Hqu). rewrite ql_tol_R.
      match goal with |- In _ (if ?b then _ else _) => change b with (quad_inside qtolR g (snd l) q) end. rewrite IQ. left. reflexivity.
    - right. left. unfold cons in Hc. apply in_map_iff in Hc. destruct Hc as (f & <- & Hf). cbn [fst snd] in *.
      assert (Zf : cr (fst f) (snd f) (on_seg (fst l) (snd l) u) = 0).
      { rewrite ON, cr_line. apply (Rmult_eq_reg_l sg); auto. rewrite Rmult_0_r. lra. }
      assert (NF : fst f <> snd f) by (intros E; apply NZ; unfold lin; rewrite E; ring).
      destruct (EPA f _ Hf NF Hqu Zf) as (s & Hs & Es).
      apply in_flat_map. exists f. split; auto. apply (edge_line_complete _ _ _ _ s u); auto; try lra.
      intros T0. apply NZ. unfold turn in T0. unfold lin, d. cbn [fst snd].
      clear - T0. destruct l as [ea eb], f as [fa fb]. cbn [fst snd] in *.
      replace (sg * _) with (sg * ((fst fb - fst fa) * (snd eb - snd ea) - (snd fb - snd fa) * (fst eb - fst ea))) by ring.
      rewrite T0. ring. }
  assert (F0 : forall c, In c L -> sat t c) by (apply SL; auto).
  destruct (low_end L t F0) as (t0 & T1 & T2 & c0 & C1 & C2 & C3); [exists (0, 1); simpl; split; [auto|lra]|].
  destruct (high_end L t F0) as (t1 & U1 & U2 & c1 & D1 & D2 & D3); [exists (1, -1); simpl; split; [auto|lra]|].
  exists t0, t1. split; [lra|].
  assert (A := T2 (0, 1) (or_introl eq_refl)). assert (B := U2 (1, -1) (or_intror (or_introl eq_refl))).
  unfold sat in A, B. cbn [fst snd] in A, B.
  split; [lra|]. split; [lra|].
  split; [apply (K t0 c0); auto; lra|]. split; [apply (K t1 c1); auto; lra|].
  intros u. rewrite <- SL. split.
  - intros H. assert (X := H c0 C1). assert (Y := H c1 D1). unfold sat in X, Y.
    split; [destruct (Rle_dec t0 u); auto; exfalso; nra|destruct (Rle_dec u t1); auto; exfalso; nra].
  - intros Hu c Hc. assert (X := T2 c Hc). assert (Y := U2 c Hc). unfold sat in *.
    destruct (Rle_dec 0 (snd c)); nra.
Qed.

(** The part of the segment inside a convex quad: its two ends are returned. *)
Lemma inside_part : forall sg q l t, convexq sg q -> 0 <= t <= 1 -> in_quad sg q (on_seg (fst l) (snd l) t) ->
  exists t0 t1, t0 <= t <= t1 /\ 0 <= t0 /\ t1 <= 1 /\
    In t0 (line_lambdas g q l) /\ In t1 (line_lambdas g q l) /\
    (forall u, (0 <= u <= 1 /\ in_quad sg q (on_seg (fst l) (snd l) u)) <-> t0 <= u <= t1).
Proof.
  intros sg q l t CQ Ht Hq. apply inside_part_gen; auto.
  - destruct CQ as [[-> | ->] _]; lra.
  - intros p Hp. apply (in_quad_cell g G qtolR qtol_pos sg); auto.
  - intros e p He _ Hp Z. apply (edge_param sg q); auto.
Qed.

End Solver.
