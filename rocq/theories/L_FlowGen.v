(** Flow interpolation in exact arithmetic: fluxes of stream functions on grids of convex quads. *)
From Coq Require Import ZArith List Bool Reals Lra Lia Permutation.
From Verif Require Import Base Num NumR M_BoxIterator M_LinearSolve M_FindPoint M_Triangulate M_Quad M_QuadLine M_FlowInterp
  S_LinAlg S_Geometry S_Quad S_Grid S_Flow S_Sort S_Array L_Box2 L_Hull L_Quad L_QuadLine L_Flow L_FlowInterp L_Intervals.
Import ListNotations.
Open Scope R_scope.

(** ** A convex quad is the hull of its corners *)
Lemma tri_hull : forall sg D u v z, (sg = 1 \/ sg = -1) -> 0 < sg * D -> 0 <= sg * u -> 0 <= sg * v -> 0 <= sg * z ->
  - 0 <= u / D /\ - 0 <= v / D /\ - 0 <= z / D.
Proof.
  intros sg D u v z Sg HD U V Z.
  assert (K : forall b, 0 <= sg * b -> - 0 <= b / D).
  { intros b B. replace (b / D) with (sg * b * / (sg * D)) by (field; destruct Sg as [-> | ->]; split; lra).
    assert (0 <= sg * b * / (sg * D)); [|lra]. apply Rmult_le_pos; auto. left. apply Rinv_0_lt_compat. auto. }
  auto.
Qed.

Lemma quad_in_hull : forall sg q p, convexq sg q -> in_quad sg q p -> in_hull (nodes q) p.
Proof.
  intros sg q p (Sg & C0 & C1 & C2 & C3) H.
  assert (H0 := H _ (or_introl eq_refl)). assert (H1 := H _ (or_intror (or_introl eq_refl))).
  assert (H2 := H _ (or_intror (or_intror (or_introl eq_refl)))).
  assert (H3 := H _ (or_intror (or_intror (or_intror (or_introl eq_refl))))). cbn [fst snd] in *.
  destruct (Rle_dec (sg * cr (q0 q) (q2 q) p) 0) as [S|S].
  - assert (D : cr (q0 q) (q1 q) (q2 q) <> 0) by (intros E; rewrite E in C0; lra).
    assert (S' : 0 <= sg * cr (q2 q) (q0 q) p) by (replace (cr (q2 q) (q0 q) p) with (- cr (q0 q) (q2 q) p) by (unfold cr; ring); lra).
    destruct (tri_hull sg _ _ _ _ Sg C0 H1 S' H0) as (W0 & W1 & W2).
    exists [cr (q1 q) (q2 q) p / cr (q0 q) (q1 q) (q2 q); cr (q2 q) (q0 q) p / cr (q0 q) (q1 q) (q2 q);
      cr (q0 q) (q1 q) p / cr (q0 q) (q1 q) (q2 q); 0]. split; [reflexivity|].
    split; [repeat (constructor; [assumption|]); constructor; [lra|constructor]|].
    cbn [nodes map wsum]. repeat split; unfold cr in *; field; exact D.
  - assert (D : cr (q2 q) (q3 q) (q0 q) <> 0) by (intros E; rewrite E in C2; lra).
    assert (S' : 0 <= sg * cr (q0 q) (q2 q) p) by lra.
    destruct (tri_hull sg _ _ _ _ Sg C2 H3 S' H2) as (W0 & W1 & W2).
    exists [cr (q2 q) (q3 q) p / cr (q2 q) (q3 q) (q0 q); 0; cr (q3 q) (q0 q) p / cr (q2 q) (q3 q) (q0 q);
      cr (q0 q) (q2 q) p / cr (q2 q) (q3 q) (q0 q)]. split; [reflexivity|].
    split; [constructor; [assumption|]; constructor; [lra|]; repeat (constructor; [assumption|]); constructor|].
    cbn [nodes map wsum]. repeat split; unfold cr in *; field; exact D.
Qed.

Lemma hull_iff : forall sg q p, convexq sg q -> (in_quad sg q p <-> in_hull (nodes q) p).
Proof. intros. split; [eapply quad_in_hull|eapply hull_in_quad]; eauto. Qed.

Lemma convexq_not_collapsed : forall sg q, convexq sg q -> not_collapsed q.
Proof.
  intros sg q (Sg & C0 & C1 & C2 & C3). split; intros [E1 E2].
  - rewrite <- E1 in C0. unfold cr in C0. destruct Sg as [-> | ->]; lra.
  - rewrite <- E2 in C0. unfold cr in C0. destruct Sg as [-> | ->]; lra.
Qed.

Definition dotw (w : list R) (p00 p10 p01 p11 : R) : R :=
  nth 0 w 0 * (p10 - p00) + nth 1 w 0 * (p11 - p01) + nth 2 w 0 * (p01 - p00) + nth 3 w 0 * (p11 - p10).

Lemma last_cons : forall {A} (l : list A) a b, last (b :: l) a = last l b.
Proof. induction l as [|c l IH]; intros a b; [reflexivity|]. change (last (b :: c :: l) a) with (last (c :: l) a). rewrite !IH. reflexivity. Qed.

(** ** Cells in which the search finds known indices *)
Definition P (l : point * point) (t : R) : point := on_seg (fst l) (snd l) t.
Definition inside (q : quad R) (l : point * point) (t : R) : Prop := 0 <= t <= 1 /\ in_hull (nodes q) (P l t).

Lemma on_seg_0 : forall A B, on_seg A B 0 = A.
Proof. intros A B. apply pair_eq; unfold on_seg; cbn [fst snd]; ring. Qed.
Lemma on_seg_1 : forall A B, on_seg A B 1 = B.
Proof. intros A B. apply pair_eq; unfold on_seg; cbn [fst snd]; ring. Qed.

(** A cell for which the intersection with a segment is found: the parameters include the ends of the
    part of the segment in the cell. *)
Definition flow_cell (g : gels R) (q : quad R) : Prop := not_collapsed q /\
  forall l t, inside q l t -> exists t0 t1, t0 <= t <= t1 /\ In t0 (line_lambdas g q l) /\ In t1 (line_lambdas g q l) /\
    forall u, inside q l u <-> t0 <= u <= t1.

Lemma convex_flow_cell : forall g sg q, gels_spec g 2 2 -> convexq sg q -> flow_cell g q.
Proof.
  intros g sg q G CQ. split; [apply (convexq_not_collapsed sg); auto|]. assert (IC := fun p => hull_iff sg q p CQ).
  intros l t [Ht Hc]. apply IC in Hc. destruct (inside_part g G sg q l t CQ Ht Hc) as (t0 & t1 & B & _ & _ & J0 & J1 & J).
  exists t0, t1. split; [lra|]. split; [auto|]. split; [auto|]. intros u. rewrite <- J. unfold inside. rewrite <- IC. reflexivity.
Qed.

Lemma convex_edges : forall sg q e, convexq sg q -> In e (qedges q) -> fst e <> snd e.
Proof. intros sg q e CQ He E. destruct (edge_nbrs sg q e CQ He) as (z & c & _ & _ & _ & X). rewrite E in X. revert X. unfold cr. lra. Qed.

Section Gen.
Variable g : gels R.
Hypothesis G : gels_spec g 2 2.
(** [okq]: the cells; [good q p]: points of the cell q for which the search returns the
    indices (fx q p, fy q p). *)
Variables (okq : quad R -> Prop) (good : quad R -> point -> Prop) (fx fy : quad R -> point -> R).
Hypothesis OKC : forall q, okq q -> flow_cell g q.
Hypothesis FIND : forall q f (p : pt R), okq q -> finder_ready q f -> good q p ->
  exists code f', qf_find g f p = Ret (code, [fx q p; fy q p], f') /\ finder_ready q f'.

(** Value of the bilinear function at a point. *)
Definition val (q : quad R) (p00 p10 p01 p11 : R) (p : point) : R := bilinear p00 p10 p01 p11 (fx q p) (fy q p).

(** ** Consecutive sub-segments of a cell *)

Lemma proj_ok : forall q s (a b : pt R), finder_ready q (qf_finder s) -> okq q -> good q a -> good q b ->
  exists res s', qf_computeProjections g (qf_setLinePoints s (a, b)) = Ret (res, s') /\ finder_ready q (qf_finder s') /\
    qf_proj s' = Some (projections (fx q a) (fy q a) (fx q b) (fy q b)).
Proof.
  intros q s a b FR HP GA GB. unfold qf_computeProjections, qf_indices, qf_setLinePoints. cbn [qf_line qf_finder fst snd].
  destruct (FIND q (qf_finder s) a HP FR GA) as (c1 & f1 & E1 & FR1).
  rewrite E1. cbn [bind].
  destruct (FIND q f1 b HP FR1 GB) as (c2 & f2 & E2 & FR2).
  rewrite E2. cbn [bind]. cbn [qf_xia qf_xib].
  change (vget [fx q a; fy q a] 0) with (Ret (fx q a)). change (vget [fx q a; fy q a] 1) with (Ret (fy q a)).
  change (vget [fx q b; fy q b] 0) with (Ret (fx q b)). change (vget [fx q b; fy q b] 1) with (Ret (fy q b)). cbn [bind].
  eexists _, _. split; [reflexivity|]. auto.
Qed.

Lemma segments_ok : forall q, okq q -> forall (rest : list (pt R)) (a : pt R) s w, finder_ready q (qf_finder s) ->
  good q a -> (forall p, In p rest -> good q p) -> length w = 4%nat ->
  exists w' s', fl_segments g s (a :: rest) w = Ret (w', s') /\ finder_ready q (qf_finder s') /\ length w' = 4%nat /\
    forall p00 p10 p01 p11, dotw w' p00 p10 p01 p11 =
      dotw w p00 p10 p01 p11 + (val q p00 p10 p01 p11 (last rest a) - val q p00 p10 p01 p11 a).
Proof.
  intros q HP. induction rest as [|b rest IH]; intros a s w FR Ha Hr L.
  - exists w, s. split; [reflexivity|]. split; auto. split; auto. intros. cbn [last]. lra.
  - assert (SC := segments_cons g s a b rest w).
    match type of SC with ?l = _ => match goal with |- context [fl_segments g s ?z w] => change (fl_segments g s z w) with l end end.
    rewrite SC. clear SC.
    destruct (proj_ok q s a b FR HP Ha (Hr b (or_introl eq_refl))) as (res & s1 & E1 & FR1 & PR). rewrite E1. cbn [bind snd].
    destruct (projections (fx q a) (fy q a) (fx q b) (fy q b)) as [[[u0 u1] u2] u3] eqn:PE.
    unfold qf_getProjection. rewrite PR.
    change (vget [u0; u1; u2; u3] 0) with (Ret u0). change (vget [u0; u1; u2; u3] 1) with (Ret u1).
    change (vget [u0; u1; u2; u3] 2) with (Ret u2). change (vget [u0; u1; u2; u3] 3) with (Ret u3). cbn [bind].
    destruct w as [|v0 [|v1 [|v2 [|v3 [|]]]]]; try discriminate L. cbn [combine map fst snd].
    destruct (IH b s1 [nadd v0 u0; nadd v1 u1; nadd v2 u2; nadd v3 u3] FR1 (Hr b (or_introl eq_refl))) as (w' & s' & E' & FR' & L' & H');
      [intros p Hp; apply Hr; right; auto|reflexivity|].
    exists w', s'. split; [exact E'|]. split; auto. split; auto. intros p00 p10 p01 p11. rewrite H', last_cons.
    assert (PX := projections_exact _ _ _ _ _ _ _ _ PE p00 p10 p01 p11). fold (val q p00 p10 p01 p11 a) in PX. fold (val q p00 p10 p01 p11 b) in PX.
    unfold dotw. cbn [nth nadd NumR]. lra.
Qed.

(** ** One cell *)
Lemma no_miss_lambdas : forall q l, okq q -> (forall e, In e (qedges q) -> ~ (fst e = snd e /\ fst l = snd l)) ->
  no_near_miss qtolR (q0 q) (q1 q) (q2 q) (q3 q) (fst l) (snd l) ->
  forall t, In t (line_lambdas g q l) -> inside q l t.
Proof.
  intros q l HP ED [NE NC] t H. destruct (OKC q HP) as (CN & _). unfold line_lambdas in H. rewrite !in_app_iff in H.
  assert (QP := qtol_pos). unfold inside.
  destruct H as [H|[H|H]].
  - destruct (quad_inside _ _ _ _) eqn:E; [|destruct H]. destruct H as [<-|[]]. rewrite ql_tol_R in E.
    change (n0 : R) with 0. split; [lra|].
    replace (P l 0) with (fst l) by (apply pair_eq; unfold P, on_seg; cbn [fst snd]; ring).
    apply NE; auto. apply (quad_inside_sound g G qtolR QP); auto.
  - apply in_flat_map in H. destruct H as (e & He & H).
    apply (edge_line_sound g G) in H; [|apply ED; auto].
    destruct H as (s & E & Hs & Ht & Tn). symmetry in E. destruct (NC e He s t E Tn Hs Ht) as [Hs' Ht']. split; auto.
    assert (EP : P l t = on_seg (fst e) (snd e) s) by (symmetry; exact E). rewrite EP. apply seg_in_hull; auto.
  - destruct (quad_inside _ _ _ _) eqn:E; [|destruct H]. destruct H as [<-|[]]. rewrite ql_tol_R in E.
    change (n1 : R) with 1. split; [lra|].
    replace (P l 1) with (snd l) by (apply pair_eq; unfold P, on_seg; cbn [fst snd]; ring).
    apply NE; auto. apply (quad_inside_sound g G qtolR QP); auto.
Qed.

(** If the boxes are apart no point of the segment is in the cell. *)
Lemma no_overlap : forall q l t, okq q -> quad_line_overlap q l = false -> ~ inside q l t.
Proof.
  intros q l t HP H [Ht Hc]. assert (HH := Hc).
  assert (XB := hull_x (nodes q) (P l t) (qmin fst q) (qmax fst q) HH
    ltac:(intros p Hp; split; [apply qmin_le|apply qmax_ge]; auto)).
  assert (YB := hull_y (nodes q) (P l t) (qmin snd q) (qmax snd q) HH
    ltac:(intros p Hp; split; [apply qmin_le|apply qmax_ge]; auto)).
  assert (B : forall (x : point -> R) u, (x (P l t) = x (fst l) + t * (x (snd l) - x (fst l))) -> u = x (P l t) ->
    smin (x (snd l)) (x (fst l)) <= u <= smax (x (snd l)) (x (fst l))).
  { intros x u E ->. rewrite E. assert (A1 := smin_le (x (snd l)) (x (fst l))). assert (A2 := smax_ge (x (snd l)) (x (fst l))).
    split; nra. }
  assert (X1 := B fst _ eq_refl eq_refl). assert (Y1 := B snd _ eq_refl eq_refl).
  unfold quad_line_overlap in H. cbv zeta in H. cbn [nle NumR] in H.
  assert (K : forall a b c d u, a <= u <= b -> c <= u <= d -> Rleb (smax a c) (smin b d) = true).
  { intros a b c d u H1 H2. apply Rleb_true. destruct (smax_one a c) as [-> | ->], (smin_one b d) as [-> | ->]; lra. }
  rewrite (K _ _ _ _ _ XB X1), (K _ _ _ _ _ YB Y1) in H. discriminate H.
Qed.

Definition winv (l : point * point) (x : flw R) : Prop :=
  ql_line (flw_ql x) = Some l /\ finder_inv (qf_finder (flw_qf x)) /\ sorted_map (flw_m x).

Lemma sorted_ends : forall (lams : list R) x rest t0 t1, lams = x :: rest -> ascending nlt lams ->
  In t0 lams -> In t1 lams -> (forall t, In t lams -> t0 <= t <= t1) -> x = t0 /\ last rest x = t1.
Proof.
  intros lams x rest t0 t1 E A I0 I1 B. 
  assert (M : forall i j, (i <= j < length lams)%nat -> nth i lams 0 <= nth j lams 0).
  { intros i j H. destruct (Nat.eq_dec i j) as [->|NE]; [lra|]. assert (X := A i j 0 ltac:(lia)). apply Rltb_false in X. lra. }
  assert (EL : last rest x = nth (length lams - 1) lams 0).
  { subst lams. cbn [length]. rewrite Nat.sub_succ, Nat.sub_0_r. clear. revert x. induction rest as [|y rest IH]; intros x; [reflexivity|].
    rewrite last_cons. rewrite IH. cbn [length nth]. reflexivity. }
  assert (EX : x = nth 0 lams 0) by (subst; reflexivity).
  assert (LL : (0 < length lams)%nat) by (subst; simpl; lia).
  assert (IX : In x lams) by (subst; simpl; auto). assert (IL : In (last rest x) lams) by (rewrite EL; apply nth_In; lia).
  apply In_nth with (d := 0) in I0. destruct I0 as (n0 & L0 & E0). apply In_nth with (d := 0) in I1. destruct I1 as (n1 & L1 & E1).
  assert (M0 := M 0%nat n0 ltac:(lia)). assert (M1 := M n1 (length lams - 1)%nat ltac:(lia)).
  assert (B0 := B _ IX). assert (B1 := B _ IL). rewrite EL in *. split; lra.
Qed.

Lemma cell_step : forall srt s dst src q l x, sorts srt -> okq q ->
  (forall t, In t (line_lambdas g q l) -> inside q l t /\ good q (P l t)) ->
  fl_srcQuad s src = Ret q -> winv l x ->
  exists x', fl_cell srt g s dst x src = Ret x' /\ winv l x' /\
    ((flw_m x' = flw_m x /\ exists E, forall t, inside q l t -> In t E) \/
     (exists w a b, flw_m x' = map_push (flw_m x) dst (src, w) /\ length w = 4%nat /\ a <= b /\
        (forall t, inside q l t <-> a <= t <= b) /\ good q (P l a) /\ good q (P l b) /\
        forall p00 p10 p01 p11, dotw w p00 p10 p01 p11 = val q p00 p10 p01 p11 (P l b) - val q p00 p10 p01 p11 (P l a))).
Proof.
  intros srt s dst src q l x ST HP HL EQ (I1 & I2 & I3). unfold fl_cell. rewrite EQ. cbn [bind].
  unfold ql_checkIfOverlap, ql_setQuadPoints, ql_reset. cbn [ql_quad ql_line ql_lambdas]. rewrite I1. cbn [bind].
  destruct (quad_line_overlap q l) eqn:OV; cbn [negb].
  2:{ eexists. split; [reflexivity|]. split; [unfold winv; cbn; auto|]. left. split; [reflexivity|].
      exists []. intros t Ht. destruct (no_overlap q l t HP OV Ht). }
  unfold ql_collect. cbn [ql_quad ql_line ql_lambdas app bind].
  destruct (ST nlt (line_lambdas g q l)) as [PM AS].
  assert (SW : strict_weak nlt (line_lambdas g q l)).
  { cbn [nlt NumR]. unfold strict_weak. split; [intros; apply Rltb_false; lra|]. split; intros u v z _ _ _;
      rewrite ?Rltb_true, ?Rltb_false; lra. }
  specialize (AS SW). change Rltb with (nlt (T := R)) in *. set (lams := srt nlt (line_lambdas g q l)) in *.
  assert (IG : forall t, In t lams -> inside q l t /\ good q (P l t)) by (intros t Ht; apply HL; eapply Permutation_in; eauto).
  assert (IL : forall t, In t lams -> inside q l t) by (intros t Ht; apply IG; auto).
  assert (IL' : forall t, In t (line_lambdas g q l) -> In t lams) by (intros t Ht; eapply Permutation_in; [apply Permutation_sym; exact PM|auto]).
  clearbody lams. rewrite map_length.
  assert (PART : forall t, inside q l t -> exists t0 t1, t0 <= t <= t1 /\ In t0 lams /\ In t1 lams /\ forall u, inside q l u <-> t0 <= u <= t1).
  { intros t Ht. destruct (proj2 (OKC q HP) l t Ht) as (t0 & t1 & B & J0 & J1 & J). exists t0, t1. auto. }
  destruct (2 <=? length lams)%nat eqn:L2.
  - apply Nat.leb_le in L2. destruct lams as [|x0 rest] eqn:EL; [simpl in L2; lia|].
    destruct (finder_set (qf_finder (flw_qf x)) q I2) as (f' & EF & FR). unfold qf_setQuadPoints. rewrite EF. cbn [bind].
    destruct (PART x0 (IL x0 (or_introl eq_refl))) as (t0 & t1 & B & J0 & J1 & J).
    destruct (sorted_ends (x0 :: rest) x0 rest t0 t1 eq_refl AS J0 J1) as [E0 E1]; [intros t Ht; apply J, IL; auto|].
    cbn [map].
    destruct (segments_ok q HP (map (fun t => along (fst l) (snd l) t) rest) (along (fst l) (snd l) x0)
      (mkQf (qf_line (flw_qf x)) (qf_proj (flw_qf x)) f' (qf_xia (flw_qf x)) (qf_xib (flw_qf x))) [n0; n0; n0; n0]) as (w & s' & ES & FS & LW & HW).
    + exact FR.
    + rewrite on_seg_along. apply (IG x0). left. reflexivity.
    + intros p Hp. apply in_map_iff in Hp. destruct Hp as (t & <- & Ht). rewrite on_seg_along. apply (IG t). right. auto.
    + reflexivity.
    + rewrite ES. cbn [bind fst snd]. eexists. split; [reflexivity|]. split; [unfold winv; cbn; split; auto; split; [apply FS|apply push_sorted; auto]|].
      right. exists w, t0, t1. cbn [flw_m]. split; [reflexivity|]. split; auto. split; [lra|]. split; [exact J|]. split; [apply IG; exact J0|]. split; [apply IG; exact J1|].
      intros p00 p10 p01 p11. rewrite HW.
      assert (EM : last (map (fun t => along (fst l) (snd l) t) rest) (along (fst l) (snd l) x0) = P l (last rest x0)).
      { clear. revert x0. induction rest as [|y rest IH]; intros x0; [reflexivity|]. cbn [map]. rewrite !last_cons. apply IH. }
      rewrite EM, E1. rewrite on_seg_along. fold (P l x0). rewrite E0.
      assert (Z : dotw [n0; n0; n0; n0] p00 p10 p01 p11 = 0) by (unfold dotw; cbn [nth]; change (n0 : R) with 0; ring).
      rewrite Z. change (on_seg (fst l) (snd l) t0) with (P l t0). lra.
  - apply Nat.leb_gt in L2. eexists. split; [reflexivity|]. split; [unfold winv; cbn; auto|]. left. split; [reflexivity|].
    exists lams. intros t Ht. destruct (PART t Ht) as (t0 & t1 & B & J0 & J1 & _).
    destruct lams as [|y [|]]; [destruct J0| |simpl in L2; lia]. destruct J0 as [<-|[]]. destruct J1 as [<-|[]].
    left. lra.
Qed.

(** ** All cells for one segment *)
Definition entry_good (cq : Z -> quad R) (l : point * point) (e : (Z * list R) * (R * R)) : Prop :=
  let c := fst (fst e) in let a := fst (snd e) in let b := snd (snd e) in
  length (snd (fst e)) = 4%nat /\ a <= b /\ (forall t, inside (cq c) l t <-> a <= t <= b) /\
  good (cq c) (P l a) /\ good (cq c) (P l b) /\
  forall p00 p10 p01 p11, dotw (snd (fst e)) p00 p10 p01 p11 =
    val (cq c) p00 p10 p01 p11 (P l b) - val (cq c) p00 p10 p01 p11 (P l a).

Definition segment_good (cq : Z -> quad R) (l : point * point) (cs : list Z) (r : list (Z * list R)) : Prop :=
  exists es E, r = map fst es /\ Forall (entry_good cq l) es /\ NoDup (map (fun e => fst (fst e)) es) /\
    (forall e, In e es -> In (fst (fst e)) cs) /\
    forall c t, In c cs -> inside (cq c) l t -> In t E \/ exists e, In e es /\ fst (fst e) = c.

Lemma cells_fold : forall srt s dst cq l cs x, sorts srt -> NoDup cs ->
  (forall c, In c cs -> fl_srcQuad s c = Ret (cq c) /\ okq (cq c) /\
     forall t, In t (line_lambdas g (cq c) l) -> inside (cq c) l t /\ good (cq c) (P l t)) ->
  winv l x -> exists x' r, foldM (fl_cell srt g s dst) cs x = Ret x' /\ winv l x' /\
    row (flw_m x') dst = row (flw_m x) dst ++ r /\ segment_good cq l cs r /\
    forall k, k <> dst -> row (flw_m x') k = row (flw_m x) k.
Proof.
  intros srt s dst cq l cs. induction cs as [|c cs IH]; intros x ST ND HC WI.
  - exists x, []. split; [reflexivity|]. split; auto. split; [rewrite app_nil_r; reflexivity|]. split; auto.
    exists [], []. split; [reflexivity|]. split; [constructor|]. split; [constructor|]. split; [intros e []|]. intros c t [].
  - inversion ND as [|? ? NI ND']; subst. cbn [foldM].
    destruct (HC c (or_introl eq_refl)) as (Q1 & Q2 & Q3).
    destruct (cell_step srt s dst c (cq c) l x ST Q2 Q3 Q1 WI) as (x1 & E1 & W1 & D).
    rewrite E1. cbn [bind].
    destruct (IH x1 ST ND' (fun c' H => HC c' (or_intror H)) W1) as (x' & r & E' & W' & R' & (es & E & Er & F & NDe & IN & CV) & O').
    destruct D as [(M & E0 & HE0)|(w & a & b & M & LW & AB & HI & GA & GB & HD)].
    + exists x', r. split; auto. split; auto. rewrite <- M. split; auto. split; auto.
      exists es, (E0 ++ E). split; auto. split; auto. split; auto. split; [intros e He; right; auto|].
      intros c' t [<-|Hc] Ht; [left; apply in_or_app; auto|].
      destruct (CV c' t Hc Ht) as [H|H]; [left; apply in_or_app; auto|auto].
    + exists x', ((c, w) :: r). split; auto. split; auto.
      split; [rewrite R', M, row_push_same by apply WI; rewrite <- app_assoc; reflexivity|].
      split; [|intros k Hk; rewrite O', M by auto; apply row_push_other; auto].
      exists (((c, w), (a, b)) :: es), E. split; [cbn [map fst]; congruence|].
      split; [constructor; auto; unfold entry_good; cbn [fst snd]; auto 10|].
      split; [cbn [map fst]; constructor; auto; intros H; apply in_map_iff in H; destruct H as (e & Ee & He); apply NI; rewrite <- Ee; auto|].
      split; [intros e [<-|He]; [left; reflexivity|right; auto]|].
      intros c' t [<-|Hc] Ht; [right; eexists; split; [left; reflexivity|reflexivity]|].
      destruct (CV c' t Hc Ht) as [H|(e & He & Ee)]; [auto|right; exists e; split; [right; auto|auto]].
Qed.

(** ** All segments *)
Definition winv0 (x : flw R) : Prop := finder_inv (qf_finder (flw_qf x)) /\ sorted_map (flw_m x).

Lemma segments_fold : forall srt s ns cq (line : Z -> point * point) ds x, sorts srt -> NoDup ds ->
  (forall k, In k ds -> fl_dstLine s k = Ret (line k)) ->
  (forall k c, In k ds -> (0 <= c < ns)%Z -> fl_srcQuad s c = Ret (cq c) /\ okq (cq c) /\
     forall t, In t (line_lambdas g (cq c) (line k)) -> inside (cq c) (line k) t /\ good (cq c) (P (line k) t)) ->
  winv0 x ->
  exists x', foldM (fl_segment srt g s ns) ds x = Ret x' /\ winv0 x' /\
    (forall k, In k ds -> exists r, row (flw_m x') k = row (flw_m x) k ++ r /\ segment_good cq (line k) (range ns) r) /\
    forall k, ~ In k ds -> row (flw_m x') k = row (flw_m x) k.
Proof.
  intros srt s ns cq line ds. induction ds as [|d ds IH]; intros x ST ND HL HC WI.
  - exists x. split; [reflexivity|]. split; auto. split; [intros k []|auto].
  - inversion ND as [|? ? NI ND']; subst. cbn [foldM]. unfold fl_segment at 1. rewrite (HL d (or_introl eq_refl)). cbn [bind].
    destruct (cells_fold srt s d cq (line d) (range ns)
      (mkFlw (ql_setLinePoints (flw_ql x) (line d)) (flw_qf x) (flw_m x)) ST) as (x1 & r & E1 & W1 & R1 & S1 & O1).
    + unfold range, zseq. apply FinFun.Injective_map_NoDup; [intros a b; apply Nat2Z.inj|apply seq_NoDup].
    + intros c Hc. apply in_range in Hc. apply HC; simpl; auto.
    + destruct WI. unfold winv. cbn. auto.
    + cbn [flw_m] in *. rewrite E1. cbn [bind].
      destruct (IH x1 ST ND') as (x' & E' & W' & G' & O').
      * intros k Hk. apply HL. right. auto.
      * intros k c Hk Hc. apply HC; auto. right. auto.
      * destruct W1 as (_ & W2 & W3). split; auto.
      * exists x'. split; auto. split; auto. split.
        -- intros k [<-|Hk]; [exists r; rewrite O' by auto; auto|].
           destruct (G' k Hk) as (r' & R' & S'). exists r'. split; auto. rewrite R', O1 by (intros ->; auto). reflexivity.
        -- intros k Hk. rewrite O' by (intros H; apply Hk; right; auto). apply O1. intros ->. apply Hk. left. reflexivity.
Qed.

(** ** The flux through a covered segment *)
Variables (d0 d1 : Z) (nx ny psi : Z -> Z -> R) (delta : R).
Hypotheses (H0 : (2 <= d0)%Z) (H1 : (2 <= d1)%Z).

Definition cell_of (c : Z) : quad R := cell_quad nx ny (c / (d1 - 1)) (c mod (d1 - 1)).
Definition ncell : Z := ((d0 - 1) * (d1 - 1))%Z.

(** In every cell met by the segment the value at the indices found differs by at most delta from f,
    a function of the parameter of the segment, plus a constant of the cell. *)
Definition along (f : R -> R) (l : point * point) : Prop :=
  forall c, (0 <= c < ncell)%Z -> (exists t, inside (cell_of c) l t) -> exists K, forall t,
  inside (cell_of c) l t -> good (cell_of c) (P l t) ->
  let i := (c / (d1 - 1))%Z in let j := (c mod (d1 - 1))%Z in
  Rabs (val (cell_of c) (psi i j) (psi (i + 1)%Z j) (psi i (j + 1)%Z) (psi (i + 1)%Z (j + 1)%Z) (P l t) - (f t + K)) <= delta.

Definition dpsi0 (i j : Z) : R := psi (i + 1)%Z j - psi i j.
Definition dpsi1 (i j : Z) : R := psi i (j + 1)%Z - psi i j.

Definition dotc (c : Z) (w : list R) : R :=
  let i := (c / (d1 - 1))%Z in let j := (c mod (d1 - 1))%Z in
  dotw w (psi i j) (psi (i + 1)%Z j) (psi i (j + 1)%Z) (psi (i + 1)%Z (j + 1)%Z).

Lemma row_flux_sum : forall r, row_flux d1 dpsi0 dpsi1 r = fold_right (fun e a => dotc (fst e) (snd e) + a) 0 r.
Proof.
  intros r. unfold row_flux.
  assert (K : forall r acc, fold_left (fun acc (e : Z * list R) => let i := (fst e / (d1 - 1))%Z in let j := (fst e mod (d1 - 1))%Z in
    let w k := nth k (snd e) n0 in
    nadd (nadd (nadd (nadd acc (nmul (w 0%nat) (dpsi0 i j))) (nmul (w 1%nat) (dpsi0 i (j + 1)%Z)))
      (nmul (w 2%nat) (dpsi1 i j))) (nmul (w 3%nat) (dpsi1 (i + 1)%Z j))) r acc =
    acc + fold_right (fun e a => dotc (fst e) (snd e) + a) 0 r).
  { clear r. induction r as [|e r IH]; intros acc; [simpl; lra|]. cbn [fold_left fold_right]. rewrite IH.
    unfold dotc, dotw, dpsi0, dpsi1. change (n0 : R) with 0. cbn [nadd nmul NumR]. lra. }
  rewrite K. change (n0 : R) with 0. lra.
Qed.

Lemma segment_flux : forall f l r, along f l -> segment_good cell_of l (range ncell) r ->
  (forall t, 0 <= t <= 1 -> exists c, (0 <= c < ncell)%Z /\ inside (cell_of c) l t) ->
  (forall c c' t t', (0 <= c < ncell)%Z -> (0 <= c' < ncell)%Z -> c <> c' ->
     inside (cell_of c) l t -> inside (cell_of c') l t -> inside (cell_of c) l t' -> inside (cell_of c') l t' -> t = t') ->
  r <> [] /\ NoDup (map fst r) /\
  Rabs (row_flux d1 dpsi0 dpsi1 r - (f 1 - f 0)) <= 2 * delta * INR (length r).
Proof.
  intros f l r Fval (es & E & -> & FG & ND & IN & CV) COV ONCE.
  assert (INC : forall f, increments f (map snd es) = f 1 - f 0).
  { clear f Fval. intros f. apply (increments_once f (map snd es) E); [lra| | |].
    - intros i Hi. apply in_map_iff in Hi. destruct Hi as (e & <- & He).
      rewrite Forall_forall in FG. destruct (FG e He) as (_ & AB & HI & _).
      assert (X0 : inside (cell_of (fst (fst e))) l (fst (snd e))) by (apply HI; lra).
      assert (X1 : inside (cell_of (fst (fst e))) l (snd (snd e))) by (apply HI; lra).
      destruct X0 as [X0 _]. destruct X1 as [X1 _]. lra.
    - clear CV. revert FG ND IN. induction es as [|e es IH]; intros FG ND IN; [exact I|]. cbn [map pairwise_once].
      apply Forall_cons_iff in FG. destruct FG as [Ge FG]. cbn [map] in ND. inversion ND as [|? ? NI ND']; subst.
      split; [|apply IH; auto; intros e' He'; apply IN; right; auto].
      intros j Hj. apply in_map_iff in Hj. destruct Hj as (e' & <- & He').
      rewrite Forall_forall in FG. destruct Ge as (_ & _ & HI & _). destruct (FG e' He') as (_ & _ & HI' & _).
      intros t t' A1 A2 A3 A4. unfold in_iv in *.
      apply (ONCE (fst (fst e)) (fst (fst e')) t t'); try (apply HI; lra); try (apply HI'; lra).
      + apply in_range. apply IN. left. reflexivity.
      + apply in_range. apply IN. right. auto.
      + intros EQ. apply NI. rewrite EQ. apply in_map_iff. exists e'. auto.
    - intros t Ht. destruct (COV t Ht) as (c & Hc & Hi). apply in_range in Hc.
      destruct (CV c t Hc Hi) as [X|(e & He & Ee)]; [auto|]. right. exists (snd e). split; [apply in_map; auto|].
      rewrite Forall_forall in FG. destruct (FG e He) as (_ & _ & HI & _). unfold in_iv. apply HI. rewrite Ee. auto. }
  split; [|split].
  - intros Z. assert (X := INC (fun t => t)). destruct es; [|discriminate Z]. cbn [map increments] in X. lra.
  - rewrite map_map. exact ND.
  - rewrite row_flux_sum.
    rewrite <- (INC f).
    clear INC CV ND. revert FG IN. induction es as [|e es IH]; intros FG IN.
    + cbn [map fold_right increments length INR]. rewrite Rminus_0_r, Rabs_R0. lra.
    + cbn [map fold_right increments]. change (length (fst e :: map fst es)) with (S (length (map fst es))). rewrite S_INR.
      apply Forall_cons_iff in FG. destruct FG as [(_ & AB & HI & GA & GB & HD) FG].
      specialize (IH FG (fun e' He' => IN e' (or_intror He'))).
      assert (Hc : (0 <= fst (fst e) < ncell)%Z) by (apply in_range; apply IN; left; reflexivity).
      unfold dotc at 1. rewrite HD.
      assert (X0 : inside (cell_of (fst (fst e))) l (fst (snd e))) by (apply HI; lra).
      assert (X1 : inside (cell_of (fst (fst e))) l (snd (snd e))) by (apply HI; lra).
      destruct (Fval _ Hc (ex_intro _ _ X0)) as (K & FK).
      assert (V0 := FK _ X0 GA). assert (V1 := FK _ X1 GB). cbv zeta in V0, V1.
      cbv zeta.
      match goal with |- Rabs (?v1 - ?v0 + ?S - (?f1 - ?f0 + ?I)) <= _ =>
        replace (v1 - v0 + S - (f1 - f0 + I)) with ((v1 - (f1 + K)) - (v0 - (f0 + K)) + (S - I)) by ring;
        assert (T1 := Rabs_triang ((v1 - (f1 + K)) - (v0 - (f0 + K))) (S - I)); assert (T2 := Rabs_triang (v1 - (f1 + K)) (- (v0 - (f0 + K)))) end.
      rewrite Rabs_Ropp in T2. unfold Rminus in *. lra.
Qed.

(** ** The whole run *)

(** computeWeights called m times. *)
Fixpoint fl_computeN (srt : (R -> R -> bool) -> list R -> list R) (m : nat) (s : fl R) : exec (fl R) :=
  match m with O => Ret s | S m' => let! s' := fl_computeWeights srt g s in fl_computeN srt m' s' end.

(** The row of a segment after m calls: m tables, one after the other. *)
Fixpoint rows_good (l : point * point) (m : nat) (r : list (Z * list R)) : Prop :=
  match m with
  | O => r = []
  | S m' => exists r0 r1, r = r0 ++ r1 /\ rows_good l m' r0 /\ segment_good cell_of l (range ncell) r1
  end.

Lemma fold_dotc : forall r0 r1, fold_right (fun e a => dotc (fst e) (snd e) + a) 0 (r0 ++ r1) =
  fold_right (fun e a => dotc (fst e) (snd e) + a) 0 r0 + fold_right (fun e a => dotc (fst e) (snd e) + a) 0 r1.
Proof. induction r0 as [|e r0 IH]; intros r1; cbn [app fold_right]; [lra|]. rewrite IH. lra. Qed.

Lemma rows_flux : forall f l m r, along f l -> rows_good l m r -> 0 <= delta ->
  (forall t, 0 <= t <= 1 -> exists c, (0 <= c < ncell)%Z /\ inside (cell_of c) l t) ->
  (forall c c' t t', (0 <= c < ncell)%Z -> (0 <= c' < ncell)%Z -> c <> c' ->
     inside (cell_of c) l t -> inside (cell_of c') l t -> inside (cell_of c) l t' -> inside (cell_of c') l t' -> t = t') ->
  (m <> 0%nat -> r <> []) /\
  Rabs (row_flux d1 dpsi0 dpsi1 r - INR m * (f 1 - f 0)) <= INR m * (2 * delta * IZR ncell).
Proof.
  intros f l m r AL. revert r. induction m as [|m IH]; intros r HR DP COV ONCE.
  - cbn [rows_good] in HR. subst r. split; [congruence|]. rewrite row_flux_sum. cbn [fold_right INR].
    rewrite !Rmult_0_l, Rminus_0_r, Rabs_R0. lra.
  - cbn [rows_good] in HR. destruct HR as (r0 & r1 & -> & HR & SG).
    destruct (IH r0 HR DP COV ONCE) as (_ & B0). destruct (segment_flux f l r1 AL SG COV ONCE) as (NE & ND & B1).
    split; [intros _; destruct r0; [exact NE|discriminate]|].
    rewrite row_flux_sum in *. rewrite fold_dotc. rewrite S_INR.
    assert (LN : INR (length r1) <= IZR ncell).
    { rewrite INR_IZR_INZ. apply IZR_le.
      assert (LN : (length (map fst r1) <= length (range ncell))%nat).
      { apply NoDup_incl_length; auto. destruct SG as (es & E & Er & FG & _ & IN & _). rewrite Er. intros c Hc.
        apply in_map_iff in Hc. destruct Hc as (y & <- & Hy). apply in_map_iff in Hy. destruct Hy as (z & <- & Hz). auto. }
      rewrite map_length, range_length in LN. assert (0 <= ncell)%Z by (unfold ncell; nia). lia. }
    assert (B2 : 2 * delta * INR (length r1) <= 2 * delta * IZR ncell) by (apply Rmult_le_compat_l; [lra|auto]).
    match type of B0 with Rabs (?S0 - ?X0) <= _ => match type of B1 with Rabs (?S1 - ?X1) <= _ =>
      assert (T := Rabs_triang (S0 - X0) (S1 - X1));
      replace (S0 + S1 - (INR m + 1) * X1) with ((S0 - X0) + (S1 - X1)) by ring end end. lra.
Qed.

Lemma run_flux : forall (f : Z -> R -> R) srt cosv n m xs ys dxs dys data0 data1 out, sorts srt ->
  (d0 * d1 <= int_max)%Z -> (2 <= n <= int_max)%Z -> m <> 0%nat ->
  stores d0 d1 nx xs -> stores d0 d1 ny ys -> Z.of_nat (length dxs) = n -> Z.of_nat (length dys) = n ->
  stores (d0 - 1) d1 dpsi0 data0 -> stores d0 (d1 - 1) dpsi1 data1 -> Z.of_nat (length out) = (n - 1)%Z ->
  (forall c, (0 <= c < ncell)%Z -> okq (cell_of c)) ->
  0 <= delta ->
  (forall k, (0 <= k < n - 1)%Z ->
     let A := displaced (fun i => cosv i n) dxs dys k in let B := displaced (fun i => cosv i n) dxs dys (k + 1) in
     along (f k) (A, B) /\ cells_cover d0 d1 nx ny A B /\ cells_share_once d0 d1 nx ny A B /\
     forall c t, (0 <= c < ncell)%Z -> In t (line_lambdas g (cell_of c) (A, B)) ->
       inside (cell_of c) (A, B) t /\ good (cell_of c) (P (A, B) t)) ->
  exists s1 s2 s3 out', fl_setSrcGrid fl_new d0 d1 [xs; ys] = Ret s1 /\ fl_setDstGrid cosv s1 n [dxs; dys] = Ret s2 /\
    fl_computeN srt m s2 = Ret s3 /\ fl_apply s3 data0 data1 out = Ret out' /\ Z.of_nat (length out') = (n - 1)%Z /\
    forall k, (0 <= k < n - 1)%Z ->
      Rabs (nth (Z.to_nat k) out' 0 - INR m * (f k 1 - f k 0)) <= INR m * (2 * delta * IZR ncell).
Proof.
  intros f srt cosv n m xs ys dxs dys data0 data1 out ST HI Hn Hm SX SY LX LY D0 D1 LO OK DP SEG.
  destruct (setSrcGrid_ok fl_new d0 d1 nx ny xs ys H0 H1 HI SX SY) as (s1 & E1 & O1 & A1 & A2 & A3).
  destruct (setDstGrid_ok cosv s1 n dxs dys ltac:(lia) LX LY) as (s2 & E2 & B1 & B2 & B3 & B4 & B5 & B6 & B7 & B8 & B9).
  assert (O2 : src_ok d0 d1 nx ny s2) by (unfold src_ok in *; rewrite B4, B5, B7, B8, B9; exact O1).
  set (D := displaced (fun i => cosv i n) dxs dys) in *.
  assert (ED : forall k, (0 <= k < n)%Z -> vget (fl_dst s2) k = Ret (D k)).
  { intros k Hk. etransitivity; [apply (vget_nth _ _ ((0, 0) : pt R)); rewrite B2; lia|]. f_equal.
    etransitivity; [apply (B3 (Z.to_nat k) 0); lia|]. rewrite Z2Nat.id by lia.
    unfold D, displaced. cbn [nadd nmul nofZ NumR]. unfold neps; rewrite lit_R.
    apply pair_eq; cbn [fst snd]; change (2 ^ 52)%Z with 4503599627370496%Z; try lra; field. }
  assert (EL : forall k, In k (range (n - 1)) -> fl_dstLine s2 k = Ret (D k, D (k + 1)%Z)).
  { intros k Hk. apply in_range in Hk. unfold fl_dstLine. rewrite !ED by lia. reflexivity. }
  assert (EW : fl_weights s2 = []) by (rewrite B6, A3; reflexivity).
  set (line := fun k => (D k, D (k + 1)%Z)).
  assert (RUN : forall m s a, fl_src s = fl_src s2 -> fl_srcNumCells s = fl_srcNumCells s2 -> fl_dst s = fl_dst s2 ->
    fl_dstNumCells s = fl_dstNumCells s2 -> fl_nodeIt s = fl_nodeIt s2 -> fl_cellIt s = fl_cellIt s2 -> fl_edgeIts s = fl_edgeIts s2 ->
    table_ok (n - 1) ncell (fl_weights s) -> (forall k, (0 <= k < n - 1)%Z -> rows_good (line k) a (row (fl_weights s) k)) ->
    exists s', fl_computeN srt m s = Ret s' /\ src_ok d0 d1 nx ny s' /\ table_ok (n - 1) ncell (fl_weights s') /\
      forall k, (0 <= k < n - 1)%Z -> rows_good (line k) (m + a) (row (fl_weights s') k)).
  { clear m Hm. induction m as [|m IH]; intros s a F1 F2 F3 F4 F5 F6 F7 TB RG.
    - exists s. split; [reflexivity|]. split; [unfold src_ok in *; rewrite F1, F2, F5, F6, F7; exact O2|]. split; auto.
    - assert (OS : src_ok d0 d1 nx ny s) by (unfold src_ok in *; rewrite F1, F2, F5, F6, F7; exact O2).
      cbn [fl_computeN].
      destruct (segments_fold srt s ncell cell_of line (range (n - 1)) (mkFlw ql_new qf_new (fl_weights s)) ST) as (x' & EX & WX & SG & _).
      { unfold range, zseq. apply FinFun.Injective_map_NoDup; [intros a1 b1; apply Nat2Z.inj|apply seq_NoDup]. }
      { intros k Hk. unfold fl_dstLine. rewrite F3. apply (EL k Hk). }
      { intros k c Hk Hc. apply in_range in Hk. destruct (cell_range (d0 - 1) (d1 - 1) c ltac:(lia) Hc) as (C1 & C2 & C3).
        split; [rewrite C3 at 1; apply (srcQuad_ok d0 d1 nx ny); auto|]. split; [auto|]. intros t Ht. apply (SEG k Hk); auto. }
      { split; [apply finder_new|apply TB]. }
      assert (EC : fl_computeWeights srt g s = Ret (mkFl (fl_src s) (fl_srcNumCells s) (fl_dst s) (fl_dstNumCells s) (flw_m x')
             (fl_nodeIt s) (fl_cellIt s) (fl_edgeIts s))).
      { unfold fl_computeWeights. rewrite F4, B1. assert (X : fl_srcNumCells s = Some ncell) by apply OS. rewrite X, EX. reflexivity. }
      rewrite EC. cbn [bind]. replace (S m + a)%nat with (m + S a)%nat by lia. apply IH; cbn [fl_src fl_srcNumCells fl_dst fl_dstNumCells fl_nodeIt fl_cellIt fl_edgeIts fl_weights]; auto.
      + assert (TB' := computeWeights_table srt g s _ (n - 1) ncell ltac:(rewrite F4; exact B1) (proj1 (proj2 (proj2 (proj2 (proj2 OS))))) TB EC). exact TB'.
      + intros k Hk. destruct (SG k) as (r & R1 & S1); [apply in_range; lia|]. cbn [flw_m] in R1. cbn [rows_good].
        exists (row (fl_weights s) k), r. split; auto. }
  destruct (RUN m s2 0%nat) as (s3 & E3 & O3 & TB & RG); auto.
  { rewrite EW. split; [exists 0%Z; exact I|intros k r []]. }
  { intros k Hk. rewrite EW. reflexivity. }
  rewrite Nat.add_0_r in RG.
  destruct (apply_ok d0 d1 nx ny s3 dpsi0 dpsi1 data0 data1 out (n - 1) O3 D0 D1 TB ltac:(lia)) as (out' & EA & LA & HA).
  exists s1, s2, s3, out'. split; auto. split; auto. split; auto. split; auto. split; [lia|].
  intros k Hk. rewrite HA. rewrite Z2Nat.id by lia. destruct (SEG k Hk) as (AL & CV & SH & _). fold D in AL, CV, SH.
  destruct (rows_flux (f k) (line k) m (row (fl_weights s3) k) AL (RG k Hk) DP) as (NE & FB).
  - intros t Ht. destruct (CV t Ht) as (i & j & [Hi Hj] & HH). exists (i * (d1 - 1) + j)%Z. unfold ncell. split; [nia|].
    split; [exact Ht|]. unfold cell_of. destruct (cell_div (d1 - 1) i j Hj) as [-> ->]. exact HH.
  - intros c c' t t' Hc Hc' NC [T1 I1] [_ I2] [T2 I3] [_ I4].
    destruct (cell_range (d0 - 1) (d1 - 1) c ltac:(lia) Hc) as (C1 & C2 & C3).
    destruct (cell_range (d0 - 1) (d1 - 1) c' ltac:(lia) Hc') as (C1' & C2' & C3').
    apply (SH (c / (d1 - 1))%Z (c mod (d1 - 1))%Z (c' / (d1 - 1))%Z (c' mod (d1 - 1))%Z t t'); auto; try (split; assumption).
    intros X. injection X as X1 X2. apply NC. rewrite C3, C3', X1, X2. reflexivity.
  - specialize (NE Hm). destruct (row (fl_weights s3) k) as [|e r] eqn:ER; [congruence|]. exact FB.
Qed.

End Gen.
