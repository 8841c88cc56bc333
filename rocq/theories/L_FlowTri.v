(** Flow interpolation in triangles: quads whose first and last nodes are the same, as the cells at the
    centre of a polar grid. *)
From Coq Require Import ZArith List Bool Reals Lra Lia.
From Verif Require Import Base Num NumR M_LinearSolve M_FindPoint M_Triangulate M_Quad M_QuadLine S_LinAlg S_Geometry S_Quad S_Grid S_Flow
  L_LinearSolve L_Interp L_FindPoint L_FindPointR L_FindPointA L_FindPointB L_NodeInterp L_Polygon L_Hull L_Quad L_QuadLine L_Flow L_FlowFind L_FlowGen L_FlowPar L_FlowTrap.
Import ListNotations.
Open Scope R_scope.

Definition triangle (q : quad R) : Prop := q3 q = q0 q /\ cr (q0 q) (q1 q) (q2 q) <> 0.

Section Tri.
Variable q : quad R.
Hypotheses (E3 : q3 q = q0 q) (D : cr (q0 q) (q1 q) (q2 q) <> 0).

Let sg : R := if Rlt_dec 0 (cr (q0 q) (q1 q) (q2 q)) then 1 else -1.

Lemma tri_sg : (sg = 1 \/ sg = -1) /\ 0 < sg * cr (q0 q) (q1 q) (q2 q).
Proof. unfold sg. destruct (Rlt_dec _ _); split; auto; lra. Qed.

Lemma tri_quad : forall p, in_quad sg q p <->
  0 <= sg * cr (q0 q) (q1 q) p /\ 0 <= sg * cr (q1 q) (q2 q) p /\ 0 <= sg * cr (q2 q) (q0 q) p.
Proof.
  intros p. unfold in_quad. split.
  - intros H. assert (H0 := H _ (or_introl eq_refl)). assert (H1 := H _ (or_intror (or_introl eq_refl))).
    assert (H2 := H _ (or_intror (or_intror (or_introl eq_refl)))). cbn [fst snd] in *. rewrite E3 in H2. auto.
  - intros (H0 & H1 & H2) e He. destruct He as [<-|[<-|[<-|[<-|[]]]]]; cbn [fst snd]; rewrite ?E3; auto.
    unfold cr. lra.
Qed.

Lemma tri_pos : forall x, 0 <= sg * x -> 0 <= x / cr (q0 q) (q1 q) (q2 q).
Proof.
  intros x Hx. destruct tri_sg as [Sg P]. replace (x / _) with (sg * x * / (sg * cr (q0 q) (q1 q) (q2 q))) by (field; destruct Sg as [-> | ->]; split; lra).
  apply Rmult_le_pos; auto. left. apply Rinv_0_lt_compat. auto.
Qed.

Lemma tri_hull_iff : forall p, in_quad sg q p <-> in_hull (nodes q) p.
Proof.
  intros p. destruct tri_sg as [Sg PS]. rewrite tri_quad. split.
  - intros (H0 & H1 & H2). apply tri_pos in H0, H1, H2. set (d := cr (q0 q) (q1 q) (q2 q)) in *.
    exists [cr (q1 q) (q2 q) p / d; cr (q2 q) (q0 q) p / d; cr (q0 q) (q1 q) p / d; 0]. split; [reflexivity|].
    split; [repeat (constructor; [lra|]); constructor|]. cbn [wsum nodes map]. rewrite E3.
    unfold d, cr in *. repeat split; field; auto.
  - intros H.
    assert (F : forall a b : point, (forall x, In x (nodes q) -> 0 <= sg * cr a b x) -> 0 <= sg * cr a b p).
    { intros a b HV. replace (sg * cr a b p) with (sg * (snd b - snd a) * fst a - sg * (fst b - fst a) * snd a +
        (- sg * (snd b - snd a)) * fst p + (sg * (fst b - fst a)) * snd p) by (unfold cr; ring).
      apply hull_linear with (V := nodes q); auto. intros x Hx. specialize (HV x Hx).
      replace (_ + _) with (sg * cr a b x) by (unfold cr; ring). auto. }
    split; [|split]; apply F; intros x Hx; destruct Hx as [<-|[<-|[<-|[<-|[]]]]]; rewrite ?E3; unfold cr in *; lra.
Qed.

Variable g : gels R.
Hypothesis G : gels_spec g 2 2.

Lemma tri_in_cell : forall p, in_quad sg q p -> quad_inside qtolR g p q = true.
Proof.
  intros p H. apply tri_quad in H. destruct H as (H0 & H1 & H2). unfold quad_inside. apply orb_true_iff. right.
  apply tri_pos in H0, H1, H2. set (d := cr (q0 q) (q1 q) (q2 q)) in *.
  apply (tri_complete g G qtolR qtol_pos p (q2 q) (q3 q) (q1 q) (cr (q1 q) (q2 q) p / d) (cr (q2 q) (q0 q) p / d)); auto.
  - replace (cr (q1 q) (q2 q) p / d + cr (q2 q) (q0 q) p / d) with (1 - cr (q0 q) (q1 q) p / d); [lra|]. unfold d, cr in *. field. exact D.
  - rewrite E3. intros E. apply D. unfold d, cr in *. lra.
  - rewrite E3. unfold d, cr in *. field. exact D.
  - rewrite E3. unfold d, cr in *. field. exact D.
Qed.

Lemma tri_edge : forall e p, In e (qedges q) -> fst e <> snd e -> in_quad sg q p -> cr (fst e) (snd e) p = 0 ->
  exists t, 0 <= t <= 1 /\ p = on_seg (fst e) (snd e) t.
Proof.
  intros e p He NE Hp Z. apply tri_quad in Hp. destruct Hp as (H0 & H1 & H2). destruct tri_sg as [Sg PS].
  destruct (on_line (fst e) (snd e) p NE Z) as (t & T1 & T2). exists t. split; [|apply pair_eq; auto].
  assert (EP : p = on_seg (fst e) (snd e) t) by (apply pair_eq; auto). rewrite EP in H0, H1, H2. clear EP T1 T2 Z.
  set (d := cr (q0 q) (q1 q) (q2 q)) in *.
  destruct He as [<-|[<-|[<-|[<-|[]]]]]; cbn [fst snd] in *; rewrite ?E3 in *; [| | |congruence].
  - replace (cr (q1 q) (q2 q) (on_seg (q0 q) (q1 q) t)) with ((1 - t) * d) in H1 by (unfold d, cr, on_seg; cbn [fst snd]; ring).
    replace (cr (q2 q) (q0 q) (on_seg (q0 q) (q1 q) t)) with (t * d) in H2 by (unfold d, cr, on_seg; cbn [fst snd]; ring). nra.
  - replace (cr (q2 q) (q0 q) (on_seg (q1 q) (q2 q) t)) with ((1 - t) * d) in H2 by (unfold d, cr, on_seg; cbn [fst snd]; ring).
    replace (cr (q0 q) (q1 q) (on_seg (q1 q) (q2 q) t)) with (t * d) in H0 by (unfold d, cr, on_seg; cbn [fst snd]; ring). nra.
  - replace (cr (q0 q) (q1 q) (on_seg (q2 q) (q0 q) t)) with ((1 - t) * d) in H0 by (unfold d, cr, on_seg; cbn [fst snd]; ring).
    replace (cr (q1 q) (q2 q) (on_seg (q2 q) (q0 q) t)) with (t * d) in H1 by (unfold d, cr, on_seg; cbn [fst snd]; ring). nra.
Qed.

Lemma tri_flow_cell : flow_cell g q.
Proof.
  destruct tri_sg as [Sg PS]. split.
  - split; intros [A B]; apply D; [rewrite A|rewrite B]; unfold cr; ring.
  - intros l t [Ht Hc]. apply tri_hull_iff in Hc.
    destruct (inside_part_gen g G sg q l t ltac:(destruct Sg as [-> | ->]; lra) tri_in_cell tri_edge Ht Hc) as (t0 & t1 & B & _ & _ & J0 & J1 & J).
    exists t0, t1. split; [lra|]. split; [auto|]. split; [auto|]. intros u. rewrite <- J. unfold inside. rewrite <- tri_hull_iff. reflexivity.
Qed.

(** ** The search *)
Lemma tri_map : forall x y, bilinear_map (q0 q) (q1 q) (q2 q) (q3 q) x y = in_frame (q0 q) (q1 q) (q2 q) (x * (1 - y)) (x * y).
Proof. intros x y. unfold bilinear_map, bilinear, in_frame. rewrite E3. apply pair_eq; cbn [fst snd]; ring. Qed.

Lemma tri_step : forall (s : fp (T:=R)) a b x y, fp_good [2; 2]%Z (quad_grid q) s ->
  fp_inside (fp_target s) (fp_xmins s) (fp_xmaxs s) = true -> (0 <= fp_iter s < int_max)%Z ->
  fp_period s = [0; 0] -> fp_dIndices s = [x; y] -> 0 <= a <= 1 -> 0 <= b <= 1 -> 0 < x ->
  let p := bilinear_map (q0 q) (q1 q) (q2 q) (q3 q) a b in fp_target s = [fst p; snd p] ->
  exists code s' y', fp_next g s = Ret (code, s') /\ fp_dIndices s' = [a; y'] /\ fp_good [2; 2]%Z (quad_grid q) s' /\
    (x = a -> y' = b).
Proof.
  intros s a b x y G1 HIn HI HP Ex Ha Hb XP p ET.
  assert (Hx : 0 <= x <= 1 /\ 0 <= y <= 1).
  { destruct G1 as (_ & _ & _ & _ & _ & _ & Hg). rewrite Ex in Hg. inversion Hg as [|d u ds us Hu Hg' E1 E2]; subst.
    inversion Hg' as [|d v ds vs Hv _ E5 E4]; subst. change (IZR (2 - 1)) with 1 in *. lra. }
  destruct Hx as [Hx Hy].
  set (ty := y + a * (b - y) / x).
  destruct (jac_quad q x y Hx Hy 0%nat ltac:(lia)) as [J00 J01]. destruct (jac_quad q x y Hx Hy 1%nat ltac:(lia)) as [J10 J11].
  cbn [Nat.eqb] in *.
  destruct (position_quad q x y Hx Hy) as [Q0 Q1].
  rewrite tri_map in Q0, Q1. unfold p in ET. rewrite tri_map in ET. unfold in_frame in Q0, Q1, ET. cbn [fst snd] in Q0, Q1, ET.
  rewrite E3 in J00, J01, J10, J11.
  destruct (newton_step g [2; 2]%Z (quad_grid q) s [a; ty] G G1 HIn HI) as (code & s' & E & Ed & G').
  - rewrite Ex. cbn [length seq map]. rewrite J00, J01, J10, J11. apply invertible2.
    match goal with |- ?e <> 0 => replace e with (x * cr (q0 q) (q1 q) (q2 q)) by (unfold cr; ring) end.
    apply Rmult_integral_contrapositive. split; [lra|exact D].
  - reflexivity.
  - intros i Hi. rewrite Ex, ET. cbn [length] in Hi. destruct i as [|[|i]]; [| |lia]; cbn [length seq map rsum entry nth] in *;
      unfold entry; cbn [nth]; rewrite ?J00, ?J01, ?J10, ?J11, ?Q0, ?Q1; unfold ty; field; lra.
  - rewrite HP in Ed. cbn [fp_truncate] in Ed.
    rewrite (truncate1_id 0 2 a) in Ed by (first [lia | (left; reflexivity) | (change (IZR (2 - 1)) with 1; lra) ]).
    exists code, s', (fp_truncate1 0 2 ty). split; auto. split; [exact Ed|]. split; auto.
    intros ->. assert (EY : ty = b) by (unfold ty; field; lra). rewrite EY.
    apply truncate1_id; first [lia | (left; reflexivity) | (change (IZR (2 - 1)) with 1; lra) ].
Qed.

Lemma tri_find : forall (f : fp (T:=R)) a b, finder_ready q f -> 0 <= a <= 1 -> 0 <= b <= 1 ->
  exists xs f', qf_find g f (bilinear_map (q0 q) (q1 q) (q2 q) (q3 q) a b) = Ret (1%Z, xs, f').
Proof.
  intros f a b FR Ha Hb. set (p := bilinear_map (q0 q) (q1 q) (q2 q) (q3 q) a b).
  assert (HE : in_extent q p) by (apply hull_extent, map_in_hull; auto).
  assert (B := extent_inside q f p FR HE).
  destruct FR as ((I1 & I2 & I3) & P & Hh & Hc & Ht & Hs & Hb').
  assert (Hd : fp_dims f = [2; 2]%Z) by apply Hh.
  unfold qf_find. rewrite nhalf_R. set (h := 1 / 2).
  rewrite reset_ok by (rewrite Hd; reflexivity). cbn [bind].
  match goal with |- context [fp_search g ?f] => set (f1 := f) end.
  assert (GG : fp_good [2; 2]%Z (quad_grid q) f1).
  { unfold fp_good, f1, fp_holds, solver_ok. cbn. split; [apply quad_grid_data|]. split; [exact Hh|]. split; [exact Hc|].
    rewrite P. split; [reflexivity|]. split; [reflexivity|]. split; [exact Hs|]. apply in_grid2; unfold h; lra. }
  destruct (tri_step f1 a b h h GG B ltac:(unfold f1, int_max; cbn; lia) P eq_refl Ha Hb ltac:(unfold h; lra) eq_refl) as (c1 & f2 & y1 & E1 & D1 & G2 & _).
  unfold fp_search. change (fp_nitermax f1) with (fp_nitermax f). rewrite I1. change (S (Z.to_nat 10)) with 11%nat.
  assert (N1 := next_inv _ _ _ _ E1). destruct N1 as [(_ & _ & C)|(_ & jr & sv & info & sv' & xs & err & _ & _ & _ & _ & _ & _ & SG & ET & IT & _ & EE & Er & Hc1)];
    [exact (False_ind _ (eq_true_false_abs _ B C))|].
  change (fp_errors f1) with (@nil R) in *. change (fp_iter f1) with 0%Z in *. change (fp_nitermax f1) with (fp_nitermax f) in *. rewrite I1 in *.
  assert (C1 : c1 = 1%Z \/ c1 = 0%Z).
  { rewrite Er in Hc1. cbn [app length] in Hc1.
    destruct Hc1 as [(_ & C & _)|[(_ & _ & C & _)|[(C & _)|(C & _)]]]; auto.
    - apply andb_true_iff in C. destruct C as [C _]. apply andb_true_iff in C. destruct C as [_ C]. discriminate.
    - lia. }
  cbn [fp_loop]. rewrite E1. cbn [bind fst snd].
  destruct C1 as [-> | ->]; [cbn [Z.eqb bind fst snd]; eexists _, _; reflexivity|].
  assert (AP : 0 < a).
  { destruct (Req_dec a 0) as [A0|]; [|lra]. exfalso. subst a.
    assert (Hy1 : 0 <= y1 <= 1).
    { destruct G2 as (_ & _ & _ & _ & _ & _ & Hg). rewrite D1 in Hg. inversion Hg as [|d u ds us Hu Hg' F1 F2]; subst.
      inversion Hg' as [|d v ds vs Hv _ F5 F4]; subst. change (IZR (2 - 1)) with 1 in *. lra. }
    assert (Z1 : err = 0).
    { rewrite (getError_R _ _ _ G2) in EE. injection EE as <-. unfold distance. cbn [length rsum].
      destruct (position_quad q 0 y1 Ha Hy1) as [W0 W1]. rewrite D1, W0, W1, ET. unfold f1. cbn [fp_target nth].
      unfold p. rewrite !tri_map. unfold in_frame. cbn [fst snd].
      match goal with |- sqrt ?z = 0 => replace z with 0 by ring end. apply sqrt_0. }
    change (fp_tolpos f1) with (fp_tolpos f) in Hc1. rewrite Er in Hc1. cbn [app length] in Hc1. rewrite I2, Z1 in Hc1.
    destruct Hc1 as [(C & _)|[(C & _)|[(C & _)|(_ & _ & _ & C & _)]]]; try discriminate C.
    apply Rltb_false in C. assert (0 < / 10 ^ 10) by (apply Rinv_0_lt_compat, pow_lt; lra). lra. }
  change (0 =? 0)%Z with true. cbv iota.
  destruct SG as (S1 & S2 & S3 & S4 & S5 & S6 & S7 & S8 & S9). change (fp_period f1) with (fp_period f) in S6. change (fp_nitermax f1) with (fp_nitermax f) in S8.
  change (fp_tolpos f1) with (fp_tolpos f) in S9.
  assert (IN2 : fp_inside (fp_target f2) (fp_xmins f2) (fp_xmaxs f2) = true) by (rewrite ET, <- S2, <- S3; exact B).
  destruct (tri_step f2 a b a y1 G2 IN2 ltac:(rewrite IT; unfold int_max; lia) ltac:(congruence) D1 Ha Hb AP) as (c2 & f3 & y2 & E2 & D2 & G3 & Y).
  { rewrite ET. reflexivity. }
  specialize (Y eq_refl). subst y2.
  rewrite E2. cbn [bind fst snd].
  assert (N2 := next_inv _ _ _ _ E2). destruct N2 as [(_ & _ & C)|(_ & jr2 & sv2 & info2 & sv2' & xs2 & err2 & _ & _ & _ & _ & _ & _ & SG2 & ET2 & IT2 & _ & EE2 & Er2 & Hc2)];
    [rewrite IN2 in C; discriminate C|].
  assert (Z2 : err2 = 0).
  { rewrite (getError_R _ _ _ G3) in EE2. injection EE2 as <-. unfold distance. cbn [length rsum].
    destruct (position_quad q a b Ha Hb) as [W0 W1]. rewrite D2, W0, W1, ET2, ET. unfold f1. cbn [fp_target nth]. fold p.
    replace (0 + (fst p - fst p) * (fst p - fst p) + (snd p - snd p) * (snd p - snd p)) with 0 by ring. apply sqrt_0. }
  assert (C2 : c2 = 1%Z).
  { rewrite Er2, Er in Hc2. cbn [app length] in Hc2. rewrite <- S8, <- S9, IT2, IT, I1, I2, Z2 in Hc2.
    destruct Hc2 as [(_ & C & _)|[(_ & _ & C & _)|[(C & _)|(_ & _ & _ & C & _)]]]; auto.
    - apply andb_true_iff in C. destruct C as [C _]. apply andb_true_iff in C. destruct C as [_ C]. discriminate.
    - lia.
    - apply Rltb_false in C. assert (0 < / 10 ^ 10) by (apply Rinv_0_lt_compat, pow_lt; lra). lra. }
  subst c2. cbn [Z.eqb bind fst snd]. eexists _, _. reflexivity.
Qed.

(** Every point of the triangle has indices. *)
Lemma tri_indices : forall p, in_hull (nodes q) p -> exists a b, 0 <= a <= 1 /\ 0 <= b <= 1 /\
  p = bilinear_map (q0 q) (q1 q) (q2 q) (q3 q) a b.
Proof.
  intros p H. apply tri_hull_iff in H. apply tri_quad in H. destruct H as (H0 & H1 & H2). apply tri_pos in H0, H1, H2.
  set (d := cr (q0 q) (q1 q) (q2 q)) in *.
  set (u := cr (q2 q) (q0 q) p / d) in *. set (v := cr (q0 q) (q1 q) p / d) in *.
  assert (S : u + v = 1 - cr (q1 q) (q2 q) p / d) by (unfold u, v, d, cr in *; field; exact D).
  assert (Ep : p = in_frame (q0 q) (q1 q) (q2 q) u v).
  { unfold in_frame, u, v, d in *. apply pair_eq; cbn [fst snd]; unfold cr in *; field; exact D. }
  clearbody u v. destruct (Req_dec (u + v) 0) as [Z|NZ].
  - exists 0, 0. split; [lra|]. split; [lra|]. rewrite tri_map, Ep. replace u with 0 by lra. replace v with 0 by lra. f_equal; ring.
  - exists (u + v), (v / (u + v)). split; [lra|]. split.
    + split; [apply Rmult_le_pos; auto; left; apply Rinv_0_lt_compat; lra|].
      apply Rmult_le_reg_r with (u + v); [lra|]. unfold Rdiv. rewrite Rmult_assoc, Rinv_l by lra. lra.
    + rewrite tri_map, Ep. f_equal; field; auto.
Qed.

Lemma tri_locates : forall p, in_hull (nodes q) p -> locates g q p.
Proof.
  intros p HH.
  destruct (tri_indices p HH) as (a & b & Ha & Hb & ->).
  set (p := bilinear_map (q0 q) (q1 q) (q2 q) (q3 q) a b) in *.
  destruct (finder_set (qf_finder (qf_new (T:=R))) q finder_new) as (f & E & FR).
  unfold locates, qf_setQuadPoints. rewrite E. cbn [bind]. eexists. 
  unfold qf_computeProjections, qf_indices, qf_setLinePoints. 
  destruct (tri_find f a b FR Ha Hb) as (xs1 & f1 & E1). fold p in E1.
  destruct (find_any g q f p FR) as (c1 & x1 & y1 & f1' & E1' & FR1 & _). rewrite E1 in E1'. injection E1' as <- -> <-.
  destruct (tri_find f1 a b FR1 Ha Hb) as (xs2 & f2 & E2). fold p in E2.
  destruct (find_any g q f1 p FR1) as (c2 & x2 & y2 & f2' & E2' & FR2 & _). rewrite E2 in E2'. injection E2' as <- -> <-.
  eexists. split; [reflexivity|]. cbn [qf_line qf_finder fst snd]. rewrite E1. cbn [bind]. rewrite E2. cbn [bind qf_xia qf_xib].
  change (vget [x1; y1] 0) with (Ret x1). change (vget [x1; y1] 1) with (Ret y1).
  change (vget [x2; y2] 0) with (Ret x2). change (vget [x2; y2] 1) with (Ret y2). cbn [bind]. reflexivity.
Qed.

End Tri.
