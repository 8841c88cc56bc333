(** The search of SgQuadLineFlows in any quad: totality, accuracy and independence of the
    history of the finder. *)
From Coq Require Import ZArith List Bool Reals Lra Lia.
From Verif Require Import Base Num NumR M_LinearSolve M_FindPoint M_Triangulate M_Quad M_QuadLine S_LinAlg S_Geometry S_Grid S_Flow
  L_LinearSolve L_Interp L_FindPoint L_FindPointR L_FindPointA L_FindPointB L_NodeInterp S_Quad L_Quad L_Flow.
Import ListNotations.
Open Scope R_scope.

Definition with_box (s : fp (T:=R)) (mn mx : list R) : fp (T:=R) :=
  mkFp (fp_slvr s) (fp_coords s) mn mx (fp_prodDims s) (fp_nodeProdDims s) (fp_period s) (fp_dims s) (fp_target s)
    (fp_nitermax s) (fp_tolpos s) (fp_iter s) (fp_dIndices s) (fp_errors s) (fp_oldError s).

(** As long as the target is inside both boxes the box does not matter. *)
Lemma next_box : forall g s mn mx, fp_inside (fp_target s) (fp_xmins s) (fp_xmaxs s) = true ->
  fp_inside (fp_target s) mn mx = true ->
  fp_next g (with_box s mn mx) = bind (fp_next g s) (fun r => Ret (fst r, with_box (snd r) mn mx)).
Proof.
  intros g s mn mx H1 H2. unfold fp_next. cbn [with_box fp_target fp_xmins fp_xmaxs]. rewrite H1, H2. cbn [negb].
  change (fp_jacobianAndRHS (with_box s mn mx)) with (fp_jacobianAndRHS s).
  destruct (fp_jacobianAndRHS s) as [jr|u]; cbn [bind]; auto.
  cbn [with_box fp_slvr fp_dims fp_dIndices fp_period fp_iter fp_coords fp_prodDims fp_nodeProdDims fp_target fp_nitermax
    fp_tolpos fp_errors fp_oldError].
  destruct (fp_slvr s) as [sv|]; auto.
  destruct (ls_run g sv (fst jr) (snd jr)) as [r|u]; cbn [bind]; auto.
  match goal with |- bind ?m _ = _ => destruct m as [xs|u] end; cbn [bind]; auto.
  destruct (chk (fp_iter s + 1)) as [it|u]; cbn [bind]; auto.
  match goal with |- bind (fp_getError ?a) _ = bind (bind (fp_getError ?b) _) _ =>
    change (fp_getError a) with (fp_getError b); destruct (fp_getError b) as [e|u] end; cbn [bind]; auto.
  match goal with |- (if ?c then _ else _) = _ => destruct c end; cbn [bind fst snd]; auto.
  destruct (fp_nitermax s <=? it)%Z; cbn [bind fst snd]; auto.
  match goal with |- (if ?c then _ else _) = _ => destruct c end; cbn [bind fst snd]; auto.
Qed.

Lemma loop_box : forall g fuel s mn mx, fp_inside (fp_target s) (fp_xmins s) (fp_xmaxs s) = true ->
  fp_inside (fp_target s) mn mx = true ->
  fp_loop g fuel (with_box s mn mx) =
    bind (fp_loop g fuel s) (fun r => Ret (match r with Some x => Some (fst x, with_box (snd x) mn mx) | None => None end)).
Proof.
  intros g. induction fuel as [|fuel IH]; intros s mn mx H1 H2; auto. cbn [fp_loop]. rewrite next_box by auto.
  destruct (fp_next g s) as [[c s']|u] eqn:E; cbn [bind fst snd]; auto.
  destruct (c =? 0)%Z; cbn [bind fst snd]; auto.
  assert (G := next_same_grid _ _ _ _ E). assert (TT := next_target _ _ _ _ E).
  destruct G as (_ & G1 & G2 & _). apply IH; rewrite TT, <- ?G1, <- ?G2; auto.
Qed.

(** A ready finder contains the hull of the corners. *)
Definition in_extent (q : quad R) (p : point) : Prop :=
  (exists a b, In a (nodes q) /\ In b (nodes q) /\ fst a <= fst p <= fst b) /\
  (exists a b, In a (nodes q) /\ In b (nodes q) /\ snd a <= snd p <= snd b).

Lemma nodes_grid0 : forall (q : quad R) (a : pt R), In a (nodes q) -> In (fst a) (nth 0 (quad_grid q) []).
Proof. intros q a H. simpl in H. destruct H as [<-|[<-|[<-|[<-|[]]]]]; simpl; tauto. Qed.
Lemma nodes_grid1 : forall (q : quad R) (a : pt R), In a (nodes q) -> In (snd a) (nth 1 (quad_grid q) []).
Proof. intros q a H. simpl in H. destruct H as [<-|[<-|[<-|[<-|[]]]]]; simpl; tauto. Qed.

Lemma extent_inside : forall q f (p : point), finder_ready q f -> in_extent q p ->
  fp_inside [fst p; snd p] (fp_xmins f) (fp_xmaxs f) = true.
Proof.
  intros q f p (_ & _ & _ & _ & _ & _ & L1 & L2 & B) ((a & b & Ha & Hb & H1) & (c & d & Hc & Hd & H2)).
  assert (P := eps_pos). simpl in L1, L2.
  apply inside_R; simpl; try lia. intros i Hi. destruct i as [|[|i]]; [| |lia]; cbn [nth].
  - assert (X := B 0%nat (fst a) ltac:(simpl; lia) (nodes_grid0 q a Ha)).
    assert (Y := B 0%nat (fst b) ltac:(simpl; lia) (nodes_grid0 q b Hb)). lra.
  - assert (X := B 1%nat (snd c) ltac:(simpl; lia) (nodes_grid1 q c Hc)).
    assert (Y := B 1%nat (snd d) ltac:(simpl; lia) (nodes_grid1 q d Hd)). lra.
Qed.

Lemma position_quad : forall q x y, 0 <= x <= 1 -> 0 <= y <= 1 ->
  position [2; 2]%Z (quad_grid q) [x; y] 0 = fst (bilinear_map (q0 q) (q1 q) (q2 q) (q3 q) x y) /\
  position [2; 2]%Z (quad_grid q) [x; y] 1 = snd (bilinear_map (q0 q) (q1 q) (q2 q) (q3 q) x y).
Proof.
  intros q x y Hx Hy. unfold position. cbn [multilin].
  destruct (cell_spec 2 x ltac:(lia) ltac:(change (IZR (2-1)) with 1; lra)) as (C1 & _).
  destruct (cell_spec 2 y ltac:(lia) ltac:(change (IZR (2-1)) with 1; lra)) as (C2 & _).
  assert (E1 : cell 2 x = 0%Z) by lia. assert (E2 : cell 2 y = 0%Z) by lia. rewrite E1, E2.
  unfold field_at. change (0 + 1)%Z with 1%Z.
  repeat match goal with |- context [Z.to_nat (flat ?d ?v)] =>
      let n := eval vm_compute in (Z.to_nat (flat d v)) in change (Z.to_nat (flat d v)) with n end.
  unfold bilinear_map, bilinear. cbn [nth quad_grid fst snd]. split; ring.
Qed.

(** Every search ends, in the unit square, in a finder fit for the next search. *)
Lemma find_any : forall g q f p, finder_ready q f ->
  exists code x y f', qf_find g f p = Ret (code, [x; y], f') /\ finder_ready q f' /\ code <> 0%Z /\
    0 <= x <= 1 /\ 0 <= y <= 1 /\
    (code = 1%Z -> sqrt (sqdist p (bilinear_map (q0 q) (q1 q) (q2 q) (q3 q) x y)) < / 10 ^ 10).
Proof.
  intros g q f p (I & P & Hh & Hc & Ht & Hs & Hb).
  assert (Hd : fp_dims f = [2; 2]%Z) by apply Hh.
  unfold qf_find. rewrite nhalf_R. set (h := 1 / 2).
  rewrite reset_ok by (rewrite Hd; reflexivity). cbn [bind].
  match goal with |- context [fp_search g ?f] => set (f1 := f) end.
  assert (GG : fp_good [2; 2]%Z (quad_grid q) f1).
  { unfold fp_good, f1, fp_holds, solver_ok. cbn. split; [apply quad_grid_data|]. split; [exact Hh|]. split; [exact Hc|].
    rewrite P. split; [reflexivity|]. split; [reflexivity|]. split; [exact Hs|]. apply in_grid2; unfold h; lra. }
  destruct I as (I1 & I2 & I3).
  assert (Hn : fp_nitermax f1 = 10%Z) by exact I1.
  destruct (loop_ends g _ _ f1 GG eq_refl ltac:(rewrite Hn; unfold int_max; lia)) as (code & f2 & EL & NZ & G2).
  assert (ES : fp_search g f1 = Ret (code, f2)).
  { unfold fp_search. rewrite (loop_mono g _ _ _ EL) by (rewrite Hn; simpl; lia). reflexivity. }
  rewrite ES. cbn [bind fst snd].
  assert (Hd1 : fp_dims f1 <> []) by (unfold f1; cbn; rewrite Hd; discriminate).
  assert (Hs1 : solver_ok f1) by apply GG.
  destruct (loop_result g _ f1 _ Hd1 Hs1 EL) as (TW & TT & _ & f0 & E0 & _ & _). cbn [snd] in *.
  assert (SG : same_grid f1 f2) by apply TW.
  destruct SG as (S1 & S2 & S3 & S4 & S5 & S6 & S7 & S8 & S9). unfold f1 in S1, S2, S3, S4, S5, S6, S7, S8, S9.
  cbn in S1, S2, S3, S4, S5, S6, S7, S8, S9.
  assert (G2' := G2). destruct G2 as (_ & H2 & H3 & H4 & H5 & H6 & H7).
  inversion H7 as [|d x ds xs Hx H8 E1 E2]; subst. inversion H8 as [|d y ds ys Hy H9 E3 E4]; subst. inversion H9; subst.
  change (IZR (2 - 1)) with 1 in *.
  exists code, x, y, f2. split; [reflexivity|]. split.
  { unfold finder_ready, finder_inv. rewrite <- S8, <- S9, <- S6. split; [auto|]. split; [auto|]. split; [auto|]. split; [auto|].
    split; [exact H5|]. split; [exact H6|]. unfold box_holds in *. rewrite <- S2, <- S3. exact Hb. }
  split; [exact NZ|]. split; [lra|]. split; [lra|].
  intros ->. destruct (next_converged _ _ _ E0) as (e & EE & LE & _).
  rewrite (getError_R _ _ f2 G2') in EE. injection EE as <-. rewrite <- S9, I2 in LE. change (nlt (T := R)) with Rltb in LE.
  apply Rltb_true in LE. rewrite <- E2 in LE. unfold distance in LE. cbn [length rsum] in LE.
  destruct (position_quad q x y ltac:(lra) ltac:(lra)) as [P0 P1]. rewrite P0, P1, TT in LE. unfold f1 in LE. cbn [fp_target nth] in LE.
  eapply Rle_lt_trans; [|exact LE]. right. f_equal. unfold sqdist. ring.
Qed.

(** For a point within the extent of the corners the outcome depends only on the quad and the point. *)
Lemma find_same : forall g q f1 f2 (p : pt R), finder_ready q f1 -> finder_ready q f2 -> in_extent q p ->
  exists code xs f1' f2', qf_find g f1 p = Ret (code, xs, f1') /\ qf_find g f2 p = Ret (code, xs, f2') /\ finder_ready q f1' /\ finder_ready q f2'.
Proof.
  intros g q f1 f2 p R1 R2 HE.
  destruct (find_any g q f1 p R1) as (c1 & x1 & y1 & f1' & E1 & R1' & N1 & _).
  destruct (find_any g q f2 p R2) as (c2 & x2 & y2 & f2' & E2 & R2' & N2 & _).
  assert (B1 := extent_inside q f1 p R1 HE). assert (B2 := extent_inside q f2 p R2 HE).
  exists c1, [x1; y1], f1', f2'. split; auto. split; [|auto].
  rewrite E2. enough (c1 = c2 /\ [x1; y1] = [x2; y2]) by (destruct H as [-> ->]; reflexivity).
  destruct R1 as ((I1 & I2 & _) & P1 & H1 & C1 & T1 & S1 & _). destruct R2 as ((J1 & J2 & _) & P2 & H2 & C2 & T2 & S2 & _).
  assert (D1 : fp_dims f1 = [2; 2]%Z) by apply H1. assert (D2 : fp_dims f2 = [2; 2]%Z) by apply H2.
  unfold qf_find in E1, E2. rewrite nhalf_R in E1, E2.
  rewrite reset_ok in E1 by (rewrite D1; reflexivity). rewrite reset_ok in E2 by (rewrite D2; reflexivity). cbn [bind] in E1, E2.
  match type of E1 with context [fp_search g ?f] => set (s1 := f) in E1 end.
  match type of E2 with context [fp_search g ?f] => set (s2 := f) in E2 end.
  assert (A : alike (with_box s1 (fp_xmins f2) (fp_xmaxs f2)) s2).
  { unfold alike, same_grid, s1, s2, solver_ok. cbn. destruct H1 as (HD1 & HP1 & HQ1), H2 as (HD2 & HP2 & HQ2).
    repeat split; try congruence; auto. }
  assert (L := twin_loop g 11 (with_box s1 (fp_xmins f2) (fp_xmaxs f2)) s2 ltac:(cbn; rewrite D1; discriminate) A).
  rewrite loop_box in L by assumption.
  unfold fp_search in E1, E2. change (fp_nitermax s1) with (fp_nitermax f1) in E1. change (fp_nitermax s2) with (fp_nitermax f2) in E2.
  rewrite I1 in E1. rewrite J1 in E2. change (S (Z.to_nat 10)) with 11%nat in *.
  destruct (fp_loop g 11 s1) as [r1|u]; cbn [bind] in E1, L; [|discriminate].
  destruct (fp_loop g 11 s2) as [r2|u]; cbn [bind] in E2, L; [|discriminate].
  destruct L as [(u & L & _)|(a & b & L1 & L2 & L)]; [discriminate|]. injection L1 as <-. injection L2 as <-.
  destruct r1 as [[k1 t1]|], r2 as [[k2 t2]|]; try contradiction.
  - cbn [bind fst snd] in *. injection E1 as -> E1 _. injection E2 as -> E2 _. destruct L as (-> & _ & L & _).
    cbn in L. split; congruence.
  - cbn [bind fst snd] in *. injection E1 as <- E1 _. congruence.
Qed.
