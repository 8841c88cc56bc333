(** Searches in trapezoids converge in two steps. *)
From Coq Require Import ZArith List Bool Reals Lra Lia.
From Verif Require Import Base Num NumR M_LinearSolve M_FindPoint M_Triangulate M_Quad M_QuadLine S_LinAlg S_Geometry S_Quad S_Grid S_Flow
  L_LinearSolve L_Interp L_FindPoint L_FindPointR L_FindPointA L_FindPointB L_NodeInterp L_Hull L_Quad L_Flow L_FlowFind L_FlowGen L_FlowPar.
Import ListNotations.
Open Scope R_scope.

(** One step solves the linearised equations. *)
Theorem newton_step : forall g dims coords (s : fp (T:=R)) ts (A := map (fun i => map (jac dims coords (fp_dIndices s) i) (seq 0 (length dims))) (seq 0 (length dims))),
  gels_spec g (length dims) (length dims) -> fp_good dims coords s ->
  fp_inside (fp_target s) (fp_xmins s) (fp_xmaxs s) = true -> (0 <= fp_iter s < int_max)%Z ->
  invertible (length dims) A -> length ts = length dims ->
  (forall i, (i < length dims)%nat -> rsum (length dims) (fun j => entry A i j * (nth j ts 0 - nth j (fp_dIndices s) 0)) =
     nth i (fp_target s) 0 - position dims coords (fp_dIndices s) i) ->
  exists code s', fp_next g s = Ret (code, s') /\ fp_dIndices s' = fp_truncate (fp_period s) dims ts /\ fp_good dims coords s'.
Proof.
  intros g dims coords s ts A HG G HIn HI HInv Lt HT.
  assert (HD : grid_data dims coords) by apply G.
  destruct (next_total g dims coords s G ltac:(lia)) as (code & s' & RN & G' & _).
  exists code, s'. split; auto. split; auto.
  destruct (next_inv _ _ _ _ RN) as [(_ & _ & C)|H]; [congruence|].
  destruct H as (_ & jr & sv & info & sv' & xs & err & Hjr & Hsv & Hrun & Hxs & Hd & _).
  rewrite (jacobian_R dims coords) in Hjr by auto. injection Hjr as <-. cbn [fst snd] in Hrun.
  destruct G as (_ & Hh & Hco & Hper & Htl & (sv0 & Hsv0 & W) & Hx).
  assert (Hdims : fp_dims s = dims) by apply Hh. rewrite Hdims in *.
  rewrite Hsv in Hsv0. injection Hsv0 as <-. fold A in Hrun.
  set (n := length dims) in *.
  assert (Hn : (0 < n)%nat) by (unfold n; destruct HD as (H & _); destruct dims; [congruence|simpl; lia]).
  assert (LA : length A = n) by (unfold A; rewrite map_length, seq_length; reflexivity).
  assert (FA : Forall (fun r => length r = n) A).
  { apply Forall_forall. intros r Hr. apply in_map_iff in Hr. destruct Hr as (i & <- & _). rewrite map_length, seq_length. reflexivity. }
  set (r := map _ (seq 0 n)) in Hrun.
  assert (Lr : length r = n) by (unfold r; rewrite map_length, seq_length; reflexivity).
  assert (LJ : length (concat A) = (n * n)%nat) by (rewrite (concat_length A n), LA by auto; reflexivity).
  destruct (ls_square_correct g n HG Hn sv (concat A) r W LJ Lr) as (info' & sv'' & Hrun' & W' & HS).
  rewrite Hrun in Hrun'. injection Hrun' as <- <-.
  destruct (HS _ eq_refl) as (H1 & H2 & _). specialize (H2 (invertible_rows n A LA FA HInv)).
  assert (NZ : exists k, (k < n * n)%nat /\ nth k (concat A) 0 <> 0).
  { destruct HInv as (B & HAB & _). specialize (HAB 0%nat 0%nat Hn Hn). rewrite Nat.eqb_refl in HAB.
    assert (NE : ~ (forall j, (j < n)%nat -> entry A 0 j = 0)).
    { intros C. rewrite (rsum_ext n _ (fun _ => 0)), rsum_zero' in HAB; [lra|].
      intros j Hj. rewrite C by auto. ring. }
    assert (DEC : forall m, (forall j, (j < m)%nat -> entry A 0 j = 0) \/ exists j, (j < m)%nat /\ entry A 0 j <> 0).
    { induction m as [|m [IH|(j & Hj & IH)]].
      - left. intros; lia.
      - destruct (Req_EM_T (entry A 0 m) 0).
        + left. intros j Hj. destruct (Nat.eq_dec j m); [subst; auto|apply IH; lia].
        + right. exists m. split; auto.
      - right. exists j. split; auto. }
    destruct (DEC n) as [C|(j & Hj & Hne)]; [contradiction|]. exists (0 * n + j)%nat. split; [nia|].
    rewrite nth_concat by (auto; lia). exact Hne. }
  specialize (H1 H2 NZ).
  assert (Lx := in_grid_length _ _ Hx). fold n in Lx.
  set (y := ls_getSolution sv') in *.
  assert (Y : forall i, (i < n)%nat -> nth i y 0 = nth i ts 0 - nth i (fp_dIndices s) 0).
  { assert (Y0 : forall i, (i < n)%nat -> nth i y 0 - (nth i ts 0 - nth i (fp_dIndices s) 0) = 0).
    { apply (invertible_inj n A (fun i => nth i y 0 - (nth i ts 0 - nth i (fp_dIndices s) 0)) HInv).
      intros i Hi. specialize (H1 i Hi). unfold mat_vec in H1.
      unfold r in H1. rewrite seq_map_nth in H1 by auto. rewrite <- HT in H1 by auto.
      rewrite (rsum_ext n _ (fun j => nth (i * n + j) (concat A) 0 * nth j y 0 -
         entry A i j * (nth j ts 0 - nth j (fp_dIndices s) 0))).
      2:{ intros j Hj. rewrite nth_concat by (auto; lia). ring. }
      rewrite rsum_minus, H1. ring. }
    intros i Hi. specialize (Y0 i Hi). lra. }
  rewrite addsteps in Hxs by (auto; unfold y, ls_getSolution; destruct W' as (_ & _ & _ & _ & _ & -> & _); lia).
  injection Hxs as <-. rewrite Hd. f_equal.
  apply (nth_ext _ _ 0 0); rewrite map_length, seq_length; [auto|].
  intros i Hi. rewrite seq_map_nth by auto. rewrite Y by auto. ring.
Qed.

(** Jacobian of a quad. *)
Lemma jac_quad : forall q x y, 0 <= x <= 1 -> 0 <= y <= 1 -> forall i, (i < 2)%nat -> let c (p : pt R) := if (i =? 0)%nat then fst p else snd p in
  jac [2; 2]%Z (quad_grid q) [x; y] i 0 = (1 - y) * (c (q1 q) - c (q0 q)) + y * (c (q2 q) - c (q3 q)) /\
  jac [2; 2]%Z (quad_grid q) [x; y] i 1 = (1 - x) * (c (q3 q) - c (q0 q)) + x * (c (q2 q) - c (q1 q)).
Proof.
  intros q x y Hx Hy i Hi c.
  destruct (step_range 2 x ltac:(lia) ltac:(change (IZR (2-1)) with 1; lra)) as (A1 & A2 & A3).
  destruct (step_range 2 y ltac:(lia) ltac:(change (IZR (2-1)) with 1; lra)) as (B1 & B2 & B3).
  change (IZR (2 - 1)) with 1 in *. unfold jac. cbn [nth upd].
  set (xh := stepHi 2 x) in *. set (xl := stepLo x) in *. set (yh := stepHi 2 y) in *. set (yl := stepLo y) in *.
  assert (E : forall u v, 0 <= u <= 1 -> 0 <= v <= 1 -> position [2; 2]%Z (quad_grid q) [u; v] i =
    bilinear (c (q0 q)) (c (q1 q)) (c (q3 q)) (c (q2 q)) u v).
  { intros u v Hu Hv. destruct (position_quad q u v Hu Hv) as [P0 P1]. destruct i as [|[|i]]; [exact P0|exact P1|lia]. }
  rewrite !E by lra. unfold bilinear. split; field; lra.
Qed.

(** Sides q0 q3 and q1 q2 are parallel. *)
Definition trapezoid (q : quad R) : Prop :=
  cr (q0 q) (q1 q) (q3 q) <> 0 /\ exists lam, 0 < lam /\
  fst (q2 q) - fst (q1 q) = lam * (fst (q3 q) - fst (q0 q)) /\ snd (q2 q) - snd (q1 q) = lam * (snd (q3 q) - snd (q0 q)).

Definition tscale (lam x : R) : R := 1 + (lam - 1) * x.

Lemma tscale_pos : forall lam x, 0 < lam -> 0 <= x <= 1 -> 0 < tscale lam x.
Proof. intros. unfold tscale. nra. Qed.

Lemma invertible2 : forall a b c d, a * d - b * c <> 0 -> invertible 2 [[a; b]; [c; d]].
Proof.
  intros a b c d H. exists (fun i j => match i, j with
    | 0%nat, 0%nat => d / (a * d - b * c) | 0%nat, _ => - b / (a * d - b * c)
    | _, 0%nat => - c / (a * d - b * c) | _, _ => a / (a * d - b * c) end).
  split; intros i k Hi Hk; destruct i as [|[|]]; try lia; destruct k as [|[|]]; try lia;
    unfold entry; cbn [rsum nth Nat.eqb]; field; exact H.
Qed.

Section Trap.
Variables (q : quad R) (lam : R).
Hypotheses (D : cr (q0 q) (q1 q) (q3 q) <> 0) (HL : 0 < lam)
  (P1 : fst (q2 q) - fst (q1 q) = lam * (fst (q3 q) - fst (q0 q)))
  (P2 : snd (q2 q) - snd (q1 q) = lam * (snd (q3 q) - snd (q0 q))).

Lemma trap_map : forall x y, bilinear_map (q0 q) (q1 q) (q2 q) (q3 q) x y =
  in_frame (q0 q) (q1 q) (q3 q) x (y * tscale lam x).
Proof.
  intros x y. unfold bilinear_map, bilinear, in_frame, tscale. apply pair_eq; cbn [fst snd].
  - replace (fst (q2 q)) with (fst (q1 q) + lam * (fst (q3 q) - fst (q0 q))) by lra. ring.
  - replace (snd (q2 q)) with (snd (q1 q) + lam * (snd (q3 q) - snd (q0 q))) by lra. ring.
Qed.

(** One step towards the point with indices (a, b). *)
Lemma trap_step : forall g (s : fp (T:=R)) a b x y, gels_spec g 2 2 -> fp_good [2; 2]%Z (quad_grid q) s ->
  fp_inside (fp_target s) (fp_xmins s) (fp_xmaxs s) = true -> (0 <= fp_iter s < int_max)%Z ->
  fp_period s = [0; 0] -> fp_dIndices s = [x; y] -> 0 <= a <= 1 -> 0 <= b <= 1 ->
  let p := bilinear_map (q0 q) (q1 q) (q2 q) (q3 q) a b in fp_target s = [fst p; snd p] ->
  exists code s' y', fp_next g s = Ret (code, s') /\ fp_dIndices s' = [a; y'] /\ fp_good [2; 2]%Z (quad_grid q) s' /\
    (x = a -> y' = b).
Proof.
  intros g s a b x y HG G HIn HI HP Ex Ha Hb p ET.
  assert (Hx : 0 <= x <= 1 /\ 0 <= y <= 1).
  { destruct G as (_ & _ & _ & _ & _ & _ & Hg). rewrite Ex in Hg. inversion Hg as [|d u ds us Hu Hg' E1 E2]; subst.
    inversion Hg' as [|d v ds vs Hv _ E3 E4]; subst. change (IZR (2 - 1)) with 1 in *. lra. }
  destruct Hx as [Hx Hy].
  set (ty := y + (b * tscale lam a - y * tscale lam x - y * (lam - 1) * (a - x)) / tscale lam x).
  assert (TP := tscale_pos lam x HL Hx).
  destruct (jac_quad q x y Hx Hy 0%nat ltac:(lia)) as [J00 J01]. destruct (jac_quad q x y Hx Hy 1%nat ltac:(lia)) as [J10 J11].
  cbn [Nat.eqb] in *.
  destruct (position_quad q x y Hx Hy) as [Q0 Q1].
  rewrite trap_map in Q0, Q1. unfold p in ET. rewrite trap_map in ET. unfold in_frame in Q0, Q1, ET. cbn [fst snd] in Q0, Q1, ET.
  assert (E2a : fst (q2 q) = fst (q1 q) + lam * (fst (q3 q) - fst (q0 q))) by lra.
  assert (E2b : snd (q2 q) = snd (q1 q) + lam * (snd (q3 q) - snd (q0 q))) by lra.
  destruct (newton_step g [2; 2]%Z (quad_grid q) s [a; ty] HG G HIn HI) as (code & s' & E & Ed & G').
  - rewrite Ex. cbn [length seq map]. rewrite J00, J01, J10, J11. apply invertible2. rewrite E2a, E2b.
    match goal with |- ?e <> 0 => replace e with (tscale lam x * cr (q0 q) (q1 q) (q3 q)) by (unfold tscale, cr; ring) end.
    apply Rmult_integral_contrapositive. split; [lra|exact D].
  - reflexivity.
  - intros i Hi. rewrite Ex, ET. cbn [length] in Hi. destruct i as [|[|i]]; [| |lia]; cbn [length seq map rsum entry nth] in *;
      unfold entry; cbn [nth]; rewrite ?J00, ?J01, ?J10, ?J11, ?Q0, ?Q1, ?E2a, ?E2b; unfold ty; unfold tscale in *; field; lra.
  - rewrite HP in Ed. cbn [fp_truncate] in Ed.
    rewrite (truncate1_id 0 2 a) in Ed by (first [lia | (left; reflexivity) | (change (IZR (2 - 1)) with 1; lra) ]).
    exists code, s', (fp_truncate1 0 2 ty). split; auto. split; [exact Ed|]. split; auto.
    intros ->. assert (EY : ty = b) by (unfold ty; unfold tscale in *; field; lra). rewrite EY.
    apply truncate1_id; first [lia | (left; reflexivity) | (change (IZR (2 - 1)) with 1; lra) ].
Qed.

Lemma trap_find : forall g f a b, gels_spec g 2 2 -> finder_ready q f -> 0 <= a <= 1 -> 0 <= b <= 1 ->
  exists xs f', qf_find g f (bilinear_map (q0 q) (q1 q) (q2 q) (q3 q) a b) = Ret (1%Z, xs, f').
Proof.
  intros g f a b HG FR Ha Hb. set (p := bilinear_map (q0 q) (q1 q) (q2 q) (q3 q) a b).
  assert (HE : in_extent q p) by (apply hull_extent, map_in_hull; auto).
  assert (B := extent_inside q f p FR HE).
  destruct FR as ((I1 & I2 & I3) & P & Hh & Hc & Ht & Hs & Hb').
  assert (Hd : fp_dims f = [2; 2]%Z) by apply Hh.
  unfold qf_find. rewrite nhalf_R. set (h := 1 / 2).
  rewrite reset_ok by (rewrite Hd; reflexivity). cbn [bind].
  match goal with |- context [fp_search g ?f] => set (f1 := f) end.
  assert (GG : fp_good [2; 2]%Z (quad_grid q) f1).
  { unfold fp_good, f1, fp_holds, solver_ok. cbn. split; [apply quad_grid_data|]. split; [exact Hh|]. split; [exact Hc|].
    rewrite P. split; [reflexivity|]. split; [reflexivity|]. split; [exact Hs|]. apply in_grid2; unfold h; lra. }
  destruct (trap_step g f1 a b h h HG GG B ltac:(unfold f1, int_max; cbn; lia) P eq_refl Ha Hb eq_refl) as (c1 & f2 & y1 & E1 & D1 & G2 & _).
  unfold fp_search. change (fp_nitermax f1) with (fp_nitermax f). rewrite I1. change (S (Z.to_nat 10)) with 11%nat.
  assert (N1 := next_inv _ _ _ _ E1). destruct N1 as [(_ & _ & C)|(_ & jr & sv & info & sv' & xs & err & _ & _ & _ & _ & _ & _ & SG & ET & IT & _ & EE & Er & Hc1)];
    [exact (False_ind _ (eq_true_false_abs _ B C))|].
  change (fp_errors f1) with (@nil R) in *. change (fp_iter f1) with 0%Z in *. change (fp_nitermax f1) with (fp_nitermax f) in *. rewrite I1 in *.
  assert (C1 : c1 = 1%Z \/ c1 = 0%Z).
  { rewrite Er in Hc1. cbn [app length] in Hc1.
    destruct Hc1 as [(_ & C & _)|[(_ & _ & C & _)|[(C & _)|(C & _)]]]; auto.
    - apply andb_true_iff in C. destruct C as [C _]. apply andb_true_iff in C. destruct C as [_ C]. discriminate.
    - lia. }
  cbn [fp_loop]. rewrite E1. cbn [bind fst snd].
  destruct C1 as [-> | ->]; [cbn [Z.eqb bind fst snd]; eexists _, _; reflexivity|].
  change (0 =? 0)%Z with true. cbv iota.
  destruct SG as (S1 & S2 & S3 & S4 & S5 & S6 & S7 & S8 & S9). change (fp_period f1) with (fp_period f) in S6. change (fp_nitermax f1) with (fp_nitermax f) in S8.
  change (fp_tolpos f1) with (fp_tolpos f) in S9.
  assert (IN2 : fp_inside (fp_target f2) (fp_xmins f2) (fp_xmaxs f2) = true) by (rewrite ET, <- S2, <- S3; exact B).
  destruct (trap_step g f2 a b a y1 HG G2 IN2 ltac:(rewrite IT; unfold int_max; lia) ltac:(congruence) D1 Ha Hb) as (c2 & f3 & y2 & E2 & D2 & G3 & Y).
  { rewrite ET. reflexivity. }
  specialize (Y eq_refl). subst y2.
  rewrite E2. cbn [bind fst snd].
  assert (N2 := next_inv _ _ _ _ E2). destruct N2 as [(_ & _ & C)|(_ & jr2 & sv2 & info2 & sv2' & xs2 & err2 & _ & _ & _ & _ & _ & _ & SG2 & ET2 & IT2 & _ & EE2 & Er2 & Hc2)];
    [rewrite IN2 in C; discriminate C|].
  assert (Z2 : err2 = 0).
  { rewrite (getError_R _ _ _ G3) in EE2. injection EE2 as <-. unfold distance. cbn [length rsum].
    destruct (position_quad q a b Ha Hb) as [W0 W1]. rewrite D2, W0, W1, ET2, ET. unfold f1. cbn [fp_target nth]. fold p.
    replace (0 + (fst p - fst p) * (fst p - fst p) + (snd p - snd p) * (snd p - snd p)) with 0 by ring. apply sqrt_0. }
  assert (C2 : c2 = 1%Z).
  { rewrite Er2, Er in Hc2. cbn [app length] in Hc2. rewrite <- S8, <- S9, IT2, IT, I1, I2, Z2 in Hc2.
    destruct Hc2 as [(_ & C & _)|[(_ & _ & C & _)|[(C & _)|(_ & _ & _ & C & _)]]]; auto.
    - apply andb_true_iff in C. destruct C as [C _]. apply andb_true_iff in C. destruct C as [_ C]. discriminate.
    - lia.
    - apply Rltb_false in C. assert (0 < / 10 ^ 10) by (apply Rinv_0_lt_compat, pow_lt; lra). lra. }
  subst c2. cbn [Z.eqb bind fst snd]. eexists _, _. reflexivity.
Qed.

Lemma trap_convexq : exists sg, convexq sg q.
Proof.
  set (sg := if Rlt_dec 0 (cr (q0 q) (q1 q) (q3 q)) then 1 else -1).
  assert (Sg : sg = 1 \/ sg = -1) by (unfold sg; destruct (Rlt_dec _ _); auto).
  assert (SD : 0 < sg * cr (q0 q) (q1 q) (q3 q)) by (unfold sg; destruct (Rlt_dec _ _); lra).
  assert (E2a : fst (q2 q) = fst (q1 q) + lam * (fst (q3 q) - fst (q0 q))) by lra.
  assert (E2b : snd (q2 q) = snd (q1 q) + lam * (snd (q3 q) - snd (q0 q))) by lra.
  exists sg. unfold convexq. split; auto.
  replace (cr (q0 q) (q1 q) (q2 q)) with (lam * cr (q0 q) (q1 q) (q3 q)) by (unfold cr; rewrite E2a, E2b; ring).
  replace (cr (q1 q) (q2 q) (q3 q)) with (lam * cr (q0 q) (q1 q) (q3 q)) by (unfold cr; rewrite E2a, E2b; ring).
  replace (cr (q2 q) (q3 q) (q0 q)) with (cr (q0 q) (q1 q) (q3 q)) by (unfold cr; rewrite E2a, E2b; ring).
  replace (cr (q3 q) (q0 q) (q1 q)) with (cr (q0 q) (q1 q) (q3 q)) by (unfold cr; ring).
  repeat split; nra.
Qed.

(** Every point of the trapezoid has indices. *)
Lemma trap_indices : forall p, in_hull (nodes q) p -> exists a b, 0 <= a <= 1 /\ 0 <= b <= 1 /\
  p = bilinear_map (q0 q) (q1 q) (q2 q) (q3 q) a b.
Proof.
  intros p H. destruct trap_convexq as (sg & CQ). apply (hull_in_quad sg) in H; auto.
  set (d := cr (q0 q) (q1 q) (q3 q)) in *.
  set (a := cr (q0 q) p (q3 q) / d). set (v := cr (q0 q) (q1 q) p / d).
  assert (Ep : p = in_frame (q0 q) (q1 q) (q3 q) a v).
  { unfold in_frame, a, v, d in *. apply pair_eq; cbn [fst snd]; unfold cr in *; field; exact D. }
  assert (E2a : fst (q2 q) = fst (q1 q) + lam * (fst (q3 q) - fst (q0 q))) by lra.
  assert (E2b : snd (q2 q) = snd (q1 q) + lam * (snd (q3 q) - snd (q0 q))) by lra.
  clearbody a v.
  assert (F0 : cr (q0 q) (q1 q) p = v * d) by (rewrite Ep; unfold d, cr, in_frame; cbn [fst snd]; ring).
  assert (F1 : cr (q1 q) (q2 q) p = lam * (1 - a) * d) by (rewrite Ep; unfold d, cr, in_frame; cbn [fst snd]; rewrite E2a, E2b; ring).
  assert (F2 : cr (q2 q) (q3 q) p = (tscale lam a - v) * d) by (rewrite Ep; unfold d, cr, in_frame, tscale; cbn [fst snd]; rewrite E2a, E2b; ring).
  assert (F3 : cr (q3 q) (q0 q) p = a * d) by (rewrite Ep; unfold d, cr, in_frame; cbn [fst snd]; ring).
  assert (H0 := H _ (or_introl eq_refl)). assert (H1 := H _ (or_intror (or_introl eq_refl))).
  assert (H2 := H _ (or_intror (or_intror (or_introl eq_refl)))).
  assert (H3 := H _ (or_intror (or_intror (or_intror (or_introl eq_refl))))). cbn [fst snd] in *.
  rewrite F0 in H0. rewrite F1 in H1. rewrite F2 in H2. rewrite F3 in H3.
  destruct CQ as (Sg & _ & _ & _ & SD). replace (cr (q3 q) (q0 q) (q1 q)) with d in SD by (unfold d, cr; ring).
  assert (K : forall z, 0 <= sg * (z * d) -> 0 <= z).
  { intros z Hz. destruct (Rle_lt_dec 0 z); auto. exfalso. assert (z * (sg * d) < 0) by nra. lra. }
  apply K in H0. apply K in H1. apply K in H2. apply K in H3.
  assert (A : 0 <= a <= 1) by (split; [lra|nra]). assert (TP := tscale_pos lam a HL A).
  exists a, (v / tscale lam a). split; auto. split.
  - split; [apply Rmult_le_pos; auto; left; apply Rinv_0_lt_compat; auto|].
    apply Rmult_le_reg_r with (tscale lam a); auto. unfold Rdiv. rewrite Rmult_assoc, Rinv_l by lra. lra.
  - rewrite trap_map. unfold Rdiv. rewrite Rmult_assoc, Rinv_l, Rmult_1_r by lra. exact Ep.
Qed.

End Trap.

Lemma trapezoid_locates : forall g q p, gels_spec g 2 2 -> trapezoid q -> in_hull (nodes q) p -> locates g q p.
Proof.
  intros g q p HG (D & lam & HL & P1 & P2) HH.
  destruct (trap_indices q lam D HL P1 P2 p HH) as (a & b & Ha & Hb & ->).
  set (p := bilinear_map (q0 q) (q1 q) (q2 q) (q3 q) a b) in *.
  destruct (finder_set (qf_finder (qf_new (T:=R))) q finder_new) as (f & E & FR).
  unfold locates, qf_setQuadPoints. rewrite E. cbn [bind]. eexists. 
  unfold qf_computeProjections, qf_indices, qf_setLinePoints. 
  destruct (trap_find q lam D HL P1 P2 g f a b HG FR Ha Hb) as (xs1 & f1 & E1). fold p in E1.
  destruct (find_any g q f p FR) as (c1 & x1 & y1 & f1' & E1' & FR1 & _). rewrite E1 in E1'. injection E1' as <- -> <-.
  destruct (trap_find q lam D HL P1 P2 g f1 a b HG FR1 Ha Hb) as (xs2 & f2 & E2). fold p in E2.
  destruct (find_any g q f1 p FR1) as (c2 & x2 & y2 & f2' & E2' & FR2 & _). rewrite E2 in E2'. injection E2' as <- -> <-.
  eexists. split; [reflexivity|]. cbn [qf_line qf_finder fst snd]. rewrite E1. cbn [bind]. rewrite E2. cbn [bind qf_xia qf_xib].
  change (vget [x1; y1] 0) with (Ret x1). change (vget [x1; y1] 1) with (Ret y1).
  change (vget [x2; y2] 0) with (Ret x2). change (vget [x2; y2] 1) with (Ret y2). cbn [bind]. reflexivity.
Qed.
