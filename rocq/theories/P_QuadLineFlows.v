(** Properties C31, C32: projections of a segment on the edges of a cell. *)
From Coq Require Import ZArith List Bool Reals Lra Lia.
From Verif Require Import Base Num NumR M_LinearSolve M_FindPoint M_Triangulate M_Quad M_QuadLine S_LinAlg S_Geometry S_Quad S_Grid S_Flow
  L_LinearSolve L_Hull L_Quad L_Flow L_FlowFind L_FlowGen L_FlowPar L_FlowTrap L_FindPoint L_NodeInterp L_FlowTwin.
Import ListNotations.
Open Scope R_scope.

(** A client: a new object, the cell q, the segment from A to B, computeProjections, and the four
    projections (low and high edge of the first direction, low and high edge of the second). *)
Definition flows {T} {N : Num T} (g : gels T) (q : quad T) (A B : pt T) : exec (Z * list T) :=
  let! s1 := qf_setQuadPoints qf_new q in
  let! r := qf_computeProjections g (qf_setLinePoints s1 (A, B)) in
  let! w := mapM (qf_getProjection (snd r)) [0; 1; 2; 3]%Z in
  Ret (fst r, w).

Definition proj_list (x0a x1a x0b x1b : R) : list R :=
  let '(a, b, c, d) := projections (T := R) x0a x1a x0b x1b in [a; b; c; d].

Definition flow_code (ca cb : Z) : Z := if (cb =? 1)%Z then (if (ca =? 1)%Z then 0%Z else 1%Z) else 2%Z.

Lemma flows_run : forall g q A B,
  exists ca xa ya f1 cb xb yb f2, qf_find g (fresh q) A = Ret (ca, [xa; ya], f1) /\ qf_find g f1 B = Ret (cb, [xb; yb], f2) /\
    finder_ready q f1 /\ flows g q A B = Ret (flow_code ca cb, proj_list xa ya xb yb).
Proof.
  intros g q A B. destruct (finder_set (qf_finder (qf_new (T:=R))) q finder_new) as (f & E & FR).
  assert (EF : fresh q = f) by (unfold fresh; rewrite E; reflexivity). rewrite EF.
  destruct (find_any g q f A FR) as (ca & xa & ya & f1 & E1 & FR1 & _).
  destruct (find_any g q f1 B FR1) as (cb & xb & yb & f2 & E2 & FR2 & _).
  exists ca, xa, ya, f1, cb, xb, yb, f2. split; auto. split; auto. split; auto.
  unfold flows, qf_setQuadPoints. rewrite E. cbn [bind].
  unfold qf_computeProjections, qf_indices, qf_setLinePoints. cbn [qf_line qf_finder fst snd]. rewrite E1. cbn [bind]. rewrite E2. cbn [bind qf_xia qf_xib].
  change (vget [xa; ya] 0) with (Ret xa). change (vget [xa; ya] 1) with (Ret ya).
  change (vget [xb; yb] 0) with (Ret xb). change (vget [xb; yb] 1) with (Ret yb). cbn [bind fst snd mapM].
  unfold qf_getProjection, proj_list. cbn [qf_proj]. destruct (projections xa ya xb yb) as [[[a b] c] d].
  change (vget [a; b; c; d] 0) with (Ret a). change (vget [a; b; c; d] 1) with (Ret b).
  change (vget [a; b; c; d] 2) with (Ret c). change (vget [a; b; c; d] 3) with (Ret d). cbn [bind].
  unfold flow_code. destruct (cb =? 1)%Z, (ca =? 1)%Z; reflexivity.
Qed.

Lemma proj_list_eq : forall xa ya xb yb, proj_list xa ya xb yb =
  [(xb - xa) * (1 - (ya + yb) / 2); (xb - xa) * ((ya + yb) / 2); (yb - ya) * (1 - (xa + xb) / 2); (yb - ya) * ((xa + xb) / 2)].
Proof.
  intros. unfold proj_list, projections. rewrite nhalf_R. change (n1 : R) with 1. cbn [nmul nadd nsub NumR].
  f_equal; [field|]. f_equal; [field|]. f_equal; [field|]. f_equal. field.
Qed.

(** C31.  For any cell, any segment and any solver: computeProjections returns; there are index
    positions of the two ends in the unit square such that for all nodal values the projections times
    the edge differences give exactly the difference of the bilinear function; and if the return code
    is 0 these index positions are mapped to within 1e-10 of the ends. *)
Theorem C31_projections_exact : forall g (q : quad R) (A B : pt R),
  exists code w0 w1 w2 w3 xa ya xb yb, flows g q A B = Ret (code, [w0; w1; w2; w3]) /\
  0 <= xa <= 1 /\ 0 <= ya <= 1 /\ 0 <= xb <= 1 /\ 0 <= yb <= 1 /\
  (forall p00 p10 p01 p11,
     w0 * (p10 - p00) + w1 * (p11 - p01) + w2 * (p01 - p00) + w3 * (p11 - p10) =
     bilinear p00 p10 p01 p11 xb yb - bilinear p00 p10 p01 p11 xa ya) /\
  (code = 0%Z -> sqrt (sqdist A (bilinear_map (q0 q) (q1 q) (q2 q) (q3 q) xa ya)) < / 10 ^ 10 /\
                 sqrt (sqdist B (bilinear_map (q0 q) (q1 q) (q2 q) (q3 q) xb yb)) < / 10 ^ 10).
Proof.
  intros g q A B. destruct (flows_run g q A B) as (ca & xa & ya & f1 & cb & xb & yb & f2 & E1 & E2 & FR & E).
  destruct (find_any g q (fresh q) A (fresh_ready q)) as (ca' & xa' & ya' & f1' & E1' & FR1 & N1 & Xa & Ya & Da).
  rewrite E1 in E1'. injection E1' as <- <- <- <-.
  destruct (find_any g q f1 B FR) as (cb' & xb' & yb' & f2' & E2' & FR2 & N2 & Xb & Yb & Db).
  rewrite E2 in E2'. injection E2' as <- <- <- <-.
  unfold proj_list in E. destruct (projections xa ya xb yb) as [[[w0 w1] w2] w3] eqn:PE.
  exists (flow_code ca cb), w0, w1, w2, w3, xa, ya, xb, yb. split; auto. split; auto. split; auto. split; auto. split; auto.
  split; [intros; apply (projections_exact _ _ _ _ _ _ _ _ PE)|].
  unfold flow_code. intros C. destruct (Z.eqb_spec cb 1); [|discriminate]. destruct (Z.eqb_spec ca 1); [|discriminate]. auto.
Qed.
Print Assumptions C31_projections_exact.

(** C31, cells with a pair of parallel sides (all quads of a longitude-latitude grid and of a grid
    stretched in one direction): the code is 0 whenever both ends are in the cell. *)
Theorem C31_trapezoid_found : forall g (q : quad R) (A B : pt R), gels_spec g 2 2 ->
  cr (q0 q) (q1 q) (q3 q) <> 0 ->
  (exists lam, 0 < lam /\ fst (q2 q) - fst (q1 q) = lam * (fst (q3 q) - fst (q0 q)) /\
                          snd (q2 q) - snd (q1 q) = lam * (snd (q3 q) - snd (q0 q))) ->
  in_hull [q0 q; q1 q; q2 q; q3 q] A -> in_hull [q0 q; q1 q; q2 q; q3 q] B ->
  exists w, flows g q A B = Ret (0%Z, w).
Proof.
  intros g q A B HG D HL HA HB.
  assert (TR : trapezoid q) by (split; [exact D|exact HL]).
  destruct (locates_found g q A (trapezoid_locates g q A HG TR HA) HA) as (xa0 & ya0 & FA & _).
  destruct (locates_found g q B (trapezoid_locates g q B HG TR HB) HB) as (xb0 & yb0 & FB & _).
  destruct (flows_run g q A B) as (ca & xa & ya & f1 & cb & xb & yb & f2 & E1 & E2 & FR & E).
  unfold found in FA. rewrite E1 in FA. injection FA as -> _ _.
  destruct (find_same g q (fresh q) f1 B (fresh_ready q) FR (hull_extent q B HB)) as (code & zs & g1 & g2 & A1 & A2 & _).
  rewrite E2 in A2. injection A2 as <- <- _. unfold found in FB. rewrite A1 in FB. injection FB as -> _ _.
  exists (proj_list xa ya xb yb). exact E.
Qed.
Print Assumptions C31_trapezoid_found.

(** C31, parallelograms: the index positions are exact, so the projections give the exact
    difference of the function between the ends of the segment. *)
Theorem C31_parallelogram : forall g o a b (A B : pt R) (F : point -> R), gels_spec g 2 2 ->
  cr o a b <> 0 -> let c := (fst a + fst b - fst o, snd a + snd b - snd o) in
  in_par o a b A -> in_par o a b B ->
  (forall x y, F (in_frame o a b x y) = bilinear (F o) (F a) (F b) (F c) x y) ->
  exists w0 w1 w2 w3, flows g (mkQuad o a c b) A B = Ret (0%Z, [w0; w1; w2; w3]) /\
  w0 * (F a - F o) + w1 * (F c - F b) + w2 * (F b - F o) + w3 * (F c - F a) = F B - F A.
Proof.
  intros g o a b A B F HG D c (xa & ya & Xa & Ya & EA) (xb & yb & Xb & Yb & EB) HF.
  set (q := mkQuad o a c b).
  assert (HP : parallelogram q) by (split; [reflexivity|split; [reflexivity|exact D]]).
  destruct (flows_run g q A B) as (ca & xa' & ya' & f1 & cb & xb' & yb' & f2 & E1 & E2 & FR & E).
  destruct (find_par g q (fresh q) A xa ya HG (fresh_ready q) HP Xa Ya EA) as (f1' & E1' & _).
  rewrite E1 in E1'. injection E1' as -> -> -> <-.
  destruct (find_par g q f1 B xb yb HG FR HP Xb Yb EB) as (f2' & E2' & _).
  rewrite E2 in E2'. injection E2' as -> -> -> <-.
  unfold proj_list in E. destruct (projections xa ya xb yb) as [[[w0 w1] w2] w3] eqn:PE.
  exists w0, w1, w2, w3. split; [exact E|].
  rewrite (projections_exact _ _ _ _ _ _ _ _ PE (F o) (F a) (F b) (F c)), <- !HF, <- EA, <- EB. reflexivity.
Qed.
Print Assumptions C31_parallelogram.

(** Non-trivial cases: a sheared cell with F(x,y) = x + 2 y, and a trapezoid that is no parallelogram. *)
Example C31_case : exists w0 w1 w2 w3,
  flows gels2 (mkQuad (0, 0) (2, 0) (3, 1) (1, 1)) (1 / 2, 1 / 4) (2, 3 / 4) = Ret (0%Z, [w0; w1; w2; w3]) /\
  w0 * 2 + w1 * 2 + w2 * 3 + w3 * 3 = 5 / 2.
Proof.
  set (F := fun p : point => fst p + 2 * snd p).
  destruct (C31_parallelogram gels2 (0, 0) (2, 0) (1, 1) (1 / 2, 1 / 4) (2, 3 / 4) F gels2_spec22) as (w0 & w1 & w2 & w3 & E & H).
  - unfold cr. cbn [fst snd]. lra.
  - exists (1 / 8), (1 / 4). split; [lra|]. split; [lra|]. unfold in_frame. cbn [fst snd]. f_equal; lra.
  - exists (5 / 8), (3 / 4). split; [lra|]. split; [lra|]. unfold in_frame. cbn [fst snd]. f_equal; lra.
  - intros x y. unfold F, in_frame, bilinear. cbn [fst snd]. ring.
  - exists w0, w1, w2, w3. split.
    + rewrite <- E. repeat f_equal; cbn [fst snd]; lra.
    + unfold F in H. cbn [fst snd] in H. lra.
Qed.

Example C31_trapezoid_case : exists w, flows gels2 (mkQuad (0, 0) (1, 0) (1, 2) (0, 1)) (0, 0) (1 / 2, 3 / 4) = Ret (0%Z, w).
Proof.
  apply C31_trapezoid_found.
  - exact gels2_spec22.
  - unfold cr. cbn. lra.
  - exists 2. cbn. lra.
  - exists [1; 0; 0; 0]. cbn. split; [reflexivity|]. split; [repeat constructor; lra|]. lra.
  - exists [1 / 4; 1 / 4; 1 / 4; 1 / 4]. cbn. split; [reflexivity|]. split; [repeat constructor; lra|]. lra.
Qed.

(** C32.  The reversed segment has the opposite projections, for any cell, any two points (also
    points outside of the cell, where the code says so) and any solver. *)
Theorem C32_reversed : forall g (q : quad R) (A B : pt R),
  exists c c' w0 w1 w2 w3, flows g q A B = Ret (c, [w0; w1; w2; w3]) /\ flows g q B A = Ret (c', [- w0; - w1; - w2; - w3]) /\
    (c = 0%Z <-> c' = 0%Z).
Proof.
  intros g q A B.
  destruct (flows_run g q A B) as (ca & xa & ya & f1 & cb & xb & yb & f2 & E1 & E2 & FR & E).
  destruct (flows_run g q B A) as (cb' & xb' & yb' & f1' & ca' & xa' & ya' & f2' & E1' & E2' & FR' & E').
  assert (FQ := fresh_ready q). assert (D : fp_dims (fresh q) <> []) by (destruct FQ as (_ & _ & Hh & _); destruct Hh as (-> & _); discriminate).
  assert (W : solver_ok (fresh q)) by apply FQ.
  assert (K : forall f1 f2 p c xs c' xs' g1 g2, twin f1 f2 -> qf_find g f1 p = Ret (c, xs, g1) -> qf_find g f2 p = Ret (c', xs', g2) -> c = c' /\ xs = xs').
  { intros h1 h2 p c xs c' xs' g1 g2 TW H1 H2. destruct (twin_qf_find g h1 h2 p TW) as [(u & X & _)|(a & b & X1 & X2 & P1 & P2 & _)]; [congruence|].
    rewrite H1 in X1. rewrite H2 in X2. injection X1 as <-. injection X2 as <-. cbn [fst snd] in *. auto. }
  assert (T1 := qf_find_twin g _ _ _ _ _ D W E1). assert (T1' := qf_find_twin g _ _ _ _ _ D W E1').
  destruct (K _ _ _ _ _ _ _ _ _ T1' E1 E2') as [<- X]. injection X as <- <-.
  destruct (K _ _ _ _ _ _ _ _ _ T1 E1' E2) as [<- X]. injection X as <- <-.
  rewrite proj_list_eq in E, E'. eexists _, _, _, _, _, _. split; [exact E|]. split.
  - rewrite E'. f_equal. f_equal. f_equal; [field|]. f_equal; [field|]. f_equal; [field|]. f_equal. field.
  - unfold flow_code. repeat match goal with |- context [(?a =? 1)%Z] => destruct (Z.eqb_spec a 1) end; split; intros; try discriminate; auto.
Qed.
Print Assumptions C32_reversed.

(** C32.  All projections are in [-1, 1], those of the low and the high edge have the same sign and
    their sum is the index displacement in that direction. *)
Theorem C32_bounded : forall g (q : quad R) (A B : pt R),
  exists c w0 w1 w2 w3, flows g q A B = Ret (c, [w0; w1; w2; w3]) /\
  -1 <= w0 <= 1 /\ -1 <= w1 <= 1 /\ -1 <= w2 <= 1 /\ -1 <= w3 <= 1 /\
  0 <= w0 * w1 /\ 0 <= w2 * w3 /\ -1 <= w0 + w1 <= 1 /\ -1 <= w2 + w3 <= 1 /\
  (c = 0%Z -> exists xa ya, 0 <= xa <= 1 /\ 0 <= ya <= 1 /\
     sqrt (sqdist A (bilinear_map (q0 q) (q1 q) (q2 q) (q3 q) xa ya)) < / 10 ^ 10 /\
     sqrt (sqdist B (bilinear_map (q0 q) (q1 q) (q2 q) (q3 q) (xa + (w0 + w1)) (ya + (w2 + w3)))) < / 10 ^ 10).
Proof.
  intros g q A B. destruct (C31_projections_exact g q A B) as (c & w0 & w1 & w2 & w3 & xa & ya & xb & yb & E & Xa & Ya & Xb & Yb & _ & D).
  destruct (flows_run g q A B) as (ca & xa' & ya' & f1 & cb & xb' & yb' & f2 & E1 & E2 & FR & E').
  assert (K : exists xa ya xb yb, 0 <= xa <= 1 /\ 0 <= ya <= 1 /\ 0 <= xb <= 1 /\ 0 <= yb <= 1 /\
     [w0; w1; w2; w3] = proj_list xa ya xb yb /\
     (c = 0%Z -> sqrt (sqdist A (bilinear_map (q0 q) (q1 q) (q2 q) (q3 q) xa ya)) < / 10 ^ 10 /\
                 sqrt (sqdist B (bilinear_map (q0 q) (q1 q) (q2 q) (q3 q) xb yb)) < / 10 ^ 10)).
  { clear xa ya xb yb Xa Ya Xb Yb D. rewrite E in E'. assert (EC : c = flow_code ca cb) by congruence. assert (EW : [w0; w1; w2; w3] = proj_list xa' ya' xb' yb') by congruence. subst c.
    destruct (find_any g q (fresh q) A (fresh_ready q)) as (ca2 & xa2 & ya2 & f12 & Y1 & FR1 & N1 & Xa & Ya & Da).
    rewrite E1 in Y1. injection Y1 as <- <- <- <-.
    destruct (find_any g q f1 B FR) as (cb2 & xb2 & yb2 & f22 & Y2 & FR2 & N2 & Xb & Yb & Db).
    rewrite E2 in Y2. injection Y2 as <- <- <- <-.
    exists xa', ya', xb', yb'. split; auto. split; auto. split; auto. split; auto. split; auto.
    unfold flow_code. intros C. destruct (Z.eqb_spec cb 1); [|discriminate]. destruct (Z.eqb_spec ca 1); [|discriminate]. auto. }
  clear xa ya xb yb Xa Ya Xb Yb D. destruct K as (xa & ya & xb & yb & Xa & Ya & Xb & Yb & EW & D).
  rewrite proj_list_eq in EW. injection EW as W0 W1 W2 W3.
  exists c, w0, w1, w2, w3. split; auto.
  set (y := (ya + yb) / 2) in *. set (x := (xa + xb) / 2) in *. set (dx := xb - xa) in *. set (dy := yb - ya) in *.
  assert (0 <= x <= 1) by (unfold x; lra). assert (0 <= y <= 1) by (unfold y; lra).
  assert (-1 <= dx <= 1) by (unfold dx; lra). assert (-1 <= dy <= 1) by (unfold dy; lra).
  assert (S0 : w0 + w1 = dx) by (rewrite W0, W1; ring). assert (S2 : w2 + w3 = dy) by (rewrite W2, W3; ring).
  split; [rewrite W0; nra|]. split; [rewrite W1; nra|]. split; [rewrite W2; nra|]. split; [rewrite W3; nra|].
  split; [rewrite W0, W1; replace (dx * (1 - y) * (dx * y)) with (dx ^ 2 * ((1 - y) * y)) by ring; apply Rmult_le_pos; [apply pow2_ge_0|nra]|].
  split; [rewrite W2, W3; replace (dy * (1 - x) * (dy * x)) with (dy ^ 2 * ((1 - x) * x)) by ring; apply Rmult_le_pos; [apply pow2_ge_0|nra]|].
  split; [lra|]. split; [lra|]. intros C. exists xa, ya. split; auto. split; auto. rewrite S0, S2.
  replace (xa + dx) with xb by (unfold dx; ring). replace (ya + dy) with yb by (unfold dy; ring). auto.
Qed.
Print Assumptions C32_bounded.

(** C32.  Cutting a segment of a parallelogram anywhere: the projections of the parts add up. *)
Theorem C32_additive : forall g o a b (A B : pt R) t, gels_spec g 2 2 ->
  cr o a b <> 0 -> let c := (fst a + fst b - fst o, snd a + snd b - snd o) in
  in_par o a b A -> in_par o a b B -> 0 <= t <= 1 ->
  let C := on_seg A B t in let q := mkQuad o a c b in
  exists u0 u1 u2 u3 v0 v1 v2 v3, flows g q A C = Ret (0%Z, [u0; u1; u2; u3]) /\ flows g q C B = Ret (0%Z, [v0; v1; v2; v3]) /\
    flows g q A B = Ret (0%Z, [u0 + v0; u1 + v1; u2 + v2; u3 + v3]).
Proof.
  intros g o a b A B t HG D c (xa & ya & Xa & Ya & EA) (xb & yb & Xb & Yb & EB) Ht C q.
  assert (HP : parallelogram q) by (split; [reflexivity|split; [reflexivity|exact D]]).
  set (xc := xa + t * (xb - xa)). set (yc := ya + t * (yb - ya)).
  assert (Xc : 0 <= xc <= 1) by (unfold xc; nra). assert (Yc : 0 <= yc <= 1) by (unfold yc; nra).
  assert (EC : C = in_frame (q0 q) (q1 q) (q3 q) xc yc).
  { unfold C, on_seg, xc, yc. rewrite EA, EB. unfold in_frame. cbn [fst snd q q0 q1 q3]. f_equal; ring. }
  assert (K : forall A B xa ya xb yb, 0 <= xa <= 1 -> 0 <= ya <= 1 -> 0 <= xb <= 1 -> 0 <= yb <= 1 ->
    A = in_frame (q0 q) (q1 q) (q3 q) xa ya -> B = in_frame (q0 q) (q1 q) (q3 q) xb yb ->
    flows g q A B = Ret (0%Z, proj_list xa ya xb yb)).
  { clear - HG HP. intros A B xa ya xb yb Xa Ya Xb Yb EA EB.
    destruct (flows_run g q A B) as (ca & xa' & ya' & f1 & cb & xb' & yb' & f2 & E1 & E2 & FR & E).
    destruct (find_par g q (fresh q) A xa ya HG (fresh_ready q) HP Xa Ya EA) as (f1' & E1' & _).
    rewrite E1 in E1'. injection E1' as -> -> -> <-.
    destruct (find_par g q f1 B xb yb HG FR HP Xb Yb EB) as (f2' & E2' & _).
    rewrite E2 in E2'. injection E2' as -> -> -> <-. exact E. }
  assert (K1 := K A C xa ya xc yc Xa Ya Xc Yc EA EC). assert (K2 := K C B xc yc xb yb Xc Yc Xb Yb EC EB).
  assert (K3 := K A B xa ya xb yb Xa Ya Xb Yb EA EB). rewrite proj_list_eq in K1, K2, K3.
  do 8 eexists. split; [exact K1|]. split; [exact K2|]. rewrite K3. unfold xc, yc. f_equal. f_equal.
  f_equal; [field|]. f_equal; [field|]. f_equal; [field|]. f_equal. field.
Qed.
Print Assumptions C32_additive.

(** A non-trivial case for reversal and bounds (a general convex cell), and for cutting. *)
Example C32_case : exists c c' w0 w1 w2 w3,
  flows gels2 (mkQuad (0, 0) (2, 0) (3, 2) (0, 1)) (1 / 2, 0) (5 / 4, 3 / 4) = Ret (c, [w0; w1; w2; w3]) /\
  flows gels2 (mkQuad (0, 0) (2, 0) (3, 2) (0, 1)) (5 / 4, 3 / 4) (1 / 2, 0) = Ret (c', [- w0; - w1; - w2; - w3]) /\
  (c = 0%Z <-> c' = 0%Z).
Proof. apply C32_reversed. Qed.

Example C32_additive_case : exists u0 u1 u2 u3 v0 v1 v2 v3,
  let q := mkQuad (0, 0) (2, 0) (2 + 1 - 0, 0 + 1 - 0) (1, 1) in let C := on_seg (1 / 2, 1 / 4) (2, 3 / 4) (1 / 3) in
  flows gels2 q (1 / 2, 1 / 4) C = Ret (0%Z, [u0; u1; u2; u3]) /\ flows gels2 q C (2, 3 / 4) = Ret (0%Z, [v0; v1; v2; v3]) /\
  flows gels2 q (1 / 2, 1 / 4) (2, 3 / 4) = Ret (0%Z, [u0 + v0; u1 + v1; u2 + v2; u3 + v3]).
Proof.
  apply (C32_additive gels2 (0, 0) (2, 0) (1, 1) (1 / 2, 1 / 4) (2, 3 / 4) (1 / 3) gels2_spec22).
  - unfold cr. cbn [fst snd]. lra.
  - exists (1 / 8), (1 / 4). split; [lra|]. split; [lra|]. unfold in_frame. cbn [fst snd]. f_equal; lra.
  - exists (5 / 8), (3 / 4). split; [lra|]. split; [lra|]. unfold in_frame. cbn [fst snd]. f_equal; lra.
  - lra.
Qed.
