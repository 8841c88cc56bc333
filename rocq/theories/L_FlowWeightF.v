(** The weights of a rectangular cell of moderate size for a segment, in IEEE double arithmetic. *)
From Coq Require Import ZArith List Bool Reals Lra Lia Permutation Floats.SpecFloat.
From Flocq Require Import Core BinarySingleNaN.
From Verif Require Import Base Num NumR NumF M_BoxIterator M_LinearSolve M_FindPoint M_Triangulate M_Quad M_QuadLine M_FlowInterp S_Sort S_Grid S_Flow S_FlowTable
  L_LinearSolve L_FindPoint L_NodeInterp L_Float L_FloatOps L_FloatOrder L_QuadBoxF L_FindPointF L_NodeInterpF L_Defined L_FlowInterp L_FlowTwin L_FlowTable L_FlowF L_DotF L_ApplyF L_ResidualF L_QuadF L_RectF L_FlowRectF L_FlowCellF L_FlowFindF.
Import ListNotations.
Open Scope R_scope.

Lemma sort2 : forall srt l (a b : spec_float), sorts srt -> dbl a -> dbl b -> fval a < fval b -> Permutation l [a; b] -> srt nlt l = [a; b].
Proof.
  intros srt l a b ST Da Db L P. destruct (ST nlt l) as [P1 AS].
  assert (NN : forall x, dbl x -> x <> S754_nan) by (intros x [_ F] ->; discriminate F).
  assert (SW : strict_weak (A := spec_float) nlt l).
  { apply strict_weak_F. intros x I. apply (Permutation_in _ P) in I. destruct I as [<- |[<- |[]]]; auto. }
  specialize (AS SW). assert (P2 : Permutation [a; b] (srt nlt l)) by (rewrite P1, P; reflexivity).
  apply Permutation_length_2_inv in P2. destruct P2 as [-> | E]; auto. exfalso. rewrite E in AS. assert (K := AS 0%nat 1%nat a ltac:(simpl; lia)). cbn [nth] in K.
  rewrite f_lt in K by auto. apply Rltb_false in K. lra.
Qed.

Lemma smin_val : forall a b, dbl a -> dbl b -> dbl (smin a b) /\ fval (smin a b) = Rmin (fval a) (fval b).
Proof.
  intros a b Da Db. destruct (f_smin a b Da Db) as [D V]. split; auto. rewrite V. unfold smin, Rmin. cbn [nlt NumR].
  destruct (Rltb (fval b) (fval a)) eqn:E, (Rle_dec (fval a) (fval b)) as [X|X]; auto; rewrite ?Rltb_true, ?Rltb_false in E; lra.
Qed.
Lemma smax_val : forall a b, dbl a -> dbl b -> dbl (smax a b) /\ fval (smax a b) = Rmax (fval a) (fval b).
Proof.
  intros a b Da Db. destruct (f_smax a b Da Db) as [D V]. split; auto. rewrite V. unfold smax, Rmax. cbn [nlt NumR].
  destruct (Rltb (fval a) (fval b)) eqn:E, (Rle_dec (fval a) (fval b)) as [X|X]; auto; rewrite ?Rltb_true, ?Rltb_false in E; lra.
Qed.

(** The boxes overlap in a direction when some point of the segment is in the interval. *)
Lemma overlap_axis : forall a b c d p q t, dbl a -> dbl b -> dbl c -> dbl d -> dbl p -> dbl q ->
  0 <= t <= 1 -> fval a <= fval p + t * (fval q - fval p) <= fval c ->
  nle (smax (smin d (smin c (smin b a))) (smin q p)) (smin (smax d (smax c (smax b a))) (smax q p)) = true.
Proof.
  intros a b c d p q t Da Db Dc Dd Dp Dq Ht B.
  destruct (smin_val b a Db Da) as [D1 V1]. destruct (smin_val c _ Dc D1) as [D2 V2]. destruct (smin_val d _ Dd D2) as [D3 V3].
  destruct (smax_val b a Db Da) as [D4 V4]. destruct (smax_val c _ Dc D4) as [D5 V5]. destruct (smax_val d _ Dd D5) as [D6 V6].
  destruct (smin_val q p Dq Dp) as [D7 V7]. destruct (smax_val q p Dq Dp) as [D8 V8].
  destruct (smax_val _ _ D3 D7) as [D9 V9]. destruct (smin_val _ _ D6 D8) as [D10 V10].
  rewrite f_le by auto. rewrite V9, V10, V7, V8, V3, V6, V2, V5, V1, V4. apply Rleb_true.
  assert (M1 : Rmin (fval d) (Rmin (fval c) (Rmin (fval b) (fval a))) <= fval a) by (do 2 (eapply Rle_trans; [apply Rmin_r|]); apply Rmin_r).
  assert (M2 : fval c <= Rmax (fval d) (Rmax (fval c) (Rmax (fval b) (fval a)))) by (eapply Rle_trans; [apply Rmax_l|apply Rmax_r]).
  assert (M3 : Rmin (fval q) (fval p) <= fval p + t * (fval q - fval p) <= Rmax (fval q) (fval p)).
  { unfold Rmin, Rmax. destruct (Rle_dec (fval q) (fval p)); split; nra. }
  apply Rmax_lub; apply Rmin_glb; lra.
Qed.

(** Computed indices of the two end points in a cell, near the exact ones, and the weights for them. *)
Definition near_weights (ux uy vx vy : R) (w : list spec_float) : Prop :=
  exists w0 w1 w2 w3 xa ya xb yb, w = [w0; w1; w2; w3] /\ (forall v, In v w -> dbl v /\ Rabs (fval v) <= 1) /\
  0 <= xa <= 1 /\ 0 <= ya <= 1 /\ 0 <= xb <= 1 /\ 0 <= yb <= 1 /\
  Rabs (xa - ux) <= / 10 ^ 8 /\ Rabs (ya - uy) <= / 10 ^ 8 /\ Rabs (xb - vx) <= / 10 ^ 8 /\ Rabs (yb - vy) <= / 10 ^ 8 /\
  Rabs (fval w0 - (xb - xa) * (1 - (ya + yb) / 2)) <= 6 * uround /\ Rabs (fval w1 - (xb - xa) * ((ya + yb) / 2)) <= 6 * uround /\
  Rabs (fval w2 - (yb - ya) * (1 - (xa + xb) / 2)) <= 6 * uround /\ Rabs (fval w3 - (yb - ya) * ((xa + xb) / 2)) <= 6 * uround.

Lemma add_zero : forall v : spec_float, dbl v -> dbl (nadd n0 v) /\ fval (nadd n0 v) = fval v.
Proof. intros v D. destruct zero_one as (D0 & V0 & _). apply f_add_exact; auto. lra. Qed.

Section Cell.
Variable g : gels spec_float.
Hypothesis F2 : flow2 g.
Variable srt : (spec_float -> spec_float -> bool) -> list spec_float -> list spec_float.
Hypothesis ST : sorts srt.
Variables px py qx qy x0 x1 y0 y1 : spec_float.
Hypothesis CL : clear_of px py qx qy x0 x1 y0 y1.

Let tin := t_in (fval px) (fval py) (fval qx) (fval qy) (fval x0) (fval x1) (fval y0) (fval y1).
Let tout := t_out (fval px) (fval py) (fval qx) (fval qy) (fval x0) (fval x1) (fval y0) (fval y1).
Let X (t : R) := fval px + t * (fval qx - fval px).
Let Y (t : R) := fval py + t * (fval qy - fval py).
Let line : pt spec_float * pt spec_float := ((px, py), (qx, qy)).

Lemma in_cell : forall t, tin <= t <= tout <-> 0 <= t <= 1 /\ fval x0 <= X t <= fval x1 /\ fval y0 <= Y t <= fval y1.
Proof.
  intros t. destruct CL as [_ _ _ _ _ _ _ _ W H DX DY _ _ _ _].
  destruct (tm_order (fval px) (fval qx) (fval x0) (fval x1) (ap_ne _ _ DX) ltac:(lra)) as (_ & _ & IX). destruct (tm_order (fval py) (fval qy) (fval y0) (fval y1) (ap_ne _ _ DY) ltac:(lra)) as (_ & _ & IY).
  unfold X, Y. rewrite <- IX, <- IY. unfold tin, tout, t_in, t_out. clear IX IY.
  set (a := Rmin (tm (fval px) _ _) _). set (b := Rmax (tm (fval px) _ _) _). set (c := Rmin (tm (fval py) _ _) _). set (d := Rmax (tm (fval py) _ _) _).
  clearbody a b c d. unfold Rmin, Rmax. destruct (Rle_dec a c), (Rle_dec b d);
  repeat match goal with |- context [Rle_dec ?u ?v] => destruct (Rle_dec u v) end; split; intros; lra.
Qed.

(** A computed point for the time [a]. *)
Definition point_ok (a : R) (p : pt spec_float) : Prop := dbl (fst p) /\ dbl (snd p) /\ Rabs (fval (fst p) - X a) <= / 10 ^ 9 /\ Rabs (fval (snd p) - Y a) <= / 10 ^ 9 /\
  fval x0 - 160 * uround <= fval (fst p) <= fval x1 + 160 * uround /\ fval y0 - 160 * uround <= fval (snd p) <= fval y1 + 160 * uround.

Lemma end_point : forall a l, end_ok px py qx qy x0 x1 y0 y1 a l -> point_ok a (along (fst line) (snd line) l).
Proof. intros a l (D & N & (A1 & A2 & A3) & B1 & B2 & B3). unfold point_ok, along, line. cbn [fst snd]. auto 10. Qed.

Theorem cell_points :
  (tin < tout -> quad_line_overlap (fbox x0 x1 y0 y1) line = true /\
     exists A B, map (fun t => along (fst line) (snd line) t) (srt nlt (line_lambdas g (fbox x0 x1 y0 y1) line)) = [A; B] /\ point_ok tin A /\ point_ok tout B) /\
  (tout <= tin -> srt nlt (line_lambdas g (fbox x0 x1 y0 y1) line) = []).
Proof.
  destruct (cell_lambdas g F2 px py qx qy x0 x1 y0 y1 CL) as [K1 K2]. fold tin tout line in K1, K2. split.
  - intros T. destruct (K1 T) as (GAP & la & lb & Ea & Eb & P). split.
    + destruct (in_cell tin) as [I _]. destruct (I ltac:(lra)) as (Ht & BX & BY). unfold X in BX. unfold Y in BY. destruct CL as [[D1 _] [D2 _] [D3 _] [D4 _] [D5 _] [D6 _] [D7 _] [D8 _] _ _ _ _ _ _ _ _].
      unfold quad_line_overlap, line, qmin, qmax, fbox. cbn [q0 q1 q2 q3 fst snd]. apply andb_true_intro. split; apply (overlap_axis _ _ _ _ _ _ tin); auto.
    + exists (along (fst line) (snd line) la), (along (fst line) (snd line) lb). rewrite (sort2 srt _ la lb ST); auto.
      * split; [reflexivity|]. split; apply end_point; auto.
      * apply Ea.
      * apply Eb.
      * destruct Ea as (_ & Na & _). destruct Eb as (_ & Nb & _). apply Rabs_le_inv in Na. apply Rabs_le_inv in Nb. lra.
  - intros T. rewrite (K2 T). destruct (ST nlt (@nil spec_float)) as [P _]. apply Permutation_sym, Permutation_nil in P. exact P.
Qed.

Theorem segmentsW : forall (o : qf spec_float) A B, tin < tout -> readyP [2; 2]%Z (quad_grid (fbox x0 x1 y0 y1)) (qf_finder o) -> finderW (qf_finder o) -> boxed (qf_finder o) x0 x1 y0 y1 ->
  point_ok tin A -> point_ok tout B ->
  exists w o', fl_segments g o [A; B] [n0; n0; n0; n0] = Ret (w, o') /\ finderW (qf_finder o') /\
    near_weights ((X tin - fval x0) / (fval x1 - fval x0)) ((Y tin - fval y0) / (fval y1 - fval y0)) ((X tout - fval x0) / (fval x1 - fval x0)) ((Y tout - fval y0) / (fval y1 - fval y0)) w.
Proof.
  intros o A B T RD FW BX (DA1 & DA2 & NA1 & NA2 & RA1 & RA2) (DB1 & DB2 & NB1 & NB2 & RB1 & RB2).
  destruct CL as [_ _ _ _ C0 C1 C2 C3 W H _ _ _ _ _ _]. destruct A as [ax ay], B as [bx by']. cbn [fst snd] in *.
  rewrite segments_cons. unfold qf_computeProjections, qf_indices, qf_setLinePoints. cbn [qf_line qf_finder fst snd].
  destruct (find_cell g x0 x1 y0 y1 (qf_finder o) ax ay F2 C0 C1 C2 C3 W H RD FW BX DA1 DA2 RA1 RA2) as (ca & xa & ya & f1 & E1 & RD1 & T1 & Ua & Va & Xa & Ya). rewrite E1. cbn [bind].
  assert (FW1 := finderW_twin _ _ T1 FW). assert (BX1 := boxed_twin _ _ _ _ _ _ T1 BX).
  destruct (find_cell g x0 x1 y0 y1 f1 bx by' F2 C0 C1 C2 C3 W H RD1 FW1 BX1 DB1 DB2 RB1 RB2) as (cb & xb & yb & f2 & E2 & RD2 & T2 & Ub & Vb & Xb & Yb). rewrite E2. cbn [bind qf_xia qf_xib].
  change (vget [xa; ya] 0) with (Ret xa). change (vget [xa; ya] 1) with (Ret ya).
  change (vget [xb; yb] 0) with (Ret xb). change (vget [xb; yb] 1) with (Ret yb). cbn [bind fst snd].
  unfold qf_getProjection. cbn [qf_proj]. destruct (projections xa ya xb yb) as [[[p0 p1] p2] p3] eqn:EP.
  destruct (projections_F xa ya xb yb p0 p1 p2 p3 Ua Va Ub Vb EP) as (PB & _ & _ & Q0 & Q1 & Q2 & Q3).
  change (vget [p0; p1; p2; p3] 0) with (Ret p0). change (vget [p0; p1; p2; p3] 1) with (Ret p1).
  change (vget [p0; p1; p2; p3] 2) with (Ret p2). change (vget [p0; p1; p2; p3] 3) with (Ret p3). cbn [bind combine map fst snd].
  destruct (PB p0) as [? ?]; [left; reflexivity|]. destruct (PB p1) as [? ?]; [right; left; reflexivity|].
  destruct (PB p2) as [? ?]; [do 2 right; left; reflexivity|]. destruct (PB p3) as [? ?]; [do 3 right; left; reflexivity|]. clear PB.
  destruct (add_zero p0) as [S0 Z0]; auto. destruct (add_zero p1) as [S1 Z1]; auto. destruct (add_zero p2) as [S2 Z2]; auto. destruct (add_zero p3) as [S3 Z3]; auto.
  do 2 eexists. split; [reflexivity|]. split; [cbn [qf_finder]; apply (finderW_twin f1); auto|].
  exists (nadd n0 p0), (nadd n0 p1), (nadd n0 p2), (nadd n0 p3), (fval xa), (fval ya), (fval xb), (fval yb). split; [reflexivity|]. split.
  { intros v [<- |[<- |[<- |[<- |[]]]]]; split; auto; rewrite ?Z0, ?Z1, ?Z2, ?Z3; auto. }
  rewrite Z0, Z1, Z2, Z3. destruct Ua, Va, Ub, Vb. do 4 (split; [assumption|]).
  assert (SC : forall z u v lo w, / 8 <= w -> Rabs (z - (u - lo) / w) <= / 10 ^ 9 -> Rabs (u - v) <= / 10 ^ 9 -> Rabs (z - (v - lo) / w) <= / 10 ^ 8).
  { intros z u v lo w Hw HZ HU. replace (z - (v - lo) / w) with ((z - (u - lo) / w) + (u - v) / w) by (field; lra).
    eapply Rle_trans; [apply Rabs_triang|]. assert (KD := div_le (u - v) w (/ 10 ^ 9) (/ 8) HU ltac:(rewrite Rabs_pos_eq; lra)). lra. }
  do 4 (split; [eapply SC; eassumption|]). auto.
Qed.
End Cell.
