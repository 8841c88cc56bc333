(** In exact arithmetic computeWeights of the flow interpolation is always defined. *)
From Coq Require Import ZArith List Bool Reals Lra Lia.
From Verif Require Import Base Num NumR M_BoxIterator M_LinearSolve M_FindPoint M_Triangulate M_Quad M_QuadLine M_FlowInterp
  S_LinAlg S_Geometry S_Quad S_Grid S_Flow L_Flow L_FlowFind L_FlowInterp.
Import ListNotations.
Open Scope R_scope.

Lemma ready_inv : forall q f, finder_ready q f -> finder_inv f.
Proof. intros q f H. apply H. Qed.

Lemma segments_total : forall g q pts (o : qf R) w, finder_ready q (qf_finder o) ->
  exists w' o', fl_segments g o pts w = Ret (w', o') /\ finder_ready q (qf_finder o').
Proof.
  intros g q. induction pts as [|a pts IH]; intros o w FR; [exists w, o; split; [reflexivity|auto]|].
  destruct pts as [|b pts]; [exists w, o; split; [reflexivity|auto]|].
  rewrite segments_cons. unfold qf_computeProjections, qf_indices, qf_setLinePoints. cbn [qf_line qf_finder fst snd].
  destruct (find_any g q (qf_finder o) a FR) as (ca & xa & ya & f1 & E1 & FR1 & _). rewrite E1. cbn [bind].
  destruct (find_any g q f1 b FR1) as (cb & xb & yb & f2 & E2 & FR2 & _). rewrite E2. cbn [bind qf_xia qf_xib].
  change (vget [xa; ya] 0) with (Ret xa). change (vget [xa; ya] 1) with (Ret ya).
  change (vget [xb; yb] 0) with (Ret xb). change (vget [xb; yb] 1) with (Ret yb). cbn [bind fst snd].
  unfold qf_getProjection. cbn [qf_proj]. destruct (projections xa ya xb yb) as [[[p0 p1] p2] p3].
  change (vget [p0; p1; p2; p3] 0) with (Ret p0). change (vget [p0; p1; p2; p3] 1) with (Ret p1).
  change (vget [p0; p1; p2; p3] 2) with (Ret p2). change (vget [p0; p1; p2; p3] 3) with (Ret p3). cbn [bind].
  apply IH. exact FR2.
Qed.

Lemma computeWeights_total : forall srt g s nd ns (line : Z -> pt R * pt R) cell, fl_dstNumCells s = Some nd -> fl_srcNumCells s = Some ns ->
  (forall k, (0 <= k < nd)%Z -> fl_dstLine s k = Ret (line k)) -> (forall c, (0 <= c < ns)%Z -> fl_srcQuad s c = Ret (cell c)) ->
  exists s', fl_computeWeights srt g s = Ret s'.
Proof.
  intros srt g s nd ns line cell Ed Es HL HC. unfold fl_computeWeights. rewrite Ed, Es.
  destruct (foldM_total (fun x : flw R => finder_inv (qf_finder (flw_qf x))) (fl_segment srt g s ns) (range nd)
    (mkFlw ql_new qf_new (fl_weights s))) as (x & E & _).
  - exact finder_new.
  - intros x k FI Hk. apply in_range in Hk. unfold fl_segment. rewrite (HL k Hk). cbn [bind].
    destruct (foldM_total (fun x : flw R => finder_inv (qf_finder (flw_qf x)) /\ exists l, ql_line (flw_ql x) = Some l) (fl_cell srt g s k) (range ns)
      (mkFlw (ql_setLinePoints (flw_ql x) (line k)) (flw_qf x) (flw_m x))) as (x' & E & FI' & _).
    + split; [exact FI|eexists; reflexivity].
    + clear x FI. intros x c [FI (l & EL)] Hc. apply in_range in Hc. unfold fl_cell. rewrite (HC c Hc). cbn [bind].
      destruct (flw_ql x) as [q' l' la po]. cbn [ql_line] in EL. subst l'.
      unfold ql_reset, ql_setQuadPoints, ql_checkIfOverlap. cbn [ql_quad ql_line ql_lambdas ql_points bind].
      destruct (quad_line_overlap (cell c) l); cbn [negb].
      2: { eexists. split; [reflexivity|]. split; [exact FI|eexists; reflexivity]. }
      unfold ql_collect. cbn [ql_quad ql_line ql_lambdas ql_points app bind]. set (pts := map _ _). clearbody pts.
      destruct (2 <=? length pts)%nat.
      2: { eexists. split; [reflexivity|]. split; [exact FI|eexists; reflexivity]. }
      unfold qf_setQuadPoints. destruct (finder_set _ (cell c) FI) as (f' & EF & FR). rewrite EF. cbn [bind].
      destruct (segments_total g (cell c) pts (mkQf (qf_line (flw_qf x)) (qf_proj (flw_qf x)) f' (qf_xia (flw_qf x)) (qf_xib (flw_qf x)))
        [n0; n0; n0; n0] FR) as (w' & o' & ES & FR'). rewrite ES. cbn [bind].
      eexists. split; [reflexivity|]. cbn [flw_qf flw_ql snd ql_line]. split; [apply (ready_inv (cell c)); exact FR'|eexists; reflexivity].
    + exists x'. split; auto.
  - rewrite E. cbn [bind]. eexists. reflexivity.
Qed.
