(** Flow interpolation, any arithmetic: the weights are the contributions of the cells. *)
From Coq Require Import ZArith List Bool Lia FinFun.
From Verif Require Import Base Num M_BoxIterator M_LinearSolve M_FindPoint M_Triangulate M_Quad M_QuadLine M_FlowInterp
  S_Array S_FlowTable L_Box2 L_FlowInterp.
Import ListNotations.
Open Scope Z_scope.

Section Any.
Context {T : Type} {N : Num T}.

Lemma contributions_app : forall (srt : (T -> T -> bool) -> list T -> list T) g cell l cs cs' es es',
  contributions srt g cell l cs es -> contributions srt g cell l cs' es' -> contributions srt g cell l (cs ++ cs') (es ++ es').
Proof. induction 1; intros; cbn [app]; auto. - apply contributions_skip; auto. - apply contributions_add; auto. Qed.

Lemma segments_summed : forall g pts (o o' : qf T) w w', pts <> [] -> length w = 4%nat -> fl_segments g o pts w = Ret (w', o') -> summed g o pts w w'.
Proof.
  intros g. induction pts as [|a pts IH]; intros o o' w w' NE L H; [congruence|]. destruct pts as [|b pts].
  - injection H as <- _. constructor.
  - rewrite segments_cons in H. apply bind_ret_inv in H. destruct H as ([code o1] & H1 & H). cbn [snd] in H.
    apply bind_ret_inv in H. destruct H as (v0 & V0 & H). apply bind_ret_inv in H. destruct H as (v1 & V1 & H).
    apply bind_ret_inv in H. destruct H as (v2 & V2 & H). apply bind_ret_inv in H. destruct H as (v3 & V3 & H).
    destruct w as [|w0 [|w1 [|w2 [|w3 [|]]]]]; try discriminate L. cbn [combine map fst snd] in H.
    apply (summed_cons g o o1 code a b pts w0 w1 w2 w3 v0 v1 v2 v3); auto. apply (IH o1 o'); auto. discriminate.
Qed.

Lemma cell_row : forall srt g s dst x src x' l q, fl_srcQuad s src = Ret q -> sorted_map (flw_m x) -> ql_line (flw_ql x) = Some l ->
  fl_cell srt g s dst x src = Ret x' ->
  sorted_map (flw_m x') /\ ql_line (flw_ql x') = Some l /\ (forall k, k <> dst -> row (flw_m x') k = row (flw_m x) k) /\
  ((cell_skips srt g q l /\ row (flw_m x') dst = row (flw_m x) dst) \/
   exists w, cell_adds srt g q l w /\ row (flw_m x') dst = row (flw_m x) dst ++ [(src, w)]).
Proof.
  intros srt g s dst x src x' l q EQ SM EL H. unfold fl_cell in H. rewrite EQ in H. cbn [bind] in H.
  destruct (flw_ql x) as [q' l' la po] eqn:EI. cbn [ql_line] in EL. subst l'.
  unfold ql_reset, ql_setQuadPoints, ql_checkIfOverlap in H. cbn [ql_quad ql_line ql_lambdas ql_points bind] in H.
  destruct (quad_line_overlap q l) eqn:OV; cbn [negb] in H.
  2: { injection H as <-. cbn. split; auto. split; auto. split; auto. left. split; auto. left. unfold may_overlap, ql_checkIfOverlap. cbn. rewrite OV. reflexivity. }
  unfold ql_collect in H. cbn [ql_quad ql_line ql_lambdas ql_points app bind] in H.
  set (pts := map _ _) in H.
  assert (RP : reported srt g q l pts) by (eexists; reflexivity).
  clearbody pts. destruct (2 <=? length pts)%nat eqn:EP.
  - apply Nat.leb_le in EP. apply bind_ret_inv in H. destruct H as (o1 & HO & H). apply bind_ret_inv in H. destruct H as ([w o2] & HS & H).
    injection H as <-. cbn [flw_m flw_ql ql_line fst snd]. split; [apply push_sorted; auto|]. split; auto. split; [intros; apply row_push_other; auto|].
    right. exists w. split; [|apply row_push_same; auto]. split; [unfold may_overlap, ql_checkIfOverlap; cbn; rewrite OV; reflexivity|].
    exists pts, (flw_qf x), o1. split; auto. split; auto. split; auto. apply (segments_summed g pts o1 o2); auto. intros ->. simpl in EP. lia.
  - apply Nat.leb_gt in EP. injection H as <-. cbn. split; auto. split; auto. split; auto. left. split; auto. right. eauto.
Qed.

Lemma cells_row : forall srt g s dst l cell cs x x', (forall c, In c cs -> fl_srcQuad s c = Ret (cell c)) ->
  sorted_map (flw_m x) -> ql_line (flw_ql x) = Some l -> foldM (fl_cell srt g s dst) cs x = Ret x' ->
  sorted_map (flw_m x') /\ (forall k, k <> dst -> row (flw_m x') k = row (flw_m x) k) /\
  exists es, contributions srt g cell l cs es /\ row (flw_m x') dst = row (flw_m x) dst ++ es.
Proof.
  intros srt g s dst l cell. induction cs as [|c cs IH]; intros x x' HC SM EL H; cbn [foldM] in H.
  - injection H as <-. split; auto. split; auto. exists []. split; [constructor|]. rewrite app_nil_r. reflexivity.
  - apply bind_ret_inv in H. destruct H as (x1 & H1 & H).
    destruct (cell_row srt g s dst x c x1 l (cell c) (HC c (or_introl eq_refl)) SM EL H1) as (SM1 & EL1 & O1 & D).
    destruct (IH x1 x' (fun c' I => HC c' (or_intror I)) SM1 EL1 H) as (SM2 & O2 & es & CO & R2).
    split; auto. split; [intros k Hk; rewrite O2, O1; auto|].
    destruct D as [[D1 D2]|(w & D1 & D2)].
    + exists es. split; [apply contributions_skip; auto|]. rewrite R2, D2. reflexivity.
    + exists ((c, w) :: es). split; [apply contributions_add; auto|]. rewrite R2, D2, <- app_assoc. reflexivity.
Qed.

Lemma dst_row : forall srt g s ns (line : Z -> pt T * pt T) cell ds x x', NoDup ds -> (forall k, In k ds -> fl_dstLine s k = Ret (line k)) ->
  (forall c, 0 <= c < ns -> fl_srcQuad s c = Ret (cell c)) -> sorted_map (flw_m x) ->
  foldM (fl_segment srt g s ns) ds x = Ret x' ->
  forall k, exists es, row (flw_m x') k = row (flw_m x) k ++ es /\
    (In k ds -> contributions srt g cell (line k) (range ns) es) /\ (~ In k ds -> es = []).
Proof.
  intros srt g s ns line cell. induction ds as [|d ds IH]; intros x x' ND HL HC SM H k; cbn [foldM] in H.
  - injection H as <-. exists []. rewrite app_nil_r. split; auto. split; [intros []|auto].
  - inversion ND as [|? ? NI ND']; subst. apply bind_ret_inv in H. destruct H as (x1 & H1 & H).
    unfold fl_segment in H1. rewrite (HL d (or_introl eq_refl)) in H1. cbn [bind] in H1.
    destruct (cells_row srt g s d (line d) cell (range ns) (mkFlw (ql_setLinePoints (flw_ql x) (line d)) (flw_qf x) (flw_m x)) x1) as (SM1 & O1 & es1 & C1 & R1); auto.
    { intros c Hc. apply in_range in Hc. auto. }
    cbn [flw_m] in O1, R1. destruct (IH x1 x' ND' (fun k I => HL k (or_intror I)) HC SM1 H k) as (es & R2 & C2 & N2).
    destruct (Z.eq_dec k d) as [->|NE].
    + exists es1. rewrite R2, R1, (N2 NI), app_nil_r. split; auto. split; auto. intros X. exfalso. apply X. left. reflexivity.
    + exists es. rewrite R2, O1 by auto. split; auto. split.
      * intros [X|X]; [congruence|auto]. * intros X. apply N2. intros I. apply X. right. auto.
Qed.

Lemma computeWeights_rows : forall srt g s s' nd ns (line : Z -> pt T * pt T) cell, fl_dstNumCells s = Some nd -> fl_srcNumCells s = Some ns ->
  (forall k, 0 <= k < nd -> fl_dstLine s k = Ret (line k)) -> (forall c, 0 <= c < ns -> fl_srcQuad s c = Ret (cell c)) ->
  sorted_map (fl_weights s) -> fl_computeWeights srt g s = Ret s' ->
  forall k, 0 <= k < nd -> exists es, row (fl_weights s') k = row (fl_weights s) k ++ es /\ contributions srt g cell (line k) (range ns) es.
Proof.
  intros srt g s s' nd ns line cell Ed Es HL HC SM H k Hk. unfold fl_computeWeights in H. rewrite Ed, Es in H.
  apply bind_ret_inv in H. destruct H as (x & Hx & H). injection H as <-. cbn [fl_weights].
  destruct (dst_row srt g s ns line cell (range nd) (mkFlw ql_new qf_new (fl_weights s)) x) with (k := k) as (es & R & C & _); auto.
  - unfold range, zseq. apply FinFun.Injective_map_NoDup; [intros a b; apply Nat2Z.inj|apply seq_NoDup].
  - intros k' Hk'. apply in_range in Hk'. auto.
  - exists es. split; auto. apply C. apply in_range. auto.
Qed.

End Any.
