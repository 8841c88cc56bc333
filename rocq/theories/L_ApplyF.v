(** Flow weights and their application in IEEE arithmetic. *)
From Coq Require Import ZArith List Bool Reals Lra Lia Permutation Floats.SpecFloat.
From Flocq Require Import Core BinarySingleNaN.
From Verif Require Import Base Num NumR NumF M_BoxIterator M_LinearSolve M_FindPoint M_Triangulate M_Quad M_QuadLine M_FlowInterp S_Grid S_Array S_Flow S_FlowTable S_ConserveTable
  L_FindPoint L_NodeInterp L_Float L_FloatOps L_FindPointF L_NodeInterpF L_Defined L_FlowInterp L_FlowTwin L_FlowTable L_FlowF L_DotF.
Import ListNotations.
Open Scope R_scope.

Definition bound4 (n : Z) (w : list spec_float) : Prop :=
  exists w0 w1 w2 w3, w = [w0; w1; w2; w3] /\ List.Forall (fun v => dbl v /\ Rabs (fval v) <= IZR n) w.

Lemma add_bound : forall n a b, (0 <= n <= 1000)%Z -> dbl a -> dbl b -> Rabs (fval a) <= IZR n -> Rabs (fval b) <= 1 ->
  dbl (nadd a b) /\ Rabs (fval (nadd a b)) <= IZR (n + 1).
Proof.
  intros n a b Hn Da Db Ba Bb. apply Rabs_le_inv in Ba, Bb.
  assert (Hn1 : 0 <= IZR n <= 1000) by (split; [apply (IZR_le 0)|apply (IZR_le n 1000)]; lia).
  destruct (f_add a b Da Db) as [D V].
  { apply Rle_trans with 1001; [apply Rabs_le; lra|]. apply Rle_trans with (bpow radix2 10); [simpl; lra|apply bpow_le; lia]. }
  split; auto. rewrite V. apply Rabs_le. rewrite <- opp_IZR. apply rnd_in; try lia. rewrite opp_IZR, plus_IZR. lra.
Qed.

Lemma segmentsF_bound : forall g q pts (o : qf spec_float) w n, gives_finite g -> readyP [2; 2]%Z (quad_grid q) (qf_finder o) -> finderF (qf_finder o) ->
  (0 <= n)%Z -> (n + Z.of_nat (length pts) <= 1000)%Z -> bound4 n w ->
  exists w' o', fl_segments g o pts w = Ret (w', o') /\ finderF (qf_finder o') /\ bound4 (n + Z.max 0 (Z.of_nat (length pts) - 1)) w'.
Proof.
  intros g q. induction pts as [|a pts IH]; intros o w n GF FR FF Hn0 Hn B; [exists w, o; split; [reflexivity|split; auto]; replace (n + _)%Z with n by (cbn; lia); auto|].
  destruct pts as [|b pts]; [exists w, o; split; [reflexivity|split; auto]; replace (n + _)%Z with n by (cbn; lia); auto|].
  rewrite segments_cons. unfold qf_computeProjections, qf_indices, qf_setLinePoints. cbn [qf_line qf_finder fst snd].
  destruct (find_unit g q (qf_finder o) a GF FR) as (ca & xa & ya & f1 & E1 & FR1 & T1 & Ua & Va). rewrite E1. cbn [bind].
  destruct (find_unit g q f1 b GF FR1) as (cb & xb & yb & f2 & E2 & FR2 & T2 & Ub & Vb). rewrite E2. cbn [bind qf_xia qf_xib].
  change (vget [xa; ya] 0) with (Ret xa). change (vget [xa; ya] 1) with (Ret ya).
  change (vget [xb; yb] 0) with (Ret xb). change (vget [xb; yb] 1) with (Ret yb). cbn [bind fst snd].
  unfold qf_getProjection. cbn [qf_proj]. destruct (projections xa ya xb yb) as [[[p0 p1] p2] p3] eqn:EP.
  destruct (projections_F xa ya xb yb p0 p1 p2 p3 Ua Va Ub Vb EP) as (PB & _).
  change (vget [p0; p1; p2; p3] 0) with (Ret p0). change (vget [p0; p1; p2; p3] 1) with (Ret p1).
  change (vget [p0; p1; p2; p3] 2) with (Ret p2). change (vget [p0; p1; p2; p3] 3) with (Ret p3). cbn [bind].
  destruct B as (w0 & w1 & w2 & w3 & -> & FB). cbn [combine map fst snd].
  inversion FB as [|? ? [? ?] FB1]; subst. inversion FB1 as [|? ? [? ?] FB2]; subst. inversion FB2 as [|? ? [? ?] FB3]; subst. inversion FB3 as [|? ? [? ?] _]; subst. clear FB FB1 FB2 FB3.
  destruct (PB p0) as [? ?]; [left; reflexivity|]. destruct (PB p1) as [? ?]; [right; left; reflexivity|].
  destruct (PB p2) as [? ?]; [do 2 right; left; reflexivity|]. destruct (PB p3) as [? ?]; [do 3 right; left; reflexivity|]. clear PB.
  cbn [length] in Hn |- *.
  replace (n + Z.max 0 (Z.of_nat (S (S (length pts))) - 1))%Z with ((n + 1) + Z.max 0 (Z.of_nat (length (b :: pts)) - 1))%Z by (cbn [length]; lia).
  apply IH; auto; [| lia | cbn [length]; lia |].
  - cbn [qf_finder]. apply (finderF_twin f1); auto. apply (finderF_twin (qf_finder o)); auto.
  - do 4 eexists. split; [reflexivity|]. repeat apply List.Forall_cons; try apply List.Forall_nil; apply add_bound; try lia; assumption.
Qed.

Lemma flat_map_le1 : forall {A B} (f : A -> list B) l, (forall x, (length (f x) <= 1)%nat) -> (length (flat_map f l) <= length l)%nat.
Proof. intros A B f l H. induction l as [|x l IH]; simpl; [lia|]. rewrite app_length. specialize (H x). lia. Qed.

Lemma lambdas_le6 : forall (g : gels spec_float) q l, (length (line_lambdas g q l) <= 6)%nat.
Proof.
  intros g q l. unfold line_lambdas. rewrite !app_length.
  assert (H : (length (flat_map (fun e => edge_line g (fst e) (snd e) (fst l) (snd l)) (qedges q)) <= 4)%nat).
  { apply (flat_map_le1 (fun e => edge_line g (fst e) (snd e) (fst l) (snd l)) (qedges q)). intros e. unfold edge_line. destruct (solve2 _ _ _ _ _ _) as [ier [xi eta]].
    destruct (0 <? ier)%Z; [simpl; lia|]. destruct (_ && _); simpl; lia. }
  set (n := length (flat_map _ _)) in *. clearbody n. destruct (quad_inside _ _ (fst l) _), (quad_inside _ _ (snd l) _); cbn [length]; lia.
Qed.

Definition good (e : Z * list spec_float) : Prop := bound4 5 (snd e).
Definition good_map (m : list (Z * list (Z * list spec_float))) : Prop := forall k v, In (k, v) m -> List.Forall good v.

Lemma good_push : forall m k x, good_map m -> good x -> good_map (map_push m k x).
Proof.
  induction m as [|[k' v] m IH]; intros k x H G k0 v0 I; cbn [map_push] in I.
  - destruct I as [I|[]]. injection I as <- <-. auto.
  - assert (HT : good_map m) by (intros k1 v1 I1; apply (H k1 v1); right; auto).
    destruct (k =? k')%Z.
    + destruct I as [I|I]; [|apply (HT k0 v0 I)]. injection I as <- <-. apply Forall_app. split; [apply (H k' v); left; auto|auto].
    + destruct (k <? k')%Z.
      * destruct I as [I|I]; [injection I as <- <-; auto|apply (H k0 v0 I)].
      * destruct I as [I|I]; [injection I as <- <-; apply (H k' v); left; auto|]. apply (IH k x HT G k0 v0 I).
Qed.

Lemma good_row : forall m k, good_map m -> List.Forall good (row m k).
Proof.
  induction m as [|[k' v] m IH]; intros k H; cbn [row]; [constructor|].
  destruct (k =? k')%Z; [apply (H k' v); left; auto|]. apply IH. intros k1 v1 I1. apply (H k1 v1). right. auto.
Qed.

Lemma bound_zero : bound4 0 [n0; n0; n0; n0].
Proof.
  destruct (f_ofZ 0 ltac:(lia)) as [D V]. change (nofZ 0) with (n0 : spec_float) in *.
  do 4 eexists. split; [reflexivity|]. assert (K : dbl n0 /\ Rabs (fval n0) <= IZR 0) by (split; auto; rewrite V, Rabs_R0; lra). auto.
Qed.

Lemma bound_mono : forall a b w, (a <= b)%Z -> bound4 a w -> bound4 b w.
Proof.
  intros a b w H (w0 & w1 & w2 & w3 & E & F). exists w0, w1, w2, w3. split; auto. eapply Forall_impl; [|exact F].
  intros v [D B]. split; auto. apply IZR_le in H. lra.
Qed.

Lemma computeWeightsF_good : forall srt g s s' nd ns (line : Z -> pt spec_float * pt spec_float) cell, gives_finite g -> (forall lt l, length (srt lt l) = length l) ->
  fl_dstNumCells s = Some nd -> fl_srcNumCells s = Some ns ->
  (forall k, (0 <= k < nd)%Z -> fl_dstLine s k = Ret (line k)) -> (forall c, (0 <= c < ns)%Z -> fl_srcQuad s c = Ret (cell c)) ->
  good_map (fl_weights s) -> fl_computeWeights srt g s = Ret s' -> good_map (fl_weights s').
Proof.
  intros srt g s s' nd ns line cell GF SL Ed Es HL HC GM H. unfold fl_computeWeights in H. rewrite Ed, Es in H.
  apply bind_ret_inv in H. destruct H as (x & Hx & H). injection H as <-. cbn [fl_weights].
  pose (P := fun x : flw spec_float => finderF (qf_finder (flw_qf x)) /\ good_map (flw_m x)).
  enough (P x) by apply H.
  refine (foldM_inv P _ _ _ _ _ _ Hx); [split; [exact newF|exact GM]|].
  clear x Hx. intros x k x' [FI GX] Hk H. apply in_range in Hk. unfold fl_segment in H. rewrite (HL k Hk) in H. cbn [bind] in H.
  pose (Q := fun x : flw spec_float => P x /\ ql_line (flw_ql x) = Some (line k)).
  assert (Q x') as [K _]; [|exact K].
  refine (foldM_inv Q _ _ _ _ _ _ H); [split; [split|]; auto; reflexivity|].
  clear x x' FI GX H. intros x c x' [[FI GX] EL] Hc H. apply in_range in Hc. unfold fl_cell in H. rewrite (HC c Hc) in H. cbn [bind] in H.
  destruct x as [[q' l' la po] qo m]. cbn [flw_ql flw_qf flw_m ql_line] in *. subst l'.
  unfold ql_reset, ql_setQuadPoints, ql_checkIfOverlap in H. cbn [ql_quad ql_line ql_lambdas ql_points bind] in H.
  destruct (quad_line_overlap (cell c) (line k)); cbn [negb] in H.
  2: { injection H as <-. split; [split|]; auto. }
  unfold ql_collect in H. cbn [ql_quad ql_line ql_lambdas ql_points app bind] in H.
  assert (LP := SL nlt (line_lambdas g (cell c) (line k))). assert (L6 := lambdas_le6 g (cell c) (line k)).
  set (lams := srt nlt (line_lambdas g (cell c) (line k))) in *.
  set (pts := map _ lams) in *. assert (LN : (length pts <= 6)%nat) by (unfold pts; rewrite map_length; lia). clearbody pts.
  destruct (2 <=? length pts)%nat eqn:E2.
  2: { injection H as <-. split; [split|]; auto. }
  unfold qf_setQuadPoints in H. destruct (setF _ (cell c) FI) as (f' & EF & FR & FF). rewrite EF in H. cbn [bind] in H.
  destruct (segmentsF_bound g (cell c) pts (mkQf (qf_line qo) (qf_proj qo) f' (qf_xia qo) (qf_xib qo))
    [n0; n0; n0; n0] 0 GF FR FF) as (w' & o' & ES & FF' & BW); [lia|lia|exact bound_zero|].
  rewrite ES in H. cbn [bind] in H. injection H as <-. split; [|reflexivity]. split; [exact FF'|].
  cbn [flw_m fst]. apply good_push; auto. unfold good. cbn [snd]. apply (bound_mono _ 5 _) in BW; auto. lia.
Qed.

(** ** The sums as dot products *)
Lemma weighted_dot : forall (r : list (Z * spec_float)) f acc, weighted acc r f = dotF acc (map (fun kw => (snd kw, f (fst kw))) r).
Proof. induction r as [|[c w] r IH]; intros f acc; [reflexivity|]. cbn [weighted map]. rewrite IH. reflexivity. Qed.

Definition edge_pairs (d1 : Z) (h0 h1 : Z -> Z -> spec_float) (e : Z * list spec_float) : list (spec_float * spec_float) :=
  let i := (fst e / (d1 - 1))%Z in let j := (fst e mod (d1 - 1))%Z in
  [(nth 0 (snd e) n0, h0 i j); (nth 1 (snd e) n0, h0 i (j + 1)%Z); (nth 2 (snd e) n0, h1 i j); (nth 3 (snd e) n0, h1 (i + 1)%Z j)].

Lemma edge_sum_dot : forall d1 h0 h1 es acc, edge_sum d1 h0 h1 acc es = dotF acc (flat_map (edge_pairs d1 h0 h1) es).
Proof.
  intros d1 h0 h1. induction es as [|[c w] es IH]; intros acc; [reflexivity|].
  cbn [edge_sum flat_map]. rewrite IH. unfold dotF. rewrite fold_left_app. reflexivity.
Qed.

Lemma contributions_le : forall srt (g : gels spec_float) cell l cs es, contributions srt g cell l cs es -> (length es <= length cs)%nat.
Proof. induction 1; simpl; lia. Qed.
Lemma contributions_in : forall srt (g : gels spec_float) cell l cs es, contributions srt g cell l cs es -> forall e, In e es -> In (fst e) cs.
Proof. induction 1 as [|c cs es A B IH|c cs es w A B IH]; intros e I; [destruct I|right; auto|]. destruct I as [<-|I]; [left; reflexivity|right; auto]. Qed.
