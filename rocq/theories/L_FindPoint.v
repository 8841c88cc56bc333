(** Proofs about the point search, any arithmetic. *)
From Coq Require Import ZArith List Bool Lia.
From Verif Require Import Base Num M_LinearSolve M_FindPoint S_Grid L_LinearSolve.
Import ListNotations.
Open Scope Z_scope.

Section Generic.
Context {T : Type} {N : Num T}.
Implicit Types s : fp (T:=T).

Definition solver_ok s : Prop := exists sv, fp_slvr s = Some sv /\ ls_wf (length (fp_dims s)) (length (fp_dims s)) sv.

(** Members that only setGrid and the constructor write. *)
Definition same_grid s1 s2 : Prop :=
  fp_coords s1 = fp_coords s2 /\ fp_xmins s1 = fp_xmins s2 /\ fp_xmaxs s1 = fp_xmaxs s2 /\
  fp_prodDims s1 = fp_prodDims s2 /\ fp_nodeProdDims s1 = fp_nodeProdDims s2 /\
  fp_period s1 = fp_period s2 /\ fp_dims s1 = fp_dims s2 /\
  fp_nitermax s1 = fp_nitermax s2 /\ fp_tolpos s1 = fp_tolpos s2.

Lemma same_grid_refl : forall s, same_grid s s.
Proof. intros. unfold same_grid. auto 10. Qed.

Lemma same_grid_trans : forall a b c, same_grid a b -> same_grid b c -> same_grid a c.
Proof. unfold same_grid. intros a b c H1 H2. decompose [and] H1. decompose [and] H2.
  repeat split; congruence. Qed.

Lemma same_grid_sym : forall a b, same_grid a b -> same_grid b a.
Proof. unfold same_grid. intros a b H. decompose [and] H. repeat split; congruence. Qed.

Lemma concat_length : forall {A} (l : list (list A)) n, Forall (fun r => length r = n) l ->
  length (concat l) = (length l * n)%nat.
Proof. induction 1; simpl; auto. rewrite app_length, H, IHForall. reflexivity. Qed.

Lemma jac_lengths : forall s jr, fp_jacobianAndRHS s = Ret jr ->
  length (fst jr) = (length (fp_dims s) * length (fp_dims s))%nat /\
  length (snd jr) = length (fp_dims s).
Proof.
  intros s jr H. unfold fp_jacobianAndRHS in H. apply bind_ret_inv in H.
  destruct H as (rows & Hr & E). injection E as <-. cbn [fst snd].
  assert (L := mapM_length _ _ _ Hr). rewrite seq_length in L.
  split; [|rewrite map_length; auto].
  rewrite (concat_length _ (length (fp_dims s))).
  - rewrite map_length, L. reflexivity.
  - apply mapM_inv in Hr. clear L. induction Hr as [|i row l rows H Hr IH]; simpl; constructor; auto.
    apply bind_ret_inv in H. destruct H as (c & _ & H).
    apply bind_ret_inv in H. destruct H as (pos & _ & H).
    apply bind_ret_inv in H. destruct H as (t & _ & H).
    apply bind_ret_inv in H. destruct H as (rw & Hrw & H). injection H as <-.
    apply mapM_length in Hrw. rewrite seq_length in Hrw. exact Hrw.
Qed.

Lemma truncate_length : forall pers dims (xs : list T), length (fp_truncate pers dims xs) = length xs.
Proof.
  induction pers as [|p pers IH]; intros dims xs; [reflexivity|].
  destruct dims; [reflexivity|]. destruct xs; [reflexivity|]. simpl. rewrite IH. reflexivity.
Qed.

(** What a call of next does, field by field. *)
Lemma next_inv : forall g s code s', fp_next g s = Ret (code, s') ->
  (code = -3 /\ s' = s /\ fp_inside (fp_target s) (fp_xmins s) (fp_xmaxs s) = false) \/
  (fp_inside (fp_target s) (fp_xmins s) (fp_xmaxs s) = true /\
   exists jr sv info sv' xs err,
     fp_jacobianAndRHS s = Ret jr /\ fp_slvr s = Some sv /\
     ls_run g sv (fst jr) (snd jr) = Ret (info, sv') /\
     mapM (fun i => let! x := vget (fp_dIndices s) i in
        let! dx := vget (ls_getSolution sv') i in Ret (nadd x dx)) (zseq (length (fp_dims s))) = Ret xs /\
     fp_dIndices s' = fp_truncate (fp_period s) (fp_dims s) xs /\
     fp_slvr s' = Some sv' /\ same_grid s s' /\ fp_target s' = fp_target s /\
     fp_iter s' = fp_iter s + 1 /\ fp_iter s + 1 <= int_max /\
     fp_getError s' = Ret err /\ fp_errors s' = fp_errors s ++ [err] /\
     let stuck := (nlt (nadd (fp_oldError s) fp_eps) err) && (3 <=? length (fp_errors s'))%nat &&
       (nlt (nadd (nth (length (fp_errors s') - 3) (fp_errors s') n0) fp_eps) err) in
     ((code = -2 /\ stuck = true /\ fp_oldError s' = fp_oldError s) \/
      (code = -1 /\ stuck = false /\ fp_nitermax s <= fp_iter s' /\ fp_oldError s' = fp_oldError s) \/
      (code = 1 /\ stuck = false /\ fp_iter s' < fp_nitermax s /\ nlt err (fp_tolpos s) = true /\
       fp_oldError s' = fp_oldError s) \/
      (code = 0 /\ stuck = false /\ fp_iter s' < fp_nitermax s /\ nlt err (fp_tolpos s) = false /\
       fp_oldError s' = err))).
Proof.
  intros g s code s' H. unfold fp_next in H.
  destruct (fp_inside (fp_target s) (fp_xmins s) (fp_xmaxs s)) eqn:EI; cbn [negb] in H.
  2:{ injection H as <- <-. left. auto. }
  right. split; auto.
  apply bind_ret_inv in H. destruct H as (jr & Hjr & H).
  destruct (fp_slvr s) as [sv|] eqn:Esv; [|discriminate].
  apply bind_ret_inv in H. destruct H as ([info sv'] & Hrun & H). cbn [snd] in H.
  apply bind_ret_inv in H. destruct H as (xs & Hxs & H).
  apply bind_ret_inv in H. destruct H as (it & Hit & H). apply chk_inv in Hit. destruct Hit as [-> Hit].
  apply bind_ret_inv in H. destruct H as (err & Herr & H).
  exists jr, sv, info, sv', xs, err.
  match type of H with (if ?c then _ else _) = _ => destruct c eqn:ES end.
  { injection H as <- <-. cbn. unfold same_grid; cbn. repeat split; auto; try tauto. }
  destruct (fp_nitermax s <=? fp_iter s + 1) eqn:EM.
  { injection H as <- <-. apply Z.leb_le in EM. cbn. unfold same_grid; cbn.
    repeat split; auto; try tauto. }
  apply Z.leb_gt in EM.
  destruct (nlt err (fp_tolpos s)) eqn:ET.
  { injection H as <- <-. cbn. unfold same_grid; cbn. repeat split; auto; try tauto. }
  { injection H as <- <-. cbn. unfold same_grid; cbn. repeat split; auto; try tauto. }
Qed.

Lemma next_same_grid : forall g s code s', fp_next g s = Ret (code, s') -> same_grid s s'.
Proof.
  intros g s code s' H. apply next_inv in H. destruct H as [(_ & -> & _)|H].
  - apply same_grid_refl.
  - destruct H as (_ & jr & sv & info & sv' & xs & err & H). tauto.
Qed.

Lemma next_solver_ok : forall g s code s', fp_dims s <> [] -> solver_ok s ->
  fp_next g s = Ret (code, s') -> solver_ok s'.
Proof.
  intros g s code s' Hd (sv0 & Hsv & W) H. apply next_inv in H. destruct H as [(_ & -> & _)|H].
  - exists sv0. auto.
  - destruct H as (_ & jr & sv & info & sv' & xs & err & Hjr & Hsv1 & Hrun & _ & _ & Hsv' & G & _).
    rewrite Hsv in Hsv1. injection Hsv1 as <-. exists sv'. split; auto.
    assert (E : fp_dims s' = fp_dims s) by (unfold same_grid in G; decompose [and] G; auto).
    rewrite E. destruct (jac_lengths _ _ Hjr) as [L1 L2].
    eapply ls_run_wf; eauto. destruct (fp_dims s); [congruence|simpl; lia].
Qed.

(** ** C10: termination *)
Lemma next_zero : forall g s s', fp_next g s = Ret (0, s') ->
  fp_iter s' = fp_iter s + 1 /\ fp_iter s' < fp_nitermax s /\ fp_nitermax s' = fp_nitermax s.
Proof.
  intros g s s' H. assert (G := next_same_grid _ _ _ _ H). apply next_inv in H.
  destruct H as [(C & _)|H]; [discriminate|].
  destruct H as (_ & jr & sv & info & sv' & xs & err & _ & _ & _ & _ & _ & _ & _ & _ & I & _ & _ & _ & D).
  destruct D as [(C & _)|[(C & _)|[(C & _)|(_ & _ & D & _)]]]; try discriminate.
  split; auto. split; auto. unfold same_grid in G. symmetry. tauto.
Qed.

Lemma loop_terminates : forall g fuel s, (0 < fuel)%nat ->
  fp_nitermax s - fp_iter s <= Z.of_nat fuel ->
  fp_loop g fuel s <> Ret None.
Proof.
  induction fuel as [|fuel IH]; intros s H0 H; [lia|].
  cbn [fp_loop]. destruct (fp_next g s) as [[code s']|u] eqn:E; cbn [bind fst snd]; [|congruence].
  destruct (code =? 0) eqn:C; [|congruence]. apply Z.eqb_eq in C. subst.
  apply next_zero in E. destruct E as (E1 & E2 & E3). apply IH; lia.
Qed.

(** More fuel does not change the result. *)
Lemma loop_mono : forall g fuel s r, fp_loop g fuel s = Ret (Some r) ->
  forall fuel', (fuel <= fuel')%nat -> fp_loop g fuel' s = Ret (Some r).
Proof.
  induction fuel as [|fuel IH]; intros s r H fuel' L; [discriminate|].
  destruct fuel' as [|fuel']; [lia|]. cbn [fp_loop] in *.
  destruct (fp_next g s) as [[code s']|u]; cbn [bind fst snd] in *; [|discriminate].
  destruct (code =? 0); [|auto]. apply IH; auto. lia.
Qed.

(** ** C12: histories *)
Inductive fp_op : Type :=
  | OpReset : list T -> list T -> fp_op
  | OpNext : fp_op.

(** Observable results of a sequence of calls: return code, indices and error
    history after each call. *)
Fixpoint fp_ops (g : gels T) (ops : list fp_op) s : exec (list (Z * list T * list T) * fp (T:=T)) :=
  match ops with
  | [] => Ret ([], s)
  | OpReset d t :: ops' =>
      let! s1 := fp_reset s d t in
      let! r := fp_ops g ops' s1 in
      Ret ((0, fp_dIndices s1, fp_errors s1) :: fst r, snd r)
  | OpNext :: ops' =>
      let! cs := fp_next g s in
      let! r := fp_ops g ops' (snd cs) in
      Ret ((fst cs, fp_dIndices (snd cs), fp_errors (snd cs)) :: fst r, snd r)
  end.

Lemma reset_same_grid : forall s d t s', fp_reset s d t = Ret s' ->
  same_grid s s' /\ fp_slvr s' = fp_slvr s.
Proof.
  intros s d t s' H. unfold fp_reset in H.
  apply bind_ret_inv in H. destruct H as (a & _ & H).
  apply bind_ret_inv in H. destruct H as (b & _ & H). injection H as <-.
  unfold same_grid; simpl. auto 12.
Qed.

Lemma ops_invariant : forall g ops s out s', fp_dims s <> [] -> solver_ok s ->
  fp_ops g ops s = Ret (out, s') -> same_grid s s' /\ solver_ok s'.
Proof.
  intros g. induction ops as [|o ops IH]; intros s out s' Hd W H.
  - injection H as <- <-. split; auto. apply same_grid_refl.
  - destruct o as [d t|]; cbn [fp_ops] in H.
    + apply bind_ret_inv in H. destruct H as (s1 & H1 & H).
      apply bind_ret_inv in H. destruct H as ([o1 s2] & H2 & H). injection H as <- <-.
      destruct (reset_same_grid _ _ _ _ H1) as [G E].
      assert (ED : fp_dims s1 = fp_dims s) by (unfold same_grid in G; decompose [and] G; auto).
      apply IH in H2.
      * destruct H2. split; auto. eapply same_grid_trans; eauto.
      * rewrite ED. auto.
      * destruct W as (sv & E1 & W). exists sv. rewrite E, ED. auto.
    + apply bind_ret_inv in H. destruct H as ([c s1] & H1 & H). cbn [fst snd] in H.
      apply bind_ret_inv in H. destruct H as ([o1 s2] & H2 & H). injection H as <- <-.
      assert (G := next_same_grid _ _ _ _ H1).
      assert (ED : fp_dims s1 = fp_dims s) by (unfold same_grid in G; decompose [and] G; auto).
      apply IH in H2.
      * destruct H2. split; auto. eapply same_grid_trans; eauto.
      * rewrite ED. auto.
      * eapply next_solver_ok; eauto.
Qed.

(** States that behave alike from now on. *)
Definition alike s1 s2 : Prop :=
  same_grid s1 s2 /\ fp_target s1 = fp_target s2 /\ fp_iter s1 = fp_iter s2 /\
  fp_dIndices s1 = fp_dIndices s2 /\ fp_errors s1 = fp_errors s2 /\
  (fp_errors s1 <> [] -> fp_oldError s1 = fp_oldError s2) /\
  solver_ok s1 /\ solver_ok s2.

Lemma weights_ext : forall s1 s2 xs, same_grid s1 s2 ->
  fp_getSrcIndicesAndWeights s1 xs = fp_getSrcIndicesAndWeights s2 xs.
Proof.
  intros s1 s2 xs (_ & _ & _ & P1 & P2 & _ & P3 & _).
  unfold fp_getSrcIndicesAndWeights. rewrite P1, P2, P3. reflexivity.
Qed.

Lemma interp_ext : forall s1 s2 xs f, same_grid s1 s2 -> fp_interp s1 xs f = fp_interp s2 xs f.
Proof. intros. unfold fp_interp. rewrite (weights_ext s1 s2) by auto. reflexivity. Qed.

Lemma mapM_ext : forall {A B} (f h : A -> exec B) l, (forall x, In x l -> f x = h x) -> mapM f l = mapM h l.
Proof. induction l; simpl; intros; auto. rewrite H, IHl; auto. Qed.

Lemma jac_ext : forall s1 s2, same_grid s1 s2 -> fp_dIndices s1 = fp_dIndices s2 ->
  fp_target s1 = fp_target s2 -> fp_jacobianAndRHS s1 = fp_jacobianAndRHS s2.
Proof.
  intros s1 s2 G E1 E2. assert (G' := G). unfold same_grid in G'. decompose [and] G'.
  unfold fp_jacobianAndRHS. rewrite H5.
  match goal with |- bind (mapM ?f ?l) ?k = bind (mapM ?h ?l) ?k =>
    assert (EM : mapM f l = mapM h l); [|rewrite EM; reflexivity] end.
  apply mapM_ext. intros i _.
  rewrite H, E2, E1. destruct (vget (fp_coords s2) (Z.of_nat i)) as [c|]; cbn [bind]; auto.
  rewrite (interp_ext s1 s2) by auto.
  destruct (fp_interp s2 (fp_dIndices s2) c); cbn [bind]; auto.
  destruct (vget (fp_target s2) (Z.of_nat i)); cbn [bind]; auto.
  assert (EM : mapM (fp_jacEntry s1 c) (seq 0 (length (fp_dims s2))) = mapM (fp_jacEntry s2 c) (seq 0 (length (fp_dims s2)))).
  { apply mapM_ext. intros j _. unfold fp_jacEntry. rewrite E1, H5.
    destruct (vget (fp_dIndices s2) (Z.of_nat j)); cbn [bind]; auto.
    destruct (vget (fp_dims s2) (Z.of_nat j)); cbn [bind]; auto.
    rewrite !(interp_ext s1 s2) by auto. reflexivity. }
  rewrite EM. reflexivity.
Qed.

Lemma error_ext : forall s1 s2, same_grid s1 s2 -> fp_dIndices s1 = fp_dIndices s2 ->
  fp_target s1 = fp_target s2 -> fp_getError s1 = fp_getError s2.
Proof.
  intros s1 s2 G E1 E2. unfold fp_getError, fp_getPosition.
  assert (G' := G). unfold same_grid in G'. decompose [and] G'.
  rewrite H, H5, E1, E2.
  rewrite (mapM_ext (fp_interp s1 (fp_dIndices s2)) (fp_interp s2 (fp_dIndices s2))); auto.
  intros. apply interp_ext. auto.
Qed.

(** One more call of next: same outcome, and still alike if it returned 0. *)
Lemma next_alike : forall g s1 s2, fp_dims s1 <> [] -> alike s1 s2 ->
  (exists u, fp_next g s1 = Undef u /\ fp_next g s2 = Undef u) \/
  (exists code s1' s2', fp_next g s1 = Ret (code, s1') /\ fp_next g s2 = Ret (code, s2') /\
     fp_dIndices s1' = fp_dIndices s2' /\ fp_errors s1' = fp_errors s2' /\
     (code = 0 -> alike s1' s2')).
Proof.
  intros g s1 s2 Hd (G & E1 & E2 & E3 & E4 & E5 & (sv1 & S1 & W1) & (sv2 & S2 & W2)).
  assert (G' := G). destruct G' as (Gc & Gmin & Gmax & Gp & Gnp & Gper & Gd & Gn & Gt).
  unfold fp_next. rewrite <- E1, <- Gmin, <- Gmax.
  destruct (fp_inside (fp_target s1) (fp_xmins s1) (fp_xmaxs s1)); cbn [negb].
  2:{ right. exists (-3), s1, s2. repeat split; auto; try discriminate. }
  rewrite <- (jac_ext s1 s2) by auto.
  destruct (fp_jacobianAndRHS s1) as [jr|u] eqn:Hjr; cbn [bind]; [|left; eauto].
  rewrite S1, S2, <- Gd.
  destruct (jac_lengths _ _ Hjr) as [L1 L2].
  rewrite <- Gd in W2.
  assert (Hn : (0 < length (fp_dims s1))%nat) by (destruct (fp_dims s1); [congruence|simpl; lia]).
  destruct (ls_run_history _ g sv1 sv2 (fst jr) (snd jr) W1 W2 L1 L2 Hn) as [RE [[info sv'] RR]].
  rewrite <- RE, RR. cbn [bind snd].
  assert (W' := ls_run_wf _ _ _ _ _ _ _ W1 L1 L2 Hn RR).
  rewrite <- E3.
  destruct (mapM _ (zseq (length (fp_dims s1)))) as [xs|u]; cbn [bind]; [|left; eauto].
  rewrite <- E2. destruct (chk (fp_iter s1 + 1)) as [it|u]; cbn [bind]; [|left; eauto].
  rewrite <- Gc, <- Gp, <- Gnp, <- Gper, <- Gn, <- Gt, <- E4.
  match goal with
  | |- (exists u, bind (fp_getError ?a) _ = _ /\ bind (fp_getError ?b) _ = _) \/ _ =>
     rewrite <- (error_ext a b) by (auto; unfold same_grid; cbn; auto 10);
     destruct (fp_getError a) as [err|u] eqn:EE; cbn [bind]; [|left; eauto]
  end.
  right.
  assert (EQ : (nlt (nadd (fp_oldError s1) fp_eps) err) &&
       (3 <=? length (fp_errors s1 ++ [err]))%nat =
     (nlt (nadd (fp_oldError s2) fp_eps) err) &&
       (3 <=? length (fp_errors s1 ++ [err]))%nat).
  { destruct (fp_errors s1) as [|e es] eqn:EEs.
    - cbn. rewrite !andb_false_r. reflexivity.
    - rewrite E5 by congruence. reflexivity. }
  rewrite <- EQ.
  match goal with |- context [if ?c then Ret (-2, _) else _] => destruct c end.
  { eexists _, _, _. split; [reflexivity|]. split; [reflexivity|]. cbn. repeat split; auto; discriminate. }
  destruct (fp_nitermax s1 <=? it).
  { eexists _, _, _. split; [reflexivity|]. split; [reflexivity|]. cbn. repeat split; auto; discriminate. }
  destruct (nlt err (fp_tolpos s1)).
  { eexists _, _, _. split; [reflexivity|]. split; [reflexivity|]. cbn. repeat split; auto; discriminate. }
  eexists _, _, _. split; [reflexivity|]. split; [reflexivity|]. cbn. repeat split; auto.
  - exists sv'. auto.
  - exists sv'. auto.
Qed.

(** Results of successive calls of next up to the first that is not 0. *)
Fixpoint fp_trace (g : gels T) (fuel : nat) s : exec (list (Z * list T * list T)) :=
  match fuel with
  | O => Ret []
  | S fuel' =>
      let! cs := fp_next g s in
      let o := (fst cs, fp_dIndices (snd cs), fp_errors (snd cs)) in
      if fst cs =? 0 then let! r := fp_trace g fuel' (snd cs) in Ret (o :: r) else Ret [o]
  end.

Lemma trace_alike : forall g fuel s1 s2, fp_dims s1 <> [] -> alike s1 s2 ->
  fp_trace g fuel s1 = fp_trace g fuel s2.
Proof.
  intros g. induction fuel as [|fuel IH]; intros s1 s2 Hd A; auto. cbn [fp_trace].
  destruct (next_alike g s1 s2 Hd A) as [(u & -> & ->)|(code & s1' & s2' & R1 & -> & E1 & E2 & A')]; auto.
  assert (G := next_same_grid _ _ _ _ R1). rewrite R1. cbn [bind fst snd]. rewrite E1, E2.
  destruct (code =? 0) eqn:C; auto. apply Z.eqb_eq in C. rewrite (IH s1' s2'); auto.
  assert (ED : fp_dims s1' = fp_dims s1) by (unfold same_grid in G; decompose [and] G; auto).
  rewrite ED. auto.
Qed.

(** Objects holding the same grid give the same search. *)
Lemma reset_traces : forall g s1 s2, fp_dims s1 <> [] -> same_grid s1 s2 -> solver_ok s1 -> solver_ok s2 ->
  forall guess target fuel,
  bind (fp_reset s1 guess target) (fp_trace g fuel) = bind (fp_reset s2 guess target) (fp_trace g fuel).
Proof.
  intros g s1 s2 Hd G W1 W2 guess target fuel. unfold fp_reset.
  assert (ED : fp_dims s1 = fp_dims s2) by (unfold same_grid in G; decompose [and] G; auto).
  rewrite <- ED.
  destruct (mapM (vget guess) (zseq (length (fp_dims s1)))) as [d|u]; cbn [bind]; auto.
  destruct (mapM (vget target) (zseq (length (fp_dims s1)))) as [t|u]; cbn [bind]; auto.
  apply trace_alike.
  - cbn. auto.
  - unfold alike. cbn. split.
    + unfold same_grid in *. cbn. tauto.
    + repeat split; auto; try tauto.
      * destruct W2 as (sv & E & W2). exists sv. cbn. rewrite ED. auto.
Qed.

Theorem search_history_independent : forall g s0 h1 h2 o1 o2 s1 s2,
  fp_dims s0 <> [] -> solver_ok s0 ->
  fp_ops g h1 s0 = Ret (o1, s1) -> fp_ops g h2 s0 = Ret (o2, s2) ->
  forall guess target fuel,
  bind (fp_reset s1 guess target) (fp_trace g fuel) = bind (fp_reset s2 guess target) (fp_trace g fuel).
Proof.
  intros g s0 h1 h2 o1 o2 s1 s2 Hd W H1 H2 guess target fuel.
  apply ops_invariant in H1; auto. apply ops_invariant in H2; auto.
  destruct H1 as [G1 W1]. destruct H2 as [G2 W2].
  assert (G : same_grid s1 s2) by (eapply same_grid_trans; [apply same_grid_sym; eauto|eauto]).
  assert (ED0 : fp_dims s0 = fp_dims s1) by (unfold same_grid in G1; decompose [and] G1; auto).
  apply reset_traces; auto. rewrite <- ED0. auto.
Qed.

(** ** C11 *)
Lemma next_converged : forall g s s', fp_next g s = Ret (1, s') ->
  exists e, fp_getError s' = Ret e /\ nlt e (fp_tolpos s') = true /\
    fp_inside (fp_target s') (fp_xmins s') (fp_xmaxs s') = true.
Proof.
  intros g s s' H. assert (G := next_same_grid _ _ _ _ H). apply next_inv in H.
  destruct H as [(C & _)|H]; [discriminate|].
  destruct H as (I & jr & sv & info & sv' & xs & err & _ & _ & _ & _ & _ & _ & _ & ET & _ & _ & EE & _ & D).
  exists err. split; auto. destruct G as (Gc & Gmin & Gmax & Gp & Gnp & Gper & Gd & Gn & Gt).
  destruct D as [(C & _)|[(C & _)|[(_ & _ & _ & D & _)|(C & _)]]]; try discriminate.
  rewrite ET, <- Gmin, <- Gmax, <- Gt. auto.
Qed.
End Generic.
