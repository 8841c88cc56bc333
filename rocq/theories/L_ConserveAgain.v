(** Computing the conservative weights again (any arithmetic). *)
From Coq Require Import ZArith List Bool Lia.
From Verif Require Import Base Num M_LinearSolve M_Triangulate M_Quad M_QuadIntersect M_ConserveInterp S_ConserveTable L_ConserveTable.
Import ListNotations.
Open Scope Z_scope.

Lemma insert_present : forall {A} (m : list (Z * list A)) lo k r, ascending lo m -> In k (map fst m) -> map_insert m k r = m.
Proof.
  intros A. induction m as [|[k' v] m IH]; intros lo k r H I; [destruct I|]. destruct H as [H1 H2]. cbn [fst] in *. cbn [map_insert].
  destruct (k =? k') eqn:E; auto. apply Z.eqb_neq in E. cbn [map fst] in I. destruct I as [I|I]; [congruence|].
  assert (L : k' < k). { apply in_map_iff in I. destruct I as (e & <- & I). apply (asc_in m k'); auto. }
  replace (k <? k') with false by (symmetry; apply Z.ltb_ge; lia). f_equal. apply (IH k'); auto.
Qed.

Lemma insert_key : forall {A} (m : list (Z * list A)) k r, In k (map fst (map_insert m k r)).
Proof.
  intros A. induction m as [|[k' v] m IH]; intros k r; cbn [map_insert]; [left; auto|].
  destruct (k =? k') eqn:E; [apply Z.eqb_eq in E; left; auto|]. destruct (k <? k'); [left; auto|right; apply IH].
Qed.

Lemma insert_keys : forall {A} (m : list (Z * list A)) k r x, In x (map fst m) -> In x (map fst (map_insert m k r)).
Proof. intros A m k r x H. apply in_map_iff in H. destruct H as (e & <- & H). apply in_map. apply insert_keeps. auto. Qed.

Section Again.
Context {T : Type} {N : Num T}.
Variable srt : (nat -> nat -> bool) -> list nat -> list nat.
Variable g : gels T.
Variables memd memd2 : Z -> nat -> pt T.
Variables mem mem2 : Z -> Z -> nat -> pt T.

Lemma srcSteps_mem : forall sg dst dc darea darea2 l k row row2 k' row', map fst row = map fst row2 ->
  foldM (ci_srcStep srt mem g sg dst dc darea) l (k, row) = Ret (k', row') ->
  exists row2', foldM (ci_srcStep srt mem2 g sg dst dc darea2) l (k, row2) = Ret (k', row2') /\ map fst row' = map fst row2'.
Proof.
  intros sg dst dc darea darea2. induction l as [|c l IH]; intros k row row2 k' row' E H; cbn [foldM] in *.
  - injection H as <- <-. eauto.
  - apply bind_ret_inv in H. destruct H as ([k1 row1] & H1 & H2). unfold ci_srcStep in H1 at 1. unfold ci_srcStep at 1.
    apply bind_ret_inv in H1. destruct H1 as (sc & C & H1). rewrite C. cbn [bind].
    destruct (negb _).
    + injection H1 as <- <-. cbn [bind]. apply (IH k row); auto.
    + destruct (ci_points g dst c dc sc k) as [kk pts]. destruct (3 <=? length pts)%nat; injection H1 as <- <-; cbn [bind].
      * apply (IH kk (row ++ [(c, ndiv (hull_of srt (mem dst c) pts) darea)])); auto. rewrite !map_app, E. reflexivity.
      * apply (IH kk row); auto.
Qed.

Lemma dstSteps_keys : forall dg sg l k w k' w', foldM (ci_dstStep srt memd mem g dg sg) l (k, w) = Ret (k', w') ->
  forall x, In x (map fst w) -> In x (map fst w').
Proof.
  intros dg sg. induction l as [|c l IH]; intros k w k' w' H x I; cbn [foldM] in *; [injection H as _ <-; auto|].
  apply bind_ret_inv in H. destruct H as ([k1 w1] & H1 & H2). apply (IH _ _ _ _ H2). unfold ci_dstStep in H1.
  apply bind_ret_inv in H1. destruct H1 as (dc & C & H1). apply bind_ret_inv in H1. destruct H1 as ([k2 row] & _ & H1).
  injection H1 as <- <-. destruct row; auto. apply insert_keys. auto.
Qed.

Lemma dstSteps_again : forall dg sg W, ascending (-1) W -> forall l k w k' w', foldM (ci_dstStep srt memd mem g dg sg) l (k, w) = Ret (k', w') ->
  (forall x, In x (map fst w') -> In x (map fst W)) ->
  foldM (ci_dstStep srt memd2 mem2 g dg sg) l (k, W) = Ret (k', W).
Proof.
  intros dg sg W AW. induction l as [|c l IH]; intros k w k' w' H K; cbn [foldM] in *; [injection H as <- _; auto|].
  apply bind_ret_inv in H. destruct H as ([k1 w1] & H1 & H2). assert (KK := dstSteps_keys _ _ _ _ _ _ _ H2).
  unfold ci_dstStep in H1. unfold ci_dstStep at 1. apply bind_ret_inv in H1. destruct H1 as (dc & C & H1). rewrite C. cbn [bind].
  apply bind_ret_inv in H1. destruct H1 as ([k2 row] & F & H1).
  destruct (srcSteps_mem sg c dc _ (hull_of srt (memd2 c) [q0 (c_quad dc); q1 (c_quad dc); q2 (c_quad dc); q3 (c_quad dc)]) _ _ _ [] _ _ eq_refl F) as (row2 & F2 & E).
  rewrite F2. cbn [bind]. injection H1 as <- <-.
  replace (match row2 with [] => W | _ :: _ => map_insert W c row2 end) with W; [eapply IH; eauto|].
  destruct row2 as [|e2 row2]; auto. destruct row as [|e row]; [discriminate|]. symmetry. apply (insert_present W (-1)); auto.
  apply K, KK, insert_key.
Qed.

(** Computing again changes nothing. *)
Theorem computeWeights_again : forall s s', ascending (-1) (ci_weights s') ->
  ci_computeWeights srt memd mem g s = Ret s' -> ci_computeWeights srt memd2 mem2 g s' = Ret s'.
Proof.
  intros s s' A H. unfold ci_computeWeights in *. destruct (ci_dst s) as [dg|] eqn:D; [|discriminate]. destruct (ci_src s) as [sg|] eqn:S; [|discriminate].
  apply bind_ret_inv in H. destruct H as ([k w] & F & H). injection H as <-. cbn [ci_dst ci_src ci_weights ci_it snd] in *.
  rewrite (dstSteps_again dg sg w A _ _ _ _ _ F); auto.
Qed.

(** The rows of a table computed over an existing one: those present are kept, the others are the ones
    computed without a table. *)
Lemma dstSteps_merge : forall dg sg l k w v k' w', ascending (-1) w -> ascending (-1) v -> rows_full w -> rows_full v -> (forall d, In d l -> 0 <= d) ->
  foldM (ci_dstStep srt memd mem g dg sg) l (k, w) = Ret (k', w') ->
  exists v', foldM (ci_dstStep srt memd mem g dg sg) l (k, v) = Ret (k', v') /\
    forall W, (forall d, row_of w d = match row_of W d with [] => row_of v d | r => r end) ->
    forall d, row_of w' d = match row_of W d with [] => row_of v' d | r => r end.
Proof.
  intros dg sg. induction l as [|c l IH]; intros k w v k' w' AW AV FW FV P H; cbn [foldM] in *; [injection H as <- <-; eauto|].
  apply bind_ret_inv in H. destruct H as ([k1 w1] & H1 & H2). unfold ci_dstStep in H1. unfold ci_dstStep at 1.
  apply bind_ret_inv in H1. destruct H1 as (dc & C & H1). rewrite C. cbn [bind].
  apply bind_ret_inv in H1. destruct H1 as ([k2 row] & F & H1). rewrite F. cbn [bind]. injection H1 as <- <-.
  assert (Pc := P c (or_introl eq_refl)). assert (P' := fun d I => P d (or_intror I)).
  destruct row as [|e row]; [apply (IH k2 w v); auto|].
  destruct (IH k2 (map_insert w c (e :: row)) (map_insert v c (e :: row)) k' w') as (v' & E & M); auto; try (apply insert_asc; auto; lia).
  - intros x r I. apply insert_in in I. destruct I as [I|I]; [eapply FW; eauto|congruence].
  - intros x r I. apply insert_in in I. destruct I as [I|I]; [eapply FV; eauto|congruence].
  - exists v'. split; auto. intros W HW. apply M. intros d. destruct (Z.eq_dec d c) as [->|NE].
    + rewrite (row_insert_same w (-1)), (row_insert_same v (-1)) by auto. rewrite HW. destruct (row_of W c); auto.
    + rewrite !row_insert_other by auto. auto.
Qed.

Theorem computeWeights_merge : forall s s', ascending (-1) (ci_weights s) -> rows_full (ci_weights s) -> ci_computeWeights srt memd mem g s = Ret s' ->
  exists s0, ci_computeWeights srt memd mem g (mkCi (ci_dst s) (ci_src s) [] (ci_it s)) = Ret s0 /\
    forall d, row_of (ci_weights s') d = match row_of (ci_weights s) d with [] => row_of (ci_weights s0) d | r => r end.
Proof.
  intros s s' A F H. unfold ci_computeWeights in *. cbn [ci_dst ci_src ci_weights ci_it]. destruct (ci_dst s) as [dg|] eqn:D; [|discriminate]. destruct (ci_src s) as [sg|] eqn:S; [|discriminate].
  apply bind_ret_inv in H. destruct H as ([k w] & FF & H). injection H as <-.
  destruct (dstSteps_merge dg sg _ _ _ [] _ _ A I F (fun k r (H : In (k, r) []) => match H with end) (fun d I => proj1 (proj1 (in_range _ _) I)) FF) as (v & E & M).
  rewrite E. cbn [bind]. eexists. split; [reflexivity|]. cbn [ci_weights snd]. apply M. intros d. destruct (row_of (ci_weights s) d); auto.
Qed.

(** Grids of valid cells: no undefined behaviour. *)
Lemma srcSteps_total : forall sg, (forall c, 0 <= c < g_numCells sg -> exists sc, ci_cell sg c = Ret sc) ->
  forall dst dc darea l st, (forall c, In c l -> 0 <= c < g_numCells sg) -> exists st', foldM (ci_srcStep srt mem g sg dst dc darea) l st = Ret st'.
Proof.
  intros sg HS dst dc darea. induction l as [|c l IH]; intros [k row] H; cbn [foldM]; [eauto|].
  destruct (HS c (H c (or_introl eq_refl))) as (sc & C). unfold ci_srcStep at 1. rewrite C. cbn [bind].
  destruct (negb _); cbn [bind]; [apply IH; intros; apply H; right; auto|].
  destruct (ci_points g dst c dc sc k) as [kk pts]. destruct (3 <=? length pts)%nat; cbn [bind]; apply IH; intros; apply H; right; auto.
Qed.

Theorem computeWeights_total : forall s dg sg, ci_dst s = Some dg -> ci_src s = Some sg ->
  (forall c, 0 <= c < g_numCells dg -> exists sc, ci_cell dg c = Ret sc) -> (forall c, 0 <= c < g_numCells sg -> exists sc, ci_cell sg c = Ret sc) ->
  exists s', ci_computeWeights srt memd mem g s = Ret s'.
Proof.
  intros s dg sg D S HD HS. unfold ci_computeWeights. rewrite D, S.
  enough (X : forall l st, (forall c, In c l -> 0 <= c < g_numCells dg) -> exists st', foldM (ci_dstStep srt memd mem g dg sg) l st = Ret st').
  { destruct (X (range (g_numCells dg)) (ck_empty, ci_weights s)) as (st & E); [intros c I; apply in_range in I; auto|]. rewrite E. cbn [bind]. eauto. }
  induction l as [|c l IH]; intros [k w] H; cbn [foldM]; [eauto|].
  destruct (HD c (H c (or_introl eq_refl))) as (dc & C). unfold ci_dstStep at 1. rewrite C. cbn [bind].
  destruct (srcSteps_total sg HS c dc (hull_of srt (memd c) [q0 (c_quad dc); q1 (c_quad dc); q2 (c_quad dc); q3 (c_quad dc)]) (range (g_numCells sg)) (k, [])) as ([k' row] & E).
  { intros x I. apply in_range in I. auto. }
  rewrite E. cbn [bind]. apply IH. intros; apply H; right; auto.
Qed.

End Again.
