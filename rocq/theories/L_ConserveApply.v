(** Applying the weights (any arithmetic). *)
From Coq Require Import ZArith List Bool Lia.
From Verif Require Import Base Num M_ConserveInterp S_ConserveTable L_ConserveTable.
Import ListNotations.
Open Scope Z_scope.

Section Apply.
Context {T : Type} {N : Num T}.

Lemma row_sum : forall (src : list T) es acc, (forall e, In e es -> 0 <= fst e < Z.of_nat (length src)) ->
  foldM (fun acc (sw : Z * T) => let! x := vget src (fst sw) in Ret (nadd acc (nmul (snd sw) x))) es acc =
  Ret (weighted acc es (fun k => nth (Z.to_nat k) src n0)).
Proof.
  intros src. induction es as [|[k w] es IH]; intros acc H; auto. cbn [foldM weighted fst snd].
  rewrite (vget_nth src k n0) by (apply (H (k, w)); left; auto). cbn [bind]. apply IH. intros; apply H; right; auto.
Qed.

Lemma vset_ret : forall {A} (l : list A) i a, 0 <= i < Z.of_nat (length l) -> vset l i a = Ret (upd l (Z.to_nat i) a).
Proof.
  intros A l i a H. unfold vset. replace ((0 <=? i) && (i <? Z.of_nat (length l))) with true; auto.
  symmetry. apply andb_true_iff. split; [apply Z.leb_le|apply Z.ltb_lt]; lia.
Qed.

Lemma apply_fold : forall src w lo dst, -1 <= lo -> ascending lo w ->
  (forall k r, In (k, r) w -> r <> [] /\ k < Z.of_nat (length dst) /\ forall e, In e r -> 0 <= fst e < Z.of_nat (length src)) ->
  exists out, foldM (fun out (e : Z * list (Z * T)) =>
      let! out1 := vset out (fst e) n0 in
      let! v := foldM (fun acc (sw : Z * T) => let! x := vget src (fst sw) in Ret (nadd acc (nmul (snd sw) x))) (snd e) n0 in
      vset out1 (fst e) v) w dst = Ret out /\ length out = length dst /\
    forall k d, 0 <= k < Z.of_nat (length dst) -> nth (Z.to_nat k) out d =
      match row_of w k with [] => nth (Z.to_nat k) dst d | r => weighted n0 r (fun c => nth (Z.to_nat c) src n0) end.
Proof.
  intros src. induction w as [|[k r] w IH]; intros lo dst LO A H; [exists dst; auto|].
  destruct A as [A1 A2]. cbn [fst] in A1, A2. destruct (H k r (or_introl eq_refl)) as (R1 & R2 & R3).
  cbn [foldM fst snd]. rewrite vset_ret by lia. cbn [bind]. rewrite row_sum by auto. cbn [bind].
  rewrite vset_ret by (rewrite upd_length; lia). cbn [bind].
  set (dst2 := upd (upd dst (Z.to_nat k) n0) (Z.to_nat k) (weighted n0 r (fun c => nth (Z.to_nat c) src n0))).
  assert (L2 : length dst2 = length dst) by (unfold dst2; rewrite !upd_length; auto).
  destruct (IH k dst2) as (out & E & L & V); [lia|auto|intros k' r' I; rewrite L2; apply H; right; auto|].
  exists out. split; auto. split; [congruence|]. intros k' d Hk'. rewrite V by lia. cbn [row_of].
  destruct (k' =? k) eqn:EK.
  - apply Z.eqb_eq in EK. subst k'. rewrite (row_below w k k A2) by lia. unfold dst2. rewrite upd_nth_same by (rewrite upd_length; lia). destruct r; [congruence|auto].
  - apply Z.eqb_neq in EK. destruct (row_of w k'); auto. unfold dst2. rewrite !upd_nth_other by lia. reflexivity.
Qed.

Theorem apply_rows : forall (s : ci T) src dst, ascending (-1) (ci_weights s) ->
  (forall k r, In (k, r) (ci_weights s) -> r <> [] /\ k < Z.of_nat (length dst) /\ forall e, In e r -> 0 <= fst e < Z.of_nat (length src)) ->
  exists out, ci_apply s src dst = Ret out /\ length out = length dst /\
    forall k d, 0 <= k < Z.of_nat (length dst) -> nth (Z.to_nat k) out d =
      match row_of (ci_weights s) k with [] => nth (Z.to_nat k) dst d | r => weighted n0 r (fun c => nth (Z.to_nat c) src n0) end.
Proof. intros s src dst A H. apply (apply_fold src (ci_weights s) (-1) dst); auto. lia. Qed.

End Apply.
