(** 2 x 2 systems through the model of the solver, over the reals. *)
From Coq Require Import ZArith List Reals Lra Lia.
From Verif Require Import Base Num NumR M_LinearSolve M_Triangulate M_Quad S_LinAlg L_LinearSolve.
Import ListNotations.
Open Scope R_scope.

(** Any arithmetic: a solver that was used before gives the same. *)
Lemma solve2_reuse : forall (T : Type) (N : Num T) g (s : ls (T:=T)) a00 a01 a10 a11 b0 b1, ls_wf 2 2 s ->
  exists s', ls_run g s [a00; a01; a10; a11] [b0; b1] = Ret (fst (solve2 g a00 a01 a10 a11 b0 b1), s') /\ ls_wf 2 2 s' /\
    snd (solve2 g a00 a01 a10 a11 b0 b1) = (nth 0 (ls_getSolution s') n0, nth 1 (ls_getSolution s') n0).
Proof.
  intros T N g s a00 a01 a10 a11 b0 b1 W.
  destruct (ls_run_history 2 g s (ls_new 2 2) [a00; a01; a10; a11] [b0; b1] W (ls_new_wf 2 2) eq_refl eq_refl ltac:(lia)) as [E [[info s'] E']].
  unfold solve2. rewrite <- E, E'. cbn [fst snd]. exists s'. split; [reflexivity|split; [|reflexivity]].
  apply (ls_run_wf 2 s [a00; a01; a10; a11] [b0; b1] g info); auto; lia.
Qed.

Lemma solve2_spec : forall g, gels_spec g 2 2 -> forall a00 a01 a10 a11 b0 b1,
  let r := solve2 g a00 a01 a10 a11 b0 b1 in
  let x := fst (snd r) in let y := snd (snd r) in
  (a00 * a11 - a01 * a10 <> 0 -> fst r = 0%Z /\ a00 * x + a01 * y = b0 /\ a10 * x + a11 * y = b1) /\
  (a00 * a11 - a01 * a10 = 0 -> ~ (a00 = 0 /\ a01 = 0 /\ a10 = 0 /\ a11 = 0) -> (0 < fst r)%Z) /\
  (a00 = 0 -> a01 = 0 -> a10 = 0 -> a11 = 0 -> fst r = 0%Z /\ x = 0 /\ y = 0).
Proof.
  intros g G a00 a01 a10 a11 b0 b1 r x y.
  destruct (ls_square_correct g 2 G ltac:(lia) (ls_new 2 2) [a00; a01; a10; a11] [b0; b1] (ls_new_wf 2 2) eq_refl eq_refl)
    as (info & s' & E & W & H).
  specialize (H _ eq_refl). destruct H as (H1 & H2 & H3 & H4 & _).
  assert (Er : r = (info, (nth 0 (ls_getSolution s') 0, nth 1 (ls_getSolution s') 0))).
  { unfold r, solve2. rewrite E. reflexivity. }
  unfold x, y. rewrite Er. cbn [fst snd]. clear x y Er r E.
  assert (RI : a00 * a11 - a01 * a10 <> 0 -> rows_independent 2 [a00; a01; a10; a11]).
  { intros D z Hz. assert (Z0 := Hz 0%nat ltac:(lia)). assert (Z1 := Hz 1%nat ltac:(lia)). simpl in Z0, Z1.
    assert (Q0 : (a00 * a11 - a01 * a10) * z 0%nat = 0).
    { replace ((a00 * a11 - a01 * a10) * z 0%nat) with
        (a11 * (0 + z 0%nat * a00 + z 1%nat * a10) - a10 * (0 + z 0%nat * a01 + z 1%nat * a11)) by ring. rewrite Z0, Z1. ring. }
    assert (Q1 : (a00 * a11 - a01 * a10) * z 1%nat = 0).
    { replace ((a00 * a11 - a01 * a10) * z 1%nat) with
        (a00 * (0 + z 0%nat * a01 + z 1%nat * a11) - a01 * (0 + z 0%nat * a00 + z 1%nat * a10)) by ring. rewrite Z0, Z1. ring. }
    apply Rmult_integral in Q0. apply Rmult_integral in Q1.
    intros i Hi. destruct i as [|[|i]]; [tauto|tauto|lia]. }
  split; [|split].
  - intros D. assert (I0 := H2 (RI D)). split; auto.
    assert (K : exists k, (k < 2 * 2)%nat /\ nth k [a00; a01; a10; a11] 0 <> 0).
    { destruct (Req_dec a00 0) as [E0|E0]; [|exists 0%nat; split; [lia|auto]].
      destruct (Req_dec a01 0) as [E1|E1]; [|exists 1%nat; split; [lia|auto]].
      exfalso. apply D. rewrite E0, E1. ring. }
    assert (A0 := H1 I0 K 0%nat ltac:(lia)). assert (A1 := H1 I0 K 1%nat ltac:(lia)).
    unfold mat_vec in A0, A1. simpl in A0, A1. lra.
  - intros D NZ. apply H3.
    + intros RI'. destruct (Req_dec a11 0) as [E1|E1].
      * destruct (Req_dec a01 0) as [E2|E2].
        -- (* second column zero: z = (a10, -a00) *)
           assert (Q := RI' (fun i => match i with 0%nat => a10 | _ => - a00 end)).
           assert (Q0 : forall j, (j < 2)%nat -> rsum 2 (fun i => (match i with 0%nat => a10 | _ => - a00 end) * nth (i * 2 + j) [a00; a01; a10; a11] 0) = 0).
           { intros j Hj. destruct j as [|[|j]]; [| |lia]; simpl; rewrite ?E1, ?E2; ring. }
           assert (R0 := Q Q0 0%nat ltac:(lia)). assert (R1 := Q Q0 1%nat ltac:(lia)). simpl in R0, R1.
           assert (a00 = 0) by lra. assert (a10 = 0) by lra.
           apply NZ. auto.
        -- assert (Q := RI' (fun i => match i with 0%nat => a11 | _ => - a01 end)).
           assert (Q0 : forall j, (j < 2)%nat -> rsum 2 (fun i => (match i with 0%nat => a11 | _ => - a01 end) * nth (i * 2 + j) [a00; a01; a10; a11] 0) = 0).
           { intros j Hj. destruct j as [|[|j]]; [| |lia]; simpl; lra. }
           assert (R1 := Q Q0 1%nat ltac:(lia)). simpl in R1. lra.
      * assert (Q := RI' (fun i => match i with 0%nat => a11 | _ => - a01 end)).
        assert (Q0 : forall j, (j < 2)%nat -> rsum 2 (fun i => (match i with 0%nat => a11 | _ => - a01 end) * nth (i * 2 + j) [a00; a01; a10; a11] 0) = 0).
        { intros j Hj. destruct j as [|[|j]]; [| |lia]; simpl; lra. }
        assert (R0 := Q Q0 0%nat ltac:(lia)). simpl in R0. lra.
    + destruct (Req_dec a00 0) as [E0|E0]; [|exists 0%nat; split; [lia|auto]].
      destruct (Req_dec a01 0) as [E1|E1]; [|exists 1%nat; split; [lia|auto]].
      destruct (Req_dec a10 0) as [E2|E2]; [|exists 2%nat; split; [lia|auto]].
      destruct (Req_dec a11 0) as [E3|E3]; [|exists 3%nat; split; [lia|auto]].
      exfalso. apply NZ. auto.
  - intros E0 E1 E2 E3. destruct H4 as [A B].
    + intros k Hk. destruct k as [|[|[|[|k]]]]; simpl; auto; lia.
    + split; auto.
Qed.
