(** The searches of SgQuadLineFlows depend only on the cell and the point, in any arithmetic. *)
From Coq Require Import ZArith List Bool Lia.
From Verif Require Import Base Num M_LinearSolve M_FindPoint M_Triangulate M_Quad M_QuadLine S_Grid
  L_LinearSolve L_FindPoint L_FindPointB L_FindPointR L_NodeInterp.
Import ListNotations.

Section Generic.
Context {T : Type} {N : Num T}.

Lemma quad_data : forall q : quad T, grid_data [2; 2]%Z (quad_grid q).
Proof. intros q. split; [discriminate|split; [split; [repeat constructor; lia|simpl; lia]|split; [reflexivity|repeat constructor]]]. Qed.

(** Finders that hold the same grid find the same. *)
Lemma twin_qf_find : forall g f1 f2 (p : pt T), twin f1 f2 ->
  same_exec (fun a b => fst (fst a) = fst (fst b) /\ snd (fst a) = snd (fst b) /\ twin (snd a) (snd b)) (qf_find g f1 p) (qf_find g f2 p).
Proof.
  intros g f1 f2 p (D & G & W1 & W2). unfold qf_find, fp_reset.
  assert (ED : fp_dims f1 = fp_dims f2) by apply G. rewrite <- ED.
  destruct (mapM (vget [nhalf; nhalf]) (zseq (length (fp_dims f1)))) as [d|u]; cbn [bind]; [|left; eauto].
  destruct (mapM (vget [fst p; snd p]) (zseq (length (fp_dims f1)))) as [t|u]; cbn [bind]; [|left; eauto].
  set (s1 := mkFp (fp_slvr f1) _ _ _ _ _ _ _ _ _ _ _ _ _ _).
  set (s2 := mkFp (fp_slvr f2) _ _ _ _ _ _ _ _ _ _ _ _ _ _).
  assert (A : alike s1 s2).
  { unfold alike. cbn. split; [unfold same_grid in *; cbn; tauto|].
    repeat split; auto; try tauto. destruct W2 as (sv & E & W2). exists sv. cbn. rewrite ED. auto. }
  unfold fp_search. cbn [s1 s2 fp_nitermax].
  assert (EN : fp_nitermax f1 = fp_nitermax f2) by apply G. rewrite <- EN.
  assert (L := twin_loop g (S (Z.to_nat (fp_nitermax f1))) s1 s2 D A).
  destruct L as [(u & -> & ->)|([[c1 r1]|] & [[c2 r2]|] & -> & -> & P)]; cbn [bind]; try contradiction.
  - left. eauto.
  - destruct P as [P1 (P2 & P3 & P4)]. cbn [fst snd] in *. apply same_ret. cbn [fst snd]. auto.
  - cbn [fst snd]. apply same_ret. cbn [fst snd]. split; auto. destruct A as (G' & ? & ? & ? & ? & ? & W1' & W2').
    split; auto. split; auto.
Qed.

(** A search leaves a finder that holds the same grid. *)
Lemma qf_find_twin : forall g f (p : pt T) code xs f', fp_dims f <> [] -> solver_ok f -> qf_find g f p = Ret (code, xs, f') -> twin f f'.
Proof.
  intros g f p code xs f' D W H. unfold qf_find in H. apply bind_ret_inv in H. destruct H as (f1 & E1 & H).
  apply bind_ret_inv in H. destruct H as ([c f2] & E2 & H). cbn [fst snd] in H. injection H as _ _ <-.
  unfold fp_reset in E1. apply bind_ret_inv in E1. destruct E1 as (d & _ & E1). apply bind_ret_inv in E1. destruct E1 as (t & _ & E1). injection E1 as <-.
  set (s := mkFp _ _ _ _ _ _ _ _ _ _ _ _ _ _ _) in E2.
  assert (TW : twin f s) by (split; [exact D|]; split; [repeat split|]; split; exact W).
  unfold fp_search in E2. apply bind_ret_inv in E2. destruct E2 as (r & E2 & E3). destruct r as [r|]; [injection E3 as ->|injection E3 as _ <-; exact TW].
  apply (loop_result g _ s (c, f2)) in E2; [|exact D|exact W]. eapply twin_trans; [exact TW|apply E2].
Qed.

End Generic.
