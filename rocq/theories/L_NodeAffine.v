(** Node interpolation when every search of a destination node succeeds from wherever it starts. *)
From Coq Require Import ZArith List Bool Lia.
From Verif Require Import Base Num M_LinearSolve M_FindPoint M_SideIterator M_NodeInterp S_Grid S_Interp
  L_LinearSolve L_Interp L_FindPoint L_FindPointR L_NodeInterp L_NodeExact.
Import ListNotations.
Open Scope Z_scope.

Section Starts.
Context {T : Type} {N : Num T}.

(** The searches start at the first guess or at a side of the grid. *)
Lemma starts_from : forall (P : list T -> Prop) g (s s1 s2 s3 : ni (T:=T)) d0 d1 p0 p1 c0 c1 h n dc,
  grid_data [d0; d1] [c0; c1] -> ni_setSrcGrid s d0 d1 p0 p1 c0 c1 = Ret s1 ->
  Forall keeps_src h -> ni_run g h s1 = Ret s2 -> ni_dst s2 = Some (n, dc) -> ni_computeWeights g s2 = Ret s3 ->
  P (start_guess d0 d1) -> (forall sd, In sd nine_sides -> P (side_pos d0 d1 sd)) ->
  forall k, 0 <= k < n -> exists x y st, vget dc (k * 2) = Ret x /\ vget dc (k * 2 + 1) = Ret y /\ P st /\
    forall iw, In (k, iw) (ni_weights s3) <-> search_weights g (ni_finder s1) st [x; y] iw.
Proof.
  intros P g s s1 s2 s3 d0 d1 p0 p1 c0 c1 h n dc HD HS HK HR ED HC P0 P1.
  destruct (setSrc_result _ _ _ _ _ _ _ _ HD HS) as (_ & Hh & _ & W & _ & _ & _ & ES & _).
  assert (Hd : fp_dims (ni_finder s1) <> []) by (destruct Hh as [-> _]; discriminate).
  destruct (run_keeps g h s1 s2) as (TW & E2); auto.
  assert (Hd2 : fp_dims (ni_finder s2) <> []) by (assert (E : fp_dims (ni_finder s1) = fp_dims (ni_finder s2)) by apply TW; congruence).
  destruct (exact_nodes g s2 s3 d0 d1 n dc Hd2 ltac:(apply TW) ltac:(congruence) ED HC) as (start & S0 & B).
  assert (PS : forall m, Z.of_nat m <= n -> P (start (Z.of_nat m))).
  { induction m as [|m IH]; intros Hm; [change (Z.of_nat 0) with 0; rewrite S0; exact P0|]. destruct (B (Z.of_nat m) ltac:(lia)) as (x & y & _ & _ & (code & _ & NS) & _).
    replace (Z.of_nat (S m)) with (Z.of_nat m + 1) by lia. destruct NS as [[_ ->]|(_ & _ & pre & sd & post & EQ & -> & _)]; [apply IH; lia|].
    apply P1. rewrite EQ. apply in_or_app. right. left. reflexivity. }
  intros k Hk. destruct (B k Hk) as (x & y & Ex & Ey & _ & _ & SW). exists x, y, (start k). split; auto. split; auto.
  split; [replace k with (Z.of_nat (Z.to_nat k)) by lia; apply PS; lia|].
  intros iw. rewrite SW. split; intros Q; [apply (weights_twin g (ni_finder s2)); [apply twin_sym; exact TW|exact Q]|apply (weights_twin g (ni_finder s1)); [exact TW|exact Q]].
Qed.

Lemma side_range : forall sd, In sd nine_sides -> -1 <= fst sd <= 1 /\ -1 <= snd sd <= 1.
Proof. intros sd H. unfold nine_sides in H. cbn [In] in H. repeat (destruct H as [<-|H]; [cbn [fst snd]; lia|]). destruct H. Qed.

(** A search that ends with the code 1 finds the target. *)
Lemma search_found : forall g (f s s' : fp (T:=T)) st p, fp_reset f st p = Ret s -> fp_search g s = Ret (1, s') -> ni_findTarget g f st p = Ret (0, s').
Proof. intros g f s s' st p E1 E2. unfold ni_findTarget. rewrite E1. cbn [bind]. rewrite E2. reflexivity. Qed.
End Starts.
