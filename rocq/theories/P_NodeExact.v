(** Property theorems C20 and C83: which destination nodes get weights, and whether they depend on
    the other destination nodes. *)
From Coq Require Import ZArith List Lia Floats.SpecFloat.
From Verif Require Import Base Num NumF M_LinearSolve M_FindPoint M_SideIterator M_NodeInterp S_Grid
  L_LinearSolve L_Cramer L_Interp L_FindPoint L_FindPointR L_NodeInterp L_NodeExact P_NodeInterp.
Import ListNotations.
Open Scope Z_scope.

(** An object whose source grid is set, and any history of setDstGrid and computeWeights after it. *)
Definition src_history {T} {N : Num T} (g : gels T) (d0 d1 : Z) (s2 : ni (T:=T)) : Prop :=
  exists (s s1 : ni (T:=T)) p0 p1 c0 c1 h, grid_data [d0; d1] [c0; c1] /\ ni_setSrcGrid s d0 d1 p0 p1 c0 c1 = Ret s1 /\
    Forall keeps_src h /\ ni_run g h s1 = Ret s2.

Lemma history_keeps : forall {T} {N : Num T} g d0 d1 (s2 : ni (T:=T)), src_history g d0 d1 s2 ->
  fp_dims (ni_finder s2) <> [] /\ solver_ok (ni_finder s2) /\ ni_src s2 = Some (d0, d1).
Proof.
  intros T N g d0 d1 s2 (s & s1 & p0 & p1 & c0 & c1 & h & HD & HS & HK & HR).
  destruct (setSrc_result _ _ _ _ _ _ _ _ HD HS) as (_ & Hh & _ & W & _ & _ & _ & ES & _).
  assert (Hd : fp_dims (ni_finder s1) <> []) by (destruct Hh as [-> _]; discriminate).
  destruct (run_keeps g h s1 s2) as (TW & E2); auto.
  split; [assert (E : fp_dims (ni_finder s1) = fp_dims (ni_finder s2)) by apply TW; congruence|]. split; [apply TW|congruence].
Qed.

(** C20, what holds, for every node.  Any arithmetic, any linear solver.  Node [k] gets weights
    exactly when the first search for it, the one from [start k], succeeds, and they are those of the position
    that search finds.  The searches start in the middle of the grid; when the search for a
    node fails for a point not outside of the bounding box, the sides of the grid are tried in turn, the node gets no weights
    even if one of them leads to it, and the next node starts at the side tried last. *)
Theorem C20_weights_exactly_partial : forall (T : Type) (N : Num T) g d0 d1 (s s' : ni (T:=T)) n dc,
  src_history g d0 d1 s -> ni_dst s = Some (n, dc) -> ni_computeWeights g s = Ret s' ->
  exists start : Z -> list T,
    start 0 = [ndiv (nofZ (d0 - 1)) (lit 214423 100000); ndiv (nofZ (d1 - 1)) (lit 193265 100000)] /\
    forall k, 0 <= k < n -> exists x y, vget dc (k * 2) = Ret x /\ vget dc (k * 2 + 1) = Ret y /\
      next_start g (ni_finder s) d0 d1 [x; y] (start k) (start (k + 1)) /\
      ((exists iw, In (k, iw) (ni_weights s')) <-> search_ends g (ni_finder s) (start k) [x; y] 0) /\
      (forall iw, In (k, iw) (ni_weights s') <-> search_weights g (ni_finder s) (start k) [x; y] iw).
Proof.
  intros T N g d0 d1 s s' n dc HH ED HC. destruct (history_keeps g d0 d1 s HH) as (A & B & C).
  exact (exact_nodes g s s' d0 d1 n dc A B C ED HC).
Qed.
Print Assumptions C20_weights_exactly_partial.

(** C83 is false: the same destination node listed twice.  The first gets no weights, the second
    does, as the failed search for the first has moved the starting position (grid of
    C20_retry_result_dropped_refuted). *)
Theorem C83_twice_refuted : exists s s' iw,
  (let! s := ni_setSrcGrid (ni_new 10 (lit 1 1000000)) 4 2 0 0 rtX rtY in
   ni_setDstGrid s 2 1 [lit 1 1; lit 1 1] [lit 1 2; lit 1 2]) = Ret s /\
  ni_dst s = Some (2, [lit 1 1; lit 1 2; lit 1 1; lit 1 2]) /\
  ni_computeWeights cramer s = Ret s' /\ ni_weights s' = [(1, iw)] /\ map fst iw = [2; 3; 4; 5].
Proof.
  do 3 eexists. split; [vm_compute; reflexivity|]. split; [vm_compute; reflexivity|]. split; [vm_compute; reflexivity|]. split; [vm_compute; reflexivity|]. reflexivity.
Qed.
Print Assumptions C83_twice_refuted.

(** C83, what holds: the nodes after a node do not matter.  Any arithmetic, any linear solver, two objects with
    the same source grid: while the nodes agree up to node [k], so do the weights. *)
Theorem C83_later_nodes_partial : forall (T : Type) (N : Num T) g d0 d1 (s1 s2 s1' s2' : ni (T:=T)) p0 p1 c0 c1 s0 sg h1 h2 n1 n2 dc1 dc2 k,
  grid_data [d0; d1] [c0; c1] -> ni_setSrcGrid s0 d0 d1 p0 p1 c0 c1 = Ret sg ->
  Forall keeps_src h1 -> ni_run g h1 sg = Ret s1 -> Forall keeps_src h2 -> ni_run g h2 sg = Ret s2 ->
  ni_dst s1 = Some (n1, dc1) -> ni_dst s2 = Some (n2, dc2) ->
  0 <= k < n1 -> k < n2 -> (forall i, 0 <= i < 2 * (k + 1) -> vget dc1 i = vget dc2 i) ->
  ni_computeWeights g s1 = Ret s1' -> ni_computeWeights g s2 = Ret s2' ->
  forall j iw, 0 <= j <= k -> (In (j, iw) (ni_weights s1') <-> In (j, iw) (ni_weights s2')).
Proof.
  intros T N g d0 d1 s1 s2 s1' s2' p0 p1 c0 c1 s0 sg h1 h2 m1 m2 dc1 dc2 k HD HS K1 R1 K2 R2 ED1 ED2 Hk1 Hk2 HV C1 C2.
  destruct (setSrc_result _ _ _ _ _ _ _ _ HD HS) as (_ & Hh & _ & W & _ & _ & _ & ES & _).
  assert (Hd : fp_dims (ni_finder sg) <> []) by (destruct Hh as [-> _]; discriminate).
  destruct (run_keeps g h1 sg s1) as (TW1 & E1); auto. destruct (run_keeps g h2 sg s2) as (TW2 & E2); auto.
  apply (prefix_nodes g s1 s2 s1' s2' d0 d1 m1 m2 dc1 dc2 k); auto; try congruence.
  exact (twin_trans _ _ _ (twin_sym _ _ TW1) TW2).
Qed.
Print Assumptions C83_later_nodes_partial.

(** C83, what holds: while no search from the middle of the grid fails for a point inside of the bounding box, the nodes
    before do not matter either, and a node has the weights it would have as the only one. *)
Theorem C83_alone_partial : forall (T : Type) (N : Num T) g d0 d1 (s s' sa sa' : ni (T:=T)) n dc k x y,
  src_history g d0 d1 s -> ni_dst s = Some (n, dc) -> ni_computeWeights g s = Ret s' ->
  (forall j x y, 0 <= j < k -> vget dc (j * 2) = Ret x -> vget dc (j * 2 + 1) = Ret y ->
     exists code, (code = 0 \/ code = -3) /\
       search_ends g (ni_finder s) [ndiv (nofZ (d0 - 1)) (lit 214423 100000); ndiv (nofZ (d1 - 1)) (lit 193265 100000)] [x; y] code) ->
  0 <= k < n -> vget dc (k * 2) = Ret x -> vget dc (k * 2 + 1) = Ret y ->
  ni_setDstGrid s 1 1 [x] [y] = Ret sa -> ni_computeWeights g sa = Ret sa' ->
  forall iw, In (k, iw) (ni_weights s') <-> In (0, iw) (ni_weights sa').
Proof.
  intros T N g d0 d1 s s' sa sa' n dc k x y HH ED HC HF Hk Ex Ey HA HCA iw.
  destruct (C20_weights_exactly_partial T N g d0 d1 s s' n dc HH ED HC) as (start & S0 & P).
  assert (SK : forall m, (m <= Z.to_nat k)%nat -> start (Z.of_nat m) = start 0).
  { induction m as [|m IH]; intros Hm; [reflexivity|]. destruct (P (Z.of_nat m) ltac:(lia)) as (x' & y' & X1 & X2 & (c & (f1 & F1) & X3) & _).
    destruct (HF (Z.of_nat m) x' y' ltac:(lia) X1 X2) as (c' & HC' & (f2 & F2)). rewrite <- S0, <- IH in F2 by lia. rewrite F1 in F2. injection F2 as <- _.
    replace (Z.of_nat (S m)) with (Z.of_nat m + 1) by lia. destruct X3 as [[_ X3]|(Y1 & Y2 & _)]; [rewrite X3; apply IH; lia|destruct HC'; contradiction]. }
  destruct (P k Hk) as (x' & y' & X1 & X2 & _ & _ & X3). rewrite Ex in X1. rewrite Ey in X2. injection X1 as <-. injection X2 as <-.
  assert (K0 := SK (Z.to_nat k) ltac:(lia)). rewrite Z2Nat.id in K0 by lia. rewrite X3, K0.
  destruct (history_keeps g d0 d1 s HH) as (A & B & C).
  destruct (setDst_total s 1 1 [x] [y]) as (sb & db & E1 & E2 & E3 & E4 & E5); try lia; try reflexivity. rewrite HA in E1. injection E1 as <-.
  destruct (exact_nodes g sa sa' d0 d1 (1 * 1) db) as (sta & Q0 & Q); auto; try congruence.
  destruct (Q 0 ltac:(lia)) as (xa & ya & Y1 & Y2 & _ & _ & Y3). destruct (E5 0 ltac:(lia)) as [Z1 Z2]. rewrite Z1 in Y1. rewrite Z2 in Y2. injection Y1 as <-. injection Y2 as <-.
  rewrite Y3, Q0, E3, S0. reflexivity.
Qed.
Print Assumptions C83_alone_partial.

(** Cases: a node that is retried followed by a node found at once (C20), and the nodes
    (1/2, 1/2), (20, 0), (5, 1/4) of which none is retried (C83). *)
Example C20_exactly_case : exists s s' iw,
  (let! s := ni_setSrcGrid (ni_new 10 (lit 1 1000000)) 4 2 0 0 rtX rtY in
   ni_setDstGrid s 2 1 [lit 1 1; lit 1 2] [lit 1 2; lit 1 2]) = Ret s /\
  ni_computeWeights cramer s = Ret s' /\ ni_weights s' = [(1, iw)] /\ map fst iw = [0; 1; 2; 3].
Proof. do 3 eexists. split; [vm_compute; reflexivity|]. split; [vm_compute; reflexivity|]. split; [vm_compute; reflexivity|]. reflexivity. Qed.

Example C83_case : exists s s' sa sa' iw,
  (let! s := ni_setSrcGrid (ni_new 10 (lit 1 1000000)) 4 2 0 0 rtX rtY in
   ni_setDstGrid s 3 1 [lit 1 2; lit 20 1; lit 5 1] [lit 1 2; lit 0 1; lit 1 4]) = Ret s /\
  ni_computeWeights cramer s = Ret s' /\ map fst (ni_weights s') = [0; 2] /\
  search_ends cramer (ni_finder s) [ndiv (nofZ 3) (lit 214423 100000); ndiv (nofZ 1) (lit 193265 100000)] [lit 1 2; lit 1 2] 0 /\
  search_ends cramer (ni_finder s) [ndiv (nofZ 3) (lit 214423 100000); ndiv (nofZ 1) (lit 193265 100000)] [lit 20 1; lit 0 1] (-3) /\
  ni_setDstGrid s 1 1 [lit 5 1] [lit 1 4] = Ret sa /\ ni_computeWeights cramer sa = Ret sa' /\ ni_weights sa' = [(0, iw)].
Proof.
  do 5 eexists. split; [vm_compute; reflexivity|]. split; [vm_compute; reflexivity|]. split; [vm_compute; reflexivity|].
  split; [eexists; vm_compute; reflexivity|]. split; [eexists; vm_compute; reflexivity|].
  split; [vm_compute; reflexivity|]. split; [vm_compute; reflexivity|]. vm_compute; reflexivity.
Qed.
