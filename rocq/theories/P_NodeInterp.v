(** Property theorems C17-C20: node interpolation. *)
From Coq Require Import ZArith List Lia Reals Lra Floats.SpecFloat.
From Verif Require Import Base Num NumR NumF M_LinearSolve M_FindPoint M_SideIterator M_NodeInterp S_Grid S_Interp
  L_LinearSolve L_Cramer L_Interp L_FindPoint L_FindPointR L_NodeInterp L_NodeInterpR.
Import ListNotations.
Open Scope Z_scope.

(** C17. Any arithmetic, any linear solver, any object (also one that was used before),
    any later history of setDstGrid and computeWeights: the nodes with weights are
    numbered without repetition, and their weights locate the node. *)
Theorem C17_weights_locate_target : forall (T : Type) (N : Num T) g (s s1 s2 s3 : ni (T:=T)) d0 d1 p0 p1 c0 c1 h n dc,
  grid_data [d0; d1] [c0; c1] -> ni_setSrcGrid s d0 d1 p0 p1 c0 c1 = Ret s1 ->
  Forall keeps_src h -> ni_run g h s1 = Ret s2 -> ni_dst s2 = Some (n, dc) -> ni_computeWeights g s2 = Ret s3 ->
  NoDup (map fst (ni_weights s3)) /\
  forall k iw, In (k, iw) (ni_weights s3) -> 0 <= k < n /\ located [c0; c1] (fp_tolpos (ni_finder s)) dc k iw.
Proof.
  intros T N g s s1 s2 s3 d0 d1 p0 p1 c0 c1 h n dc HD HS HK HR ED HC.
  destruct (weights_locate g s s1 s2 s3 d0 d1 p0 p1 c0 c1 h n dc HD HS HK HR ED HC) as [[K1 K2] L].
  split; auto. intros k iw Hin. split; [eapply K1; eauto|auto].
Qed.
Print Assumptions C17_weights_locate_target.

(** C17: what setDstGrid stores for node k are the coordinates of node k. *)
Theorem C17_destination_stored : forall (T : Type) (N : Num T) (s : ni (T:=T)) d0 d1 c0 c1,
  0 <= d0 <= 2 ^ 31 - 1 -> 0 <= d1 <= 2 ^ 31 - 1 ->
  Z.of_nat (length c0) = d0 * d1 -> Z.of_nat (length c1) = d0 * d1 ->
  exists s' dc, ni_setDstGrid s d0 d1 c0 c1 = Ret s' /\ ni_dst s' = Some (d0 * d1, dc) /\
    ni_finder s' = ni_finder s /\ ni_src s' = ni_src s /\
    forall k, 0 <= k < d0 * d1 -> vget dc (k * 2) = vget c0 k /\ vget dc (k * 2 + 1) = vget c1 k.
Proof. intros T N. exact setDst_total. Qed.
Print Assumptions C17_destination_stored.

(** C17: apply writes the weighted sums into the nodes with weights and nothing else. *)
Theorem C17_apply_writes_weighted_sums : forall (T : Type) (N : Num T) g (s s1 s2 s3 : ni (T:=T)) d0 d1 p0 p1 c0 c1 h n dc src dst,
  grid_data [d0; d1] [c0; c1] -> ni_setSrcGrid s d0 d1 p0 p1 c0 c1 = Ret s1 ->
  Forall keeps_src h -> ni_run g h s1 = Ret s2 -> ni_dst s2 = Some (n, dc) -> ni_computeWeights g s2 = Ret s3 ->
  Z.of_nat (length src) = d0 * d1 -> Z.of_nat (length dst) = n ->
  exists out, ni_apply s3 src dst = Ret out /\ length out = length dst /\
    (forall k iw, In (k, iw) (ni_weights s3) -> vget out k = weighted iw src) /\
    (forall k, (forall iw, ~ In (k, iw) (ni_weights s3)) -> vget out k = vget dst k).
Proof.
  intros T N g s s1 s2 s3 d0 d1 p0 p1 c0 c1 h n dc src dst HD HS HK HR ED HC LS LD.
  destruct (weights_locate g s s1 s2 s3 d0 d1 p0 p1 c0 c1 h n dc HD HS HK HR ED HC) as [[K1 K2] L].
  apply apply_spec; auto. intros k iw Hin. split; [rewrite LD; eapply K1; eauto|].
  destruct (L k iw Hin) as (x & y & px & py & _ & _ & Ex & _). apply (weighted_ret iw c0).
  - destruct HD as (_ & _ & _ & F). inversion F; subst. cbn [nth grid_size] in *. lia.
  - exists px. exact Ex.
Qed.
Print Assumptions C17_apply_writes_weighted_sums.

(** C17, exact arithmetic: the Euclidean distance is below the tolerance. *)
Theorem C17_distance : forall c0 c1 (tol : R) dc k iw, located (N := NumR) [c0; c1] tol dc k iw ->
  exists x y px py, vget dc (k * 2) = Ret x /\ vget dc (k * 2 + 1) = Ret y /\
    weighted iw c0 = Ret px /\ weighted iw c1 = Ret py /\ (sqrt ((px - x) ^ 2 + (py - y) ^ 2) < tol)%R.
Proof.
  intros c0 c1 tol dc k iw (x & y & px & py & E1 & E2 & E3 & E4 & L). exists x, y, px, py.
  repeat split; auto. cbn [nlt nsqrt nadd nmul nsub NumR] in L. apply Rltb_true in L.
  change (n0 : R) with 0%R in L. rewrite Rplus_0_l in L.
  replace ((px - x) ^ 2 + (py - y) ^ 2)%R with ((px - x) * (px - x) + (py - y) * (py - y))%R by ring. exact L.
Qed.
Print Assumptions C17_distance.

(** C18. Exact arithmetic, any linear solver, any history of calls on an object: once both
    grids are set computeWeights is defined and every set of weights is convex. *)
Theorem C18_weights_convex : forall g nit tol ops s d0 d1 n dc, nit <= int_max -> Forall op_ok ops ->
  ni_run g ops (ni_new nit tol) = Ret s -> ni_src s = Some (d0, d1) -> ni_dst s = Some (n, dc) ->
  exists s', ni_computeWeights g s = Ret s' /\
  (forall k iw, In (k, iw) (ni_weights s') -> 0 <= k < n /\ convex_weights (d0 * d1) iw) /\
  NoDup (map fst (ni_weights s')).
Proof. exact node_interp_bounds. Qed.
Print Assumptions C18_weights_convex.

(** C18. Values stay between the bounds of the source data (hence constants are kept). *)
Theorem C18_no_new_extrema : forall g nit tol ops s d0 d1 n dc s' src dst lo hi,
  nit <= int_max -> Forall op_ok ops ->
  ni_run g ops (ni_new nit tol) = Ret s -> ni_src s = Some (d0, d1) -> ni_dst s = Some (n, dc) ->
  ni_computeWeights g s = Ret s' ->
  Z.of_nat (length src) = d0 * d1 -> Z.of_nat (length dst) = n ->
  (forall v, In v src -> (lo <= v <= hi)%R) ->
  exists out, ni_apply s' src dst = Ret out /\ length out = length dst /\
    forall k, 0 <= k < n -> exists v, vget out k = Ret v /\
      ((exists iw, In (k, iw) (ni_weights s')) -> (lo <= v <= hi)%R) /\
      ((forall iw, ~ In (k, iw) (ni_weights s')) -> vget dst k = Ret v).
Proof.
  intros g nit tol ops s d0 d1 n dc s' src dst lo hi Hn HO HR ES ED HC LS LD B.
  destruct (node_interp_bounds g nit tol ops s d0 d1 n dc Hn HO HR ES ED) as (s2 & E & K & ND).
  rewrite HC in E. injection E as <-.
  destruct (apply_spec s' src dst ND) as (out & EA & LO & P & Q).
  - intros k iw Hin. destruct (K k iw Hin) as [Hk C]. split; [lia|].
    eexists. apply (weighted_R (d0 * d1)); auto.
  - exists out. split; auto. split; auto. intros k Hk.
    exists (nth (Z.to_nat k) out 0%R). assert (V : vget out k = Ret (nth (Z.to_nat k) out 0%R)) by (apply vget_nth; lia).
    split; auto. split.
    + intros (iw & Hin). destruct (K k iw Hin) as [_ C].
      apply (weighted_bounds (d0 * d1) iw src lo hi); auto. rewrite <- (P k iw Hin). exact V.
    + intros Hno. rewrite <- (Q k Hno). exact V.
Qed.
Print Assumptions C18_no_new_extrema.

(** C18. Linearity. *)
Theorem C18_apply_linear : forall g nit tol ops s d0 d1 n dc s' f1 f2 f3 a b dst1 dst2 dst3,
  nit <= int_max -> Forall op_ok ops ->
  ni_run g ops (ni_new nit tol) = Ret s -> ni_src s = Some (d0, d1) -> ni_dst s = Some (n, dc) ->
  ni_computeWeights g s = Ret s' ->
  Z.of_nat (length f1) = d0 * d1 -> Z.of_nat (length f2) = d0 * d1 -> Z.of_nat (length f3) = d0 * d1 ->
  Z.of_nat (length dst1) = n -> Z.of_nat (length dst2) = n -> Z.of_nat (length dst3) = n ->
  (forall i, (i < length f3)%nat -> nth i f3 0 = a * nth i f1 0 + b * nth i f2 0)%R ->
  exists o1 o2 o3, ni_apply s' f1 dst1 = Ret o1 /\ ni_apply s' f2 dst2 = Ret o2 /\ ni_apply s' f3 dst3 = Ret o3 /\
    forall k iw, In (k, iw) (ni_weights s') -> exists v1 v2, vget o1 k = Ret v1 /\ vget o2 k = Ret v2 /\
      vget o3 k = Ret (a * v1 + b * v2)%R.
Proof.
  intros g nit tol ops s d0 d1 n dc s' f1 f2 f3 a b dst1 dst2 dst3 Hn HO HR ES ED HC L1 L2 L3 M1 M2 M3 HL.
  destruct (node_interp_bounds g nit tol ops s d0 d1 n dc Hn HO HR ES ED) as (s2 & E & K & ND).
  rewrite HC in E. injection E as <-.
  assert (A : forall f dst, Z.of_nat (length f) = d0 * d1 -> Z.of_nat (length dst) = n ->
    exists out, ni_apply s' f dst = Ret out /\ forall k iw, In (k, iw) (ni_weights s') -> vget out k = weighted iw f).
  { intros f dst Lf Ld. destruct (apply_spec s' f dst ND) as (out & EA & _ & P & _).
    - intros k iw Hin. destruct (K k iw Hin) as [Hk C]. split; [lia|]. eexists. apply (weighted_R (d0 * d1)); auto.
    - exists out. auto. }
  destruct (A f1 dst1 L1 M1) as (o1 & E1 & P1). destruct (A f2 dst2 L2 M2) as (o2 & E2 & P2).
  destruct (A f3 dst3 L3 M3) as (o3 & E3 & P3). exists o1, o2, o3. repeat split; auto.
  intros k iw Hin. destruct (K k iw Hin) as [_ C].
  assert (R1 := weighted_R (d0 * d1) iw f1 C L1). assert (R2 := weighted_R (d0 * d1) iw f2 C L2).
  eexists. eexists. rewrite (P1 k iw Hin), (P2 k iw Hin), (P3 k iw Hin). split; [exact R1|]. split; [exact R2|].
  apply (weighted_linear (d0 * d1) iw f1 f2); auto.
Qed.
Print Assumptions C18_apply_linear.

(** C19. Computing again gives the same weights, in any arithmetic. *)
Theorem C19_recompute_same : forall (T : Type) (N : Num T) g (s s1 s2 s3 : ni (T:=T)) d0 d1 p0 p1 c0 c1 h,
  grid_data [d0; d1] [c0; c1] -> ni_setSrcGrid s d0 d1 p0 p1 c0 c1 = Ret s1 ->
  Forall keeps_src h -> ni_run g h s1 = Ret s2 -> ni_computeWeights g s2 = Ret s3 ->
  exists s4, ni_computeWeights g s3 = Ret s4 /\ ni_weights s4 = ni_weights s3.
Proof.
  intros T N g s s1 s2 s3 d0 d1 p0 p1 c0 c1 h HD HS HK HR HC.
  destruct (setSrc_result _ _ _ _ _ _ _ _ HD HS) as (_ & Hh & _ & W & _).
  assert (Hd : fp_dims (ni_finder s1) <> []) by (destruct Hh as [-> _]; discriminate).
  destruct (run_keeps g h s1 s2) as (TW & _); auto.
  assert (Hd2 : fp_dims (ni_finder s2) <> []) by (assert (E : fp_dims (ni_finder s1) = fp_dims (ni_finder s2)) by apply TW; congruence).
  destruct (compute_keeps g s2 s3) as (T3 & E1 & E2); auto; [apply TW|].
  destruct (compute_same g s2 s3) as [(u & E & _)|(a & b & Ea & Eb & _ & Ew)].
  - split; [auto|split; auto].
  - congruence.
  - rewrite HC in Ea. injection Ea as <-. exists b. auto.
Qed.
Print Assumptions C19_recompute_same.

(** C19. The weights depend only on the grids: whatever destination grids were set and
    weights computed since the source grid was set, the outcome for the same last
    destination grid is the same. *)
Theorem C19_history_independent : forall (T : Type) (N : Num T) g (s s1 a b : ni (T:=T)) d0 d1 p0 p1 c0 c1 h1 h2 e0 e1 x y,
  grid_data [d0; d1] [c0; c1] -> ni_setSrcGrid s d0 d1 p0 p1 c0 c1 = Ret s1 ->
  Forall keeps_src h1 -> Forall keeps_src h2 ->
  ni_run g (h1 ++ [NSetDst e0 e1 x y]) s1 = Ret a -> ni_run g (h2 ++ [NSetDst e0 e1 x y]) s1 = Ret b ->
  (exists u, ni_computeWeights g a = Undef u /\ ni_computeWeights g b = Undef u) \/
  (exists a' b', ni_computeWeights g a = Ret a' /\ ni_computeWeights g b = Ret b' /\ ni_weights a' = ni_weights b').
Proof.
  intros T N g s s1 a b d0 d1 p0 p1 c0 c1 h1 h2 e0 e1 x y HD HS K1 K2 HA HB.
  destruct (setSrc_result _ _ _ _ _ _ _ _ HD HS) as (_ & Hh & _ & W & _).
  assert (Hd : fp_dims (ni_finder s1) <> []) by (destruct Hh as [-> _]; discriminate).
  assert (F : forall h c, Forall keeps_src h -> ni_run g (h ++ [NSetDst e0 e1 x y]) s1 = Ret c ->
     twin (ni_finder s1) (ni_finder c) /\ ni_src c = ni_src s1 /\
     exists dc, ni_copy (wrap64 (wrap64 (1 * wrap64 e0) * wrap64 e1)) x y = Ret dc /\
       ni_dst c = Some (wrap64 (wrap64 (1 * wrap64 e0) * wrap64 e1), dc)).
  { intros h c Kh HC. assert (HC' := HC). destruct (run_keeps g (h ++ [NSetDst e0 e1 x y]) s1 c) as (TW & E); auto.
    - apply Forall_app. split; auto. repeat constructor.
    - split; auto. split; auto. unfold ni_run in HC. rewrite foldM_app in HC.
      apply bind_ret_inv in HC. destruct HC as (m & _ & HC). cbn [foldM] in HC.
      apply bind_ret_inv in HC. destruct HC as (m2 & HC & HE). injection HE as <-. cbn [ni_step] in HC.
      unfold ni_setDstGrid in HC. apply bind_ret_inv in HC. destruct HC as (? & _ & HC).
      apply bind_ret_inv in HC. destruct HC as (? & _ & HC).
      apply bind_ret_inv in HC. destruct HC as (dc & E3 & HC). injection HC as <-. exists dc. auto. }
  destruct (F h1 a K1 HA) as (TA & SA & da & CA & DA). destruct (F h2 b K2 HB) as (TB & SB & db & CB & DB).
  rewrite CA in CB. injection CB as <-.
  destruct (compute_same g a b) as [(u & E)|(a' & b' & E1 & E2 & _ & E3)].
  - split; [congruence|]. split; [congruence|]. eapply twin_trans; [apply twin_sym; exact TA|exact TB].
  - left. eauto.
  - right. eauto.
Qed.
Print Assumptions C19_history_independent.

(** C20 is false.  IEEE double arithmetic, nitermax = 10, tolerance 1e-6.  Source grid:
    4 x 2 nodes, x = 0, 1, 10, 11; one destination node at (1, 1/2), on the line between
    two source nodes.  The search from the first starting position fails, the search
    started at a side of the grid ends with zero error, and the node gets no weights. *)
Definition rtX : list spec_float := map (fun v => lit v 1) [0; 0; 1; 1; 10; 10; 11; 11].
Definition rtY : list spec_float := map (fun v => lit v 1) [0; 1; 0; 1; 0; 1; 0; 1].
Definition rtSet : exec (ni (T:=spec_float)) :=
  let! s := ni_setSrcGrid (ni_new 10 (lit 1 1000000)) 4 2 0 0 rtX rtY in
  ni_setDstGrid s 1 1 [lit 1 1] [lit 1 2].

Theorem C20_retry_result_dropped_refuted :
  grid_data [4; 2] [rtX; rtY] /\
  exists s s' f1 f2 side guess, rtSet = Ret s /\
    ni_findTarget cramer (ni_finder s) (start_guess 4 2) [lit 1 1; lit 1 2] = Ret (-1, f1) /\
    (In side [[-1; -1]; [-1; 0]; [-1; 1]; [0; -1]; [0; 0]; [0; 1]; [1; -1]; [1; 0]; [1; 1]]) /\
    ni_sideGuess side 3 1 = Ret guess /\
    ni_findTarget cramer f1 guess [lit 1 1; lit 1 2] = Ret (0, f2) /\
    fp_getError f2 = Ret (lit 0 1) /\
    ni_computeWeights cramer s = Ret s' /\ ni_weights s' = [].
Proof.
  split; [split; [discriminate|split; [split; [repeat constructor; lia|vm_compute; discriminate]|split; [reflexivity|repeat constructor]]]|].
  do 4 eexists. exists [-1; -1]. eexists.
  split; [vm_compute; reflexivity|].
  split; [vm_compute; reflexivity|]. split; [simpl; auto|].
  split; [vm_compute; reflexivity|]. split; [vm_compute; reflexivity|].
  split; [vm_compute; reflexivity|]. split; [vm_compute; reflexivity|]. reflexivity.
Qed.
Print Assumptions C20_retry_result_dropped_refuted.

(** C20, what holds: if no node needs a retry (every search from the starting position
    converges or is rejected by the bounding box), exactly the nodes whose search
    converges get weights.  Missing: the nodes found by a retry, and the nodes after a
    retry, whose searches start from another position. *)
Theorem C20_first_search_partial : forall (T : Type) (N : Num T) g (s s1 s2 s3 : ni (T:=T)) d0 d1 p0 p1 c0 c1 h n dc,
  grid_data [d0; d1] [c0; c1] -> ni_setSrcGrid s d0 d1 p0 p1 c0 c1 = Ret s1 ->
  Forall keeps_src h -> ni_run g h s1 = Ret s2 -> ni_dst s2 = Some (n, dc) -> ni_computeWeights g s2 = Ret s3 ->
  (forall k x y, 0 <= k < n -> vget dc (k * 2) = Ret x -> vget dc (k * 2 + 1) = Ret y ->
     exists code f, ni_findTarget g (ni_finder s2) (start_guess d0 d1) [x; y] = Ret (code, f) /\
       (code = 0 \/ code = -3)) ->
  forall k x y, 0 <= k < n -> vget dc (k * 2) = Ret x -> vget dc (k * 2 + 1) = Ret y ->
    ((exists iw, In (k, iw) (ni_weights s3)) <->
     exists f, ni_findTarget g (ni_finder s2) (start_guess d0 d1) [x; y] = Ret (0, f)).
Proof.
  intros T N g s s1 s2 s3 d0 d1 p0 p1 c0 c1 h n dc HD HS HK HR ED HC.
  destruct (setSrc_result _ _ _ _ _ _ _ _ HD HS) as (_ & Hh & _ & W & _ & _ & _ & ES & _).
  assert (Hd : fp_dims (ni_finder s1) <> []) by (destruct Hh as [-> _]; discriminate).
  destruct (run_keeps g h s1 s2) as (TW & E2); auto.
  assert (Hd2 : fp_dims (ni_finder s2) <> []) by (assert (E : fp_dims (ni_finder s1) = fp_dims (ni_finder s2)) by apply TW; congruence).
  eapply first_search; eauto; [apply TW|congruence].
Qed.
Print Assumptions C20_first_search_partial.

(** *** Cases meeting the hypotheses *)
(** The same grid with two destination nodes, (1/2, 1/2) and (20, 0): the first is found by
    the first search, the second is outside. *)
Definition okRun : exec (ni (T:=spec_float)) :=
  let! s := ni_setSrcGrid (ni_new 10 (lit 1 1000000)) 4 2 0 0 rtX rtY in
  let! s := ni_run cramer [NSetDst 1 1 [lit 1 1] [lit 1 2]; NCompute; NSetDst 2 1 [lit 1 2; lit 20 1] [lit 1 2; lit 0 1]] s in
  ni_computeWeights cramer s.

Example C17_nonvacuous : exists s iw, okRun = Ret s /\ ni_weights s = [(0, iw)] /\ map fst iw = [0; 1; 2; 3] /\
  exists out, ni_apply s rtX [lit 7 1; lit 9 1] = Ret out /\ nth 1 out n0 = lit 9 1.
Proof.
  do 2 eexists. split; [vm_compute; reflexivity|]. split; [vm_compute; reflexivity|]. split; [vm_compute; reflexivity|].
  eexists. split; vm_compute; reflexivity.
Qed.

Example C20_nonvacuous : exists s f1 f2,
  (let! s := ni_setSrcGrid (ni_new 10 (lit 1 1000000)) 4 2 0 0 rtX rtY in
   ni_setDstGrid s 2 1 [lit 1 2; lit 20 1] [lit 1 2; lit 0 1]) = Ret s /\
  ni_findTarget cramer (ni_finder s) (start_guess 4 2) [lit 1 2; lit 1 2] = Ret (0, f1) /\
  ni_findTarget cramer (ni_finder s) (start_guess 4 2) [lit 20 1; lit 0 1] = Ret (-3, f2).
Proof. do 3 eexists. split; [vm_compute; reflexivity|]. split; vm_compute; reflexivity. Qed.

(** Exact arithmetic: a source grid and a destination grid can always be set. *)
Example C18_nonvacuous : forall g, exists s n dc,
  Forall op_ok [NSetSrc 2 2 0 0 [0; 0; 1; 1]%R [0; 1; 0; 1]%R; NSetDst 1 2 [1 / 2; 3 / 4]%R [1 / 4; 1 / 3]%R] /\
  ni_run g [NSetSrc 2 2 0 0 [0; 0; 1; 1]%R [0; 1; 0; 1]%R; NSetDst 1 2 [1 / 2; 3 / 4]%R [1 / 4; 1 / 3]%R] (ni_new 10 (1 / 100)%R) = Ret s /\
  ni_src s = Some (2, 2) /\ ni_dst s = Some (n, dc) /\ n = 2.
Proof.
  intros g.
  assert (HD : grid_data [2; 2] [[0; 0; 1; 1]%R; [0; 1; 0; 1]%R]).
  { split; [discriminate|split; [split; [repeat constructor; lia|vm_compute; discriminate]|split; [reflexivity|repeat constructor]]]. }
  destruct (setSrc_total (ni_new 10 (1 / 100)%R) 2 2 0 0 _ _ HD) as [s1 E1].
  destruct (setSrc_result _ _ _ _ _ _ _ _ HD E1) as (_ & _ & _ & _ & _ & _ & _ & ES & _).
  destruct (setDst_total s1 1 2 [1 / 2; 3 / 4]%R [1 / 4; 1 / 3]%R) as (s2 & dc & E2 & ED & _ & ES2 & _); try lia; try reflexivity.
  exists s2, 2, dc. split; [constructor; [exact HD|constructor; [exact I|constructor]]|]. split; [|split; [congruence|split; [exact ED|reflexivity]]].
  unfold ni_run. cbn [foldM ni_step]. rewrite E1. cbn [bind]. rewrite E2. reflexivity.
Qed.
