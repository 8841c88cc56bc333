(** Flow interpolation, any arithmetic: grids, edges, weight table. *)
From Coq Require Import ZArith List Bool Lia.
From Verif Require Import Base Num M_BoxIterator M_LinearSolve M_FindPoint M_Triangulate M_Quad M_QuadLine M_FlowInterp
  S_Array L_Box2.
Import ListNotations.
Open Scope Z_scope.

(** ** Maps as association lists *)
Fixpoint row {A} (m : list (Z * list A)) (k : Z) : list A :=
  match m with
  | [] => []
  | (k', v) :: m' => if k =? k' then v else row m' k
  end.

Fixpoint keys_up {A} (lo : Z) (m : list (Z * A)) : Prop :=
  match m with
  | [] => True
  | (k, _) :: m' => lo < k /\ keys_up k m'
  end.

Definition sorted_map {A} (m : list (Z * A)) : Prop := exists lo, keys_up lo m.

Lemma keys_up_le : forall {A} (m : list (Z * A)) lo lo', lo' <= lo -> keys_up lo m -> keys_up lo' m.
Proof. intros A [|[k v] m] lo lo' H; simpl; auto. intros [? ?]. split; auto. lia. Qed.

Lemma keys_up_in : forall {A} (m : list (Z * A)) lo k v, keys_up lo m -> In (k, v) m -> lo < k.
Proof.
  induction m as [|[k v] m IH]; intros lo k' v' H I; [destruct I|]; destruct H as [H1 H2]; destruct I as [I|I].
  - injection I as <- <-. auto.
  - specialize (IH k k' v' H2 I). lia.
Qed.

Lemma push_up : forall {A} (m : list (Z * list A)) lo k x, keys_up lo m -> lo < k -> keys_up lo (map_push m k x).
Proof.
  induction m as [|[k' v] m IH]; intros lo k x H L; [simpl; auto|]. destruct H as [H1 H2]. cbn [map_push].
  destruct (k =? k') eqn:E; [simpl; auto|]. apply Z.eqb_neq in E. destruct (k <? k') eqn:F.
  - apply Z.ltb_lt in F. simpl. auto.
  - apply Z.ltb_ge in F. cbn [keys_up]. split; auto. apply IH; auto. lia.
Qed.

Lemma push_sorted : forall {A} (m : list (Z * list A)) k x, sorted_map m -> sorted_map (map_push m k x).
Proof.
  intros A m k x [lo H]. exists (Z.min lo (k - 1)). apply push_up; [|lia]. eapply keys_up_le; eauto. lia.
Qed.

Lemma row_below : forall {A} (m : list (Z * list A)) lo k, keys_up lo m -> k <= lo -> row m k = [].
Proof.
  induction m as [|[k' v] m IH]; intros lo k H L; auto. destruct H as [H1 H2]. cbn [row].
  replace (k =? k') with false by (symmetry; apply Z.eqb_neq; lia). apply (IH k'); auto. lia.
Qed.

Lemma row_push_same : forall {A} (m : list (Z * list A)) k x, sorted_map m -> row (map_push m k x) k = row m k ++ [x].
Proof.
  intros A m k x [lo H]. revert lo H. induction m as [|[k' v] m IH]; intros lo H; cbn [map_push row].
  - rewrite Z.eqb_refl. reflexivity.
  - destruct H as [H1 H2]. destruct (k =? k') eqn:E; cbn [row].
    + rewrite E. reflexivity.
    + destruct (k <? k') eqn:F; cbn [row].
      * rewrite Z.eqb_refl. apply Z.ltb_lt in F. rewrite (row_below m k'); auto. lia.
      * rewrite E. eapply IH; eauto.
Qed.

Lemma row_push_other : forall {A} (m : list (Z * list A)) k k' x, k' <> k -> row (map_push m k x) k' = row m k'.
Proof.
  induction m as [|[k0 v] m IH]; intros k k' x H; cbn [map_push row].
  - apply Z.eqb_neq in H. rewrite H. reflexivity.
  - destruct (k =? k0) eqn:E; cbn [row].
    + apply Z.eqb_eq in E. subst. apply Z.eqb_neq in H. rewrite H. reflexivity.
    + destruct (k <? k0) eqn:F; cbn [row].
      * apply Z.eqb_neq in H. rewrite H. reflexivity.
      * destruct (k' =? k0); auto.
Qed.

Lemma row_in : forall {A} (m : list (Z * list A)) k v, sorted_map m -> In (k, v) m -> row m k = v.
Proof.
  intros A m k v [lo H]. revert lo H. induction m as [|[k' v'] m IH]; intros lo H I; [destruct I|]; destruct H as [H1 H2]; destruct I as [I|I]; cbn [row].
  - injection I as -> ->. rewrite Z.eqb_refl. reflexivity.
  - assert (L := keys_up_in m k' k v H2 I). replace (k =? k') with false by (symmetry; apply Z.eqb_neq; lia).
    eapply IH; eauto.
Qed.

Lemma push_in : forall {A} (m : list (Z * list A)) k x k' v, In (k', v) (map_push m k x) ->
  In (k', v) m \/ (k' = k /\ exists v0, v = v0 ++ [x] /\ (v0 = [] \/ In (k, v0) m)).
Proof.
  induction m as [|[k0 v0] m IH]; intros k x k' v H; cbn [map_push] in H.
  - destruct H as [H|[]]. injection H as <- <-. right. split; auto. exists []. auto.
  - destruct (k =? k0) eqn:E.
    + apply Z.eqb_eq in E. subst k0. destruct H as [H|H]; [|left; right; auto].
      injection H as <- <-. right. split; auto. exists v0. split; auto. right. left. reflexivity.
    + destruct (k <? k0) eqn:F.
      * destruct H as [H|H]; [|left; auto]. injection H as <- <-. right. split; auto. exists []. auto.
      * destruct H as [H|H]; [left; left; auto|]. apply IH in H. destruct H as [H|(-> & v1 & -> & [-> | H])].
        -- left. right. auto. -- right. split; auto. exists []. auto.
        -- right. split; auto. exists v1. split; auto. right. right. auto.
Qed.

Lemma push_key : forall {A} (m : list (Z * list A)) k x, exists v, In (k, v) (map_push m k x).
Proof.
  induction m as [|[k0 v0] m IH]; intros k x; cbn [map_push].
  - eexists. left. reflexivity.
  - destruct (k =? k0) eqn:E.
    + apply Z.eqb_eq in E. subst k0. eexists. left. reflexivity.
    + destruct (k <? k0); [eexists; left; reflexivity|]. destruct (IH k x) as [v H]. exists v. right. auto.
Qed.

Lemma push_keeps : forall {A} (m : list (Z * list A)) k x k' v, In (k', v) m -> exists v', In (k', v') (map_push m k x).
Proof.
  induction m as [|[k0 v0] m IH]; intros k x k' v H; [destruct H|]. cbn [map_push].
  destruct (k =? k0) eqn:E.
  - destruct H as [H|H]; [injection H as <- <-|]; eexists; [left; reflexivity|right; eauto].
  - destruct (k <? k0).
    + exists v. right. auto.
    + destruct H as [H|H]; [injection H as <- <-; eexists; left; reflexivity|].
      destruct (IH k x k' v H) as [v' H']. exists v'. right. auto.
Qed.

Section Any.
Context {T : Type} {N : Num T}.

(** ** The source grid *)
Definition src_ok (d0 d1 : Z) (nx ny : Z -> Z -> T) (s : fl T) : Prop :=
  2 <= d0 /\ 2 <= d1 /\ d0 * d1 <= int_max /\
  stores d0 d1 (fun i j => (nx i j, ny i j)) (fl_src s) /\ fl_srcNumCells s = Some ((d0 - 1) * (d1 - 1)) /\
  fl_nodeIt s = Some (box2 d0 d1) /\ fl_cellIt s = Some (box2 (d0 - 1) (d1 - 1)) /\
  fl_edgeIts s = Some (box2 (d0 - 1) d1, box2 d0 (d1 - 1)).

Lemma wrap64_small : forall z, 0 <= z <= int_max -> wrap64 z = z.
Proof. intros. unfold wrap64, int_max in *. apply Z.mod_small. lia. Qed.

Lemma mapM_stored : forall {A} (a : list A) n, Z.of_nat (length a) = n -> mapM (vget a) (range n) = Ret a.
Proof.
  intros A a n L. unfold range. replace (Z.to_nat n) with (length a) by lia. clear n L.
  assert (G : forall b : list A, mapM (vget (b ++ a)) (map Z.of_nat (seq (length b) (length a))) = Ret a).
  { induction a as [|x a IH]; intros b; [reflexivity|]. cbn [length seq map mapM].
    assert (E : vget (b ++ x :: a) (Z.of_nat (length b)) = Ret x).
    { unfold vget. replace (Z.of_nat (length b) <? 0) with false by (symmetry; apply Z.ltb_ge; lia).
      rewrite Nat2Z.id, nth_error_app2, Nat.sub_diag by lia. reflexivity. }
    rewrite E. cbn [bind]. assert (I := IH (b ++ [x])). rewrite <- app_assoc, app_length in I. cbn [length app] in I.
    replace (S (length b)) with (length b + 1)%nat by lia. rewrite I. reflexivity. }
  exact (G []).
Qed.

Lemma stores_combine : forall n0 n1 (f h : Z -> Z -> T) a b, stores n0 n1 f a -> stores n0 n1 h b ->
  stores n0 n1 (fun i j => (f i j, h i j)) (combine a b).
Proof.
  intros n0 n1 f h a b [L1 H1] [L2 H2]. split; [rewrite combine_length; lia|].
  intros i j Hi Hj. specialize (H1 i j Hi Hj). specialize (H2 i j Hi Hj). revert H1 H2. generalize (Z.to_nat (i * n1 + j)).
  clear. revert b. induction a as [|x a IH]; intros [|y b] [|n]; simpl; try discriminate; auto; congruence.
Qed.

Lemma setSrcGrid_ok : forall s d0 d1 nx ny xs ys, 2 <= d0 -> 2 <= d1 -> d0 * d1 <= int_max ->
  stores d0 d1 nx xs -> stores d0 d1 ny ys ->
  exists s', fl_setSrcGrid s d0 d1 [xs; ys] = Ret s' /\ src_ok d0 d1 nx ny s' /\
    fl_dst s' = fl_dst s /\ fl_dstNumCells s' = fl_dstNumCells s /\ fl_weights s' = fl_weights s.
Proof.
  intros s d0 d1 nx ny xs ys H0 H1 H SX SY. assert (B : d0 <= int_max /\ d1 <= int_max) by (unfold int_max in *; nia).
  unfold fl_setSrcGrid.
  repeat (rewrite chk_ok by (unfold int_min, int_max in *; nia); cbn [bind]).
  repeat (rewrite box2_new by (unfold int_max in *; nia); cbn [bind]).
  rewrite !wrap64_small by nia.
  assert (E : forall (a : list T) k, vget [xs; ys] k = Ret a -> stores d0 d1 (fun i j => nth (Z.to_nat (i * d1 + j)) a n0) a ->
    mapM (fun i : Z => let! c := vget [xs; ys] k in vget c i) (range (d0 * d1)) = Ret a).
  { intros a k Ea [L _]. rewrite Ea. cbn [bind]. change (fun i => vget a i) with (vget a). apply mapM_stored. auto. }
  assert (W : forall f (a : list T), stores d0 d1 f a -> stores d0 d1 (fun i j => nth (Z.to_nat (i * d1 + j)) a n0) a).
  { intros f a [L Ha]. split; auto. intros i j Hi Hj. rewrite (nth_error_nth _ _ n0 (Ha i j Hi Hj)). apply Ha; auto. }
  rewrite (E xs) by (try reflexivity; eapply W; eauto). cbn [bind].
  rewrite (E ys) by (try reflexivity; eapply W; eauto). cbn [bind].
  eexists. split; [reflexivity|]. split; [|auto].
  unfold src_ok. cbn. split; [auto|]. split; [auto|]. split; [auto|]. split; [|auto].
  apply stores_combine; auto.
Qed.

Lemma node_ok : forall d0 d1 nx ny s i j o0 o1, src_ok d0 d1 nx ny s -> 0 <= i + o0 < d0 -> 0 <= j + o1 < d1 ->
  fl_srcNode s [i; j] o0 o1 = Ret (nx (i + o0) (j + o1), ny (i + o0) (j + o1)).
Proof.
  intros d0 d1 nx ny s i j o0 o1 (H0 & H1 & H & ST & _ & EN & _) Hi Hj. unfold fl_srcNode. rewrite EN.
  change (vget [i; j] 0) with (Ret i). change (vget [i; j] 1) with (Ret j). cbn [bind].
  unfold int_max in *.
  repeat (rewrite chk_ok by (unfold int_min, int_max; nia); cbn [bind]).
  rewrite box2_index by (unfold int_max; auto). cbn [bind]. rewrite (stores_get _ _ _ _ _ _ ST) by auto. reflexivity.
Qed.

Definition cell_quad (nx ny : Z -> Z -> T) (i j : Z) : quad T :=
  mkQuad (nx i j, ny i j) (nx (i + 1) j, ny (i + 1) j) (nx (i + 1) (j + 1), ny (i + 1) (j + 1)) (nx i (j + 1), ny i (j + 1)).

Lemma srcQuad_ok : forall d0 d1 nx ny s i j, src_ok d0 d1 nx ny s -> 0 <= i < d0 - 1 -> 0 <= j < d1 - 1 ->
  fl_srcQuad s (i * (d1 - 1) + j) = Ret (cell_quad nx ny i j).
Proof.
  intros d0 d1 nx ny s i j OK Hi Hj. assert (OK' := OK). destruct OK' as (H0 & H1 & H & ST & _ & EN & EC & _).
  unfold fl_srcQuad. rewrite EC. rewrite box2_elem by (unfold int_max in *; nia). cbn [bind].
  rewrite !(node_ok d0 d1 nx ny) by (auto; lia). cbn [bind]. rewrite !Z.add_0_r. reflexivity.
Qed.

(** ** The edges read by apply *)
Lemma sides_ok : forall d0 d1 nx ny s h0 h1 data0 data1 i j w0 w1 w2 w3 acc, src_ok d0 d1 nx ny s ->
  stores (d0 - 1) d1 h0 data0 -> stores d0 (d1 - 1) h1 data1 -> 0 <= i < d0 - 1 -> 0 <= j < d1 - 1 ->
  fl_sides s data0 data1 (i * (d1 - 1) + j) [w0; w1; w2; w3] acc =
  Ret (nadd (nadd (nadd (nadd acc (nmul w0 (h0 i j))) (nmul w1 (h0 i (j + 1)))) (nmul w2 (h1 i j))) (nmul w3 (h1 (i + 1) j))).
Proof.
  intros d0 d1 nx ny s h0 h1 data0 data1 i j w0 w1 w2 w3 acc OK D0 D1 Hi Hj.
  destruct OK as (H0 & H1 & H & ST & _ & EN & EC & EE).
  unfold fl_sides. rewrite EC, EE. rewrite box2_elem by (unfold int_max in *; nia). cbn [bind].
  change (vget [i; j] 0) with (Ret i). change (vget [i; j] 1) with (Ret j). cbn [bind foldM].
  change (0 / 2 =? 0) with true. change (1 / 2 =? 0) with true. change (2 / 2 =? 0) with false. change (3 / 2 =? 0) with false.
  cbv iota. rewrite !Z.add_0_r.
  change (vget [w0; w1; w2; w3] 0) with (Ret w0). change (vget [w0; w1; w2; w3] 1) with (Ret w1).
  change (vget [w0; w1; w2; w3] 2) with (Ret w2). change (vget [w0; w1; w2; w3] 3) with (Ret w3).
  assert (BB : d0 * d1 < 2 ^ 31) by (unfold int_max in H; lia).
  assert (B : (d0 - 1) * d1 <= int_max /\ d0 * (d1 - 1) <= int_max) by (unfold int_max in *; nia).
  repeat (rewrite chk_ok by (unfold int_min, int_max in *; nia); cbn [bind]).
  rewrite (box2_index (d0 - 1) d1 i j) by (tauto || lia). cbn [bind].
  rewrite (stores_get _ _ _ _ _ _ D0) by lia. cbn [bind].
  repeat (rewrite chk_ok by (unfold int_min, int_max in *; nia); cbn [bind]).
  rewrite (box2_index (d0 - 1) d1 i (j + 1)) by (tauto || lia). cbn [bind].
  rewrite (stores_get _ _ _ _ _ _ D0) by lia. cbn [bind].
  repeat (rewrite chk_ok by (unfold int_min, int_max in *; nia); cbn [bind]).
  rewrite (box2_index d0 (d1 - 1) i j) by (tauto || lia). cbn [bind].
  rewrite (stores_get _ _ _ _ _ _ D1) by lia. cbn [bind].
  repeat (rewrite chk_ok by (unfold int_min, int_max in *; nia); cbn [bind]).
  rewrite (box2_index d0 (d1 - 1) (i + 1) j) by (tauto || lia). cbn [bind].
  rewrite (stores_get _ _ _ _ _ _ D1) by lia. reflexivity.
Qed.

(** ** The weight table *)
Definition entry_ok (ns : Z) (e : Z * list T) : Prop := 0 <= fst e < ns /\ length (snd e) = 4%nat.
Definition table_ok (nd ns : Z) (m : list (Z * list (Z * list T))) : Prop :=
  sorted_map m /\ forall k r, In (k, r) m -> 0 <= k < nd /\ r <> [] /\ Forall (entry_ok ns) r.

Lemma push_table : forall nd ns m k e, table_ok nd ns m -> 0 <= k < nd -> entry_ok ns e -> table_ok nd ns (map_push m k e).
Proof.
  intros nd ns m k e [S H] Hk He. split; [apply push_sorted; auto|].
  intros k' r Hr. apply push_in in Hr. destruct Hr as [Hr|(-> & v0 & -> & Hv)]; [auto|].
  split; auto. split; [destruct v0; discriminate|].
  apply Forall_app. split; [|constructor; [auto|constructor]]. destruct Hv as [-> | Hv]; [constructor|]. apply (H _ _ Hv).
Qed.

Lemma segments_cons : forall g qf0 a b rest w, fl_segments g qf0 (a :: b :: rest) w =
  (let! r := qf_computeProjections g (qf_setLinePoints qf0 (a, b)) in
   let! w0 := qf_getProjection (snd r) 0 in
   let! w1 := qf_getProjection (snd r) 1 in
   let! w2 := qf_getProjection (snd r) 2 in
   let! w3 := qf_getProjection (snd r) 3 in
   fl_segments g (snd r) (b :: rest) (map (fun vw => nadd (fst vw) (snd vw)) (combine w [w0; w1; w2; w3]))).
Proof. reflexivity. Qed.

Lemma segments_length : forall g pts qf0 w w' qf', fl_segments g qf0 pts w = Ret (w', qf') -> length w = 4%nat -> length w' = 4%nat.
Proof.
  intros g. induction pts as [|a pts IH]; intros qf0 w w' qf' H L.
  - injection H as <- _. auto.
  - destruct pts as [|b pts].
    + injection H as <- _. auto.
    + rewrite segments_cons in H. apply bind_ret_inv in H. destruct H as (r & _ & H). do 4 (apply bind_ret_inv in H; destruct H as (? & _ & H)).
      apply IH in H; auto. destruct w as [|? [|? [|? [|? [|]]]]]; try discriminate L. reflexivity.
Qed.

Lemma cell_table : forall srt g s dst nd ns x src x', 0 <= dst < nd -> 0 <= src < ns -> table_ok nd ns (flw_m x) ->
  fl_cell srt g s dst x src = Ret x' -> table_ok nd ns (flw_m x').
Proof.
  intros srt g s dst nd ns x src x' Hd Hs OK H. unfold fl_cell in H.
  apply bind_ret_inv in H. destruct H as (q & _ & H). apply bind_ret_inv in H. destruct H as (ov & _ & H).
  destruct (negb ov); [injection H as <-; auto|].
  apply bind_ret_inv in H. destruct H as ([pts i2] & _ & H).
  destruct (2 <=? length pts)%nat; [|injection H as <-; auto].
  apply bind_ret_inv in H. destruct H as (qf1 & _ & H). apply bind_ret_inv in H. destruct H as ([w qf2] & Hw & H).
  injection H as <-. cbn [flw_m fst snd]. apply push_table; auto. split; auto. cbn [snd]. eapply segments_length; eauto.
Qed.

Lemma computeWeights_table : forall srt g s s' nd ns, fl_dstNumCells s = Some nd -> fl_srcNumCells s = Some ns ->
  table_ok nd ns (fl_weights s) -> fl_computeWeights srt g s = Ret s' -> table_ok nd ns (fl_weights s').
Proof.
  intros srt g s s' nd ns Ed Es OK H. unfold fl_computeWeights in H. rewrite Ed, Es in H.
  apply bind_ret_inv in H. destruct H as (x & Hx & H). injection H as <-. cbn [fl_weights].
  revert Hx. apply (foldM_inv (fun x => table_ok nd ns (flw_m x))); [exact OK|].
  intros x0 dst x1 P0 Hd H. apply in_range in Hd. unfold fl_segment in H.
  apply bind_ret_inv in H. destruct H as (l & _ & H). revert H.
  apply (foldM_inv (fun x => table_ok nd ns (flw_m x))); [exact P0|].
  intros x2 src x3 P2 Hs. apply in_range in Hs. apply cell_table; auto.
Qed.

Lemma computeWeights_frame : forall srt g s s', fl_computeWeights srt g s = Ret s' ->
  fl_src s' = fl_src s /\ fl_srcNumCells s' = fl_srcNumCells s /\ fl_dst s' = fl_dst s /\ fl_dstNumCells s' = fl_dstNumCells s /\
  fl_nodeIt s' = fl_nodeIt s /\ fl_cellIt s' = fl_cellIt s /\ fl_edgeIts s' = fl_edgeIts s.
Proof.
  intros srt g s s' H. unfold fl_computeWeights in H. destruct (fl_dstNumCells s) as [nd|] eqn:Ed; [|discriminate].
  destruct (fl_srcNumCells s) as [ns|] eqn:Es.
  - apply bind_ret_inv in H. destruct H as (x & Hx & H). injection H as <-. cbn. auto 10.
  - destruct (nd =? 0)%Z; [|discriminate]. injection H as <-. auto 10.
Qed.

(** ** apply *)

(** Flux of a row of weights: each weight times the value of its edge. *)
Definition row_flux (d1 : Z) (h0 h1 : Z -> Z -> T) (r : list (Z * list T)) : T :=
  fold_left (fun acc e => let i := fst e / (d1 - 1) in let j := fst e mod (d1 - 1) in
    let w k := nth k (snd e) n0 in
    nadd (nadd (nadd (nadd acc (nmul (w 0%nat) (h0 i j))) (nmul (w 1%nat) (h0 i (j + 1))))
      (nmul (w 2%nat) (h1 i j))) (nmul (w 3%nat) (h1 (i + 1) j))) r n0.

Lemma row_flux_ok : forall d0 d1 nx ny s h0 h1 data0 data1 r, src_ok d0 d1 nx ny s ->
  stores (d0 - 1) d1 h0 data0 -> stores d0 (d1 - 1) h1 data1 -> Forall (entry_ok ((d0 - 1) * (d1 - 1))) r ->
  foldM (fun acc (cw : Z * list T) => fl_sides s data0 data1 (fst cw) (snd cw) acc) r n0 = Ret (row_flux d1 h0 h1 r).
Proof.
  intros d0 d1 nx ny s h0 h1 data0 data1 r OK D0 D1. unfold row_flux. generalize (n0 : T) at 1 6.
  induction r as [|[c w] r IH]; intros acc F; [reflexivity|].
  apply Forall_cons_iff in F. destruct F as [[Hc Hw] F]. cbn [fst snd] in *. cbn [foldM fold_left fst snd].
  assert (B := cell_range (d0 - 1) (d1 - 1) c ltac:(destruct OK; lia) Hc). destruct B as (B1 & B2 & B3).
  destruct w as [|w0 [|w1 [|w2 [|w3 [|]]]]]; try discriminate Hw.
  replace (fl_sides s data0 data1 c) with (fl_sides s data0 data1 (c / (d1 - 1) * (d1 - 1) + c mod (d1 - 1))) by (rewrite <- B3; reflexivity).
  rewrite (sides_ok d0 d1 nx ny s h0 h1) by auto. cbn [bind fst snd nth]. rewrite IH by auto. reflexivity.
Qed.

Lemma vset_ok : forall {A} (l : list A) i x, 0 <= i < Z.of_nat (length l) -> vset l i x = Ret (upd l (Z.to_nat i) x).
Proof.
  intros A l i x H. unfold vset. replace (0 <=? i) with true by (symmetry; apply Z.leb_le; lia).
  replace (i <? Z.of_nat (length l)) with true by (symmetry; apply Z.ltb_lt; lia). reflexivity.
Qed.

Lemma apply_ok : forall d0 d1 nx ny s h0 h1 data0 data1 out nd, src_ok d0 d1 nx ny s ->
  stores (d0 - 1) d1 h0 data0 -> stores d0 (d1 - 1) h1 data1 ->
  table_ok nd ((d0 - 1) * (d1 - 1)) (fl_weights s) -> nd <= Z.of_nat (length out) ->
  exists out', fl_apply s data0 data1 out = Ret out' /\ length out' = length out /\
    forall k d, nth k out' d = match row (fl_weights s) (Z.of_nat k) with [] => nth k out d | r => row_flux d1 h0 h1 r end.
Proof.
  intros d0 d1 nx ny s h0 h1 data0 data1 out nd OK D0 D1 [[lo S] TB] L. unfold fl_apply. revert lo S TB.
  assert (G : forall m (out : list T) lo, nd <= Z.of_nat (length out) -> keys_up lo m ->
    (forall k r, In (k, r) m -> 0 <= k < nd /\ r <> [] /\ Forall (entry_ok ((d0 - 1) * (d1 - 1))) r) ->
    exists out', foldM (fun out (e : Z * list (Z * list T)) =>
      let! out1 := vset out (fst e) n0 in
      let! v := foldM (fun acc (cw : Z * list T) => fl_sides s data0 data1 (fst cw) (snd cw) acc) (snd e) n0 in
      vset out1 (fst e) v) m out = Ret out' /\ length out' = length out /\
      forall k d, nth k out' d = match row m (Z.of_nat k) with [] => nth k out d | r => row_flux d1 h0 h1 r end).
  { clear out L. induction m as [|[k r] m IH]; intros out lo L S TB.
    - exists out. repeat split; auto.
    - destruct S as [S1 S2]. destruct (TB k r (or_introl eq_refl)) as (K & NE & F). cbn [foldM fst snd].
      rewrite vset_ok by lia. cbn [bind]. rewrite (row_flux_ok d0 d1 nx ny s h0 h1) by auto. cbn [bind].
      rewrite vset_ok by (rewrite upd_length; lia). cbn [bind].
      destruct (IH (upd (upd out (Z.to_nat k) n0) (Z.to_nat k) (row_flux d1 h0 h1 r)) k) as (out' & E & L' & H').
      + rewrite !upd_length. auto. + auto. + intros k' r' Hr. apply TB. right. auto.
      + exists out'. split; auto. split; [rewrite L', !upd_length; auto|].
        intros k' d. rewrite H'. cbn [row]. destruct (Z.eqb_spec (Z.of_nat k') k) as [Ek|Ek].
        * assert (k' = Z.to_nat k) by lia. subst k'. rewrite (row_below m k); [|auto|lia].
          rewrite upd_nth_same by (rewrite upd_length; lia). destruct r; [congruence|reflexivity].
        * rewrite !upd_nth_other by lia. reflexivity. }
  intros lo S TB. eapply G; eauto.
Qed.

(** ** The destination line *)
Lemma setDstGrid_ok : forall cosv s n xs ys, 1 <= n <= int_max ->
  Z.of_nat (length xs) = n -> Z.of_nat (length ys) = n ->
  exists s', fl_setDstGrid cosv s n [xs; ys] = Ret s' /\ fl_dstNumCells s' = Some (n - 1) /\ length (fl_dst s') = Z.to_nat n /\
    (forall i d, (i < Z.to_nat n)%nat -> nth i (fl_dst s') (d, d) =
       (nadd (nth i xs d) (nmul (nmul (nmul (nofZ 10) neps) (nofZ 1)) (cosv (Z.of_nat i) n)),
        nadd (nth i ys d) (nmul (nmul (nmul (nofZ 10) neps) (nofZ 2)) (cosv (Z.of_nat i) n)))) /\
    fl_src s' = fl_src s /\ fl_srcNumCells s' = fl_srcNumCells s /\ fl_weights s' = fl_weights s /\
    fl_nodeIt s' = fl_nodeIt s /\ fl_cellIt s' = fl_cellIt s /\ fl_edgeIts s' = fl_edgeIts s.
Proof.
  intros cosv s n xs ys Hn LX LY. unfold fl_setDstGrid. rewrite chk_ok by (unfold int_min; lia). cbn [bind].
  rewrite !wrap64_small by lia.
  assert (E : forall (a : list T) k, vget [xs; ys] k = Ret a -> Z.of_nat (length a) = n ->
    mapM (fun i : Z => let! c := vget [xs; ys] k in let! x := vget c i in
      Ret (nadd x (nmul (nmul (nmul (nofZ 10) neps) (nofZ (k + 1))) (cosv i n)))) (range n) =
    Ret (map (fun i => nadd (nth (Z.to_nat i) a n0) (nmul (nmul (nmul (nofZ 10) neps) (nofZ (k + 1))) (cosv i n))) (range n))).
  { intros a k Ea La. apply mapM_pure. intros i Hi. apply in_range in Hi. rewrite Ea. cbn [bind].
    rewrite (vget_nth a i n0) by lia. reflexivity. }
  rewrite (E xs) by auto. cbn [bind]. rewrite (E ys) by auto. cbn [bind].
  eexists. split; [reflexivity|]. cbn [fl_dst fl_dstNumCells fl_src fl_srcNumCells fl_weights fl_nodeIt fl_cellIt fl_edgeIts].
  split; [reflexivity|].
  split; [etransitivity; [apply combine_length|]; rewrite !map_length, range_length; lia|]. split; [|auto 10].
  intros i d Hi. etransitivity; [apply combine_nth; rewrite !map_length; reflexivity|].
  assert (R : forall (f : Z -> T), nth i (map f (range n)) d = f (Z.of_nat i)).
  { intros f. apply nth_error_nth. rewrite nth_error_map.
    assert (RN := range_nth n (Z.of_nat i) ltac:(lia)). rewrite Nat2Z.id in RN. rewrite RN. reflexivity. }
  rewrite !R, Nat2Z.id. rewrite (nth_indep xs n0 d), (nth_indep ys n0 d) by lia. reflexivity.
Qed.

End Any.
