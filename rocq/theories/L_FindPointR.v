(** Proofs about the point search in exact arithmetic. *)
From Coq Require Import ZArith List Bool Reals Lra Lia R_Ifp.
From Verif Require Import Base Num NumR M_LinearSolve M_FindPoint S_LinAlg S_Grid
  L_LinearSolve L_Interp L_FindPoint.
Import ListNotations.
Open Scope Z_scope.

(** ** setGrid *)
Section Grid.
Context {T : Type} {N : Num T}.

Definition runmin (i : T) (c : list T) : T := fold_left (fun m v => if nlt m v then m else v) c i.
Definition runmax (i : T) (c : list T) : T := fold_left (fun m v => if nlt v m then m else v) c i.

Fixpoint zipmap {A B C} (f : A -> B -> C) (a : list A) (b : list B) : list C :=
  match a, b with x :: a', y :: b' => f x y :: zipmap f a' b' | _, _ => [] end.

Lemma zipmap_length : forall {A B C} (f : A -> B -> C) a b, length a = length b ->
  length (zipmap f a b) = length a.
Proof. induction a; destruct b; simpl; intros; auto; try discriminate. Qed.

Lemma nth_zipmap : forall {A B C} (f : A -> B -> C) a b i da db dc, length a = length b -> (i < length a)%nat ->
  nth i (zipmap f a b) dc = f (nth i a da) (nth i b db).
Proof.
  induction a; destruct b; simpl; intros; try lia. destruct i; auto. apply IHa; lia.
Qed.

Lemma scan_pair : forall (c : list T) (m : T * T),
  fold_left (fun (m : T * T) v =>
         (if nlt (fst m) v then fst m else v, if nlt v (snd m) then snd m else v)) c m =
  (runmin (fst m) c, runmax (snd m) c).
Proof.
  induction c as [|v c IH]; intros [a b]; [reflexivity|]. cbn [fold_left fst snd].
  rewrite IH. reflexivity.
Qed.

Lemma mapM_vget_all : forall {A} (c : list A) n, n = length c -> mapM (vget c) (zseq n) = Ret c.
Proof.
  intros A c n ->. apply mapM_Forall2.
  assert (H : forall k l, k + Z.of_nat (length l) = Z.of_nat (length c) -> 0 <= k -> skipn (Z.to_nat k) c = l ->
     Forall2 (fun x y => vget c x = Ret y) (map (fun z => k + z) (zseq (length l))) l).
  { intros k l. revert k. induction l as [|a l IH]; intros k H1 H2 H3; [constructor|].
    cbn [length]. replace (S (length l)) with (1 + length l)%nat by lia. rewrite zseq_app.
    change (zseq 1) with [0]. cbn [map app]. constructor.
    - unfold vget. destruct (k + 0 <? 0) eqn:E; [apply Z.ltb_lt in E; lia|].
      rewrite Z.add_0_r. rewrite <- (firstn_skipn (Z.to_nat k) c), H3.
      rewrite nth_error_app2; rewrite firstn_length.
      + replace (Z.to_nat k - Nat.min (Z.to_nat k) (length c))%nat with 0%nat
          by (cbn [length] in H1; lia). reflexivity.
      + lia.
    - rewrite map_map.
      rewrite (map_ext (fun x => k + (Z.of_nat 1 + x)) (fun z => (k + 1) + z)) by (intros; lia).
      apply IH; [cbn [length] in H1; lia|lia|].
      replace (Z.to_nat (k + 1)) with (1 + Z.to_nat k)%nat by lia.
      replace (skipn (1 + Z.to_nat k) c) with (skipn 1 (skipn (Z.to_nat k) c)); [rewrite H3; reflexivity|].
      clear. revert c. induction (Z.to_nat k); intros [|x c]; simpl; auto.
      exact (IHn c). }
  specialize (H 0 c). rewrite (map_ext (fun z => 0 + z) (fun z => z)), map_id in H by (intros; lia).
  apply H; auto; lia.
Qed.

Lemma scans_ok : forall n (cs : list (list T)) mins maxs, length mins = length cs -> length maxs = length cs ->
  0 <= n -> Forall (fun c => Z.of_nat (length c) = n) cs ->
  fp_scans n cs mins maxs = Ret (cs, zipmap runmin mins cs, zipmap runmax maxs cs).
Proof.
  intros n cs mins maxs. revert mins maxs.
  induction cs as [|c cs IH]; intros [|mi mins] [|ma maxs] H1 H2 H0 H; simpl in *; try discriminate; auto.
  inversion H; subst. unfold fp_scan, range. rewrite mapM_vget_all by lia. cbn [bind].
  rewrite scan_pair. rewrite IH by (auto; lia). reflexivity.
Qed.

Lemma resize_length : forall {A} (l : list A) n v, length (resize l n v) = n.
Proof.
  intros. unfold resize. rewrite app_length, firstn_length, repeat_length. lia.
Qed.

Lemma periods_length : forall (old : list T) dims per, length (fp_periods old dims per) = length old.
Proof. induction old; destruct dims, per; simpl; auto. Qed.

Lemma prod_chk : forall dims p, Forall (fun d => 2 <= d) dims -> 1 <= p -> p * grid_size dims <= 2 ^ 31 - 1 ->
  foldM (fun p d => chk (p * d)) dims p = Ret (p * grid_size dims).
Proof.
  intros dims p H. revert p. induction H as [|d ds Hd H IH]; intros p Hp Hs; simpl.
  - rewrite Z.mul_1_r. reflexivity.
  - cbn [grid_size] in Hs. assert (P := grid_size_pos ds H).
    rewrite chk_ok by (unfold int_min, int_max; nia). cbn [bind]. rewrite IH by nia. f_equal. ring.
Qed.

Lemma wrap_dims : forall dims, grid_ok dims -> map wrap64 dims = dims.
Proof.
  intros dims H. induction dims as [|d ds IH]; auto. apply grid_ok_cons in H.
  destruct H as (H1 & H2 & _). simpl. rewrite IH by auto. rewrite wrap64_small by lia. reflexivity.
Qed.

(** Description of a grid: sizes and one array of node coordinates per axis. *)
Definition grid_data (dims : list Z) (coords : list (list T)) : Prop :=
  dims <> [] /\ grid_ok dims /\ length coords = length dims /\
  Forall (fun c => Z.of_nat (length c) = grid_size dims) coords.

Lemma setGrid_ok : forall (s : fp (T:=T)) dims per coords, grid_data dims coords ->
  exists s', fp_setGrid s dims per coords = Ret s' /\
    fp_holds dims s' /\ fp_coords s' = coords /\ solver_ok s' /\
    length (fp_period s') = length dims /\ length (fp_target s') = length dims /\
    fp_xmins s' = zipmap runmin (resize (fp_xmins s) (length dims) nmax) coords /\
    fp_xmaxs s' = zipmap runmax (resize (fp_xmaxs s) (length dims) (nopp nmax)) coords /\
    fp_period s' = fp_periods (resize (fp_period s) (length dims) n0) dims per /\
    fp_nitermax s' = fp_nitermax s /\ fp_tolpos s' = fp_tolpos s /\
    fp_iter s' = fp_iter s /\ fp_errors s' = fp_errors s /\ fp_oldError s' = fp_oldError s.
Proof.
  intros s dims per coords (H0 & Hok & Hl & HF). unfold fp_setGrid.
  destruct dims as [|d0 ds] eqn:E; [congruence|]. rewrite <- E in *. clear E d0 ds.
  rewrite prod_chk by (destruct Hok; auto; lia). cbn [bind]. rewrite Z.mul_1_l.
  rewrite scans_ok; auto; try (rewrite resize_length; auto).
  - cbn [bind]. eexists. split; [reflexivity|]. unfold fp_holds, solver_ok. cbn.
    rewrite wrap_dims by auto. repeat split; auto.
    + eexists. split; [reflexivity|]. apply ls_new_wf.
    + rewrite periods_length, resize_length. reflexivity.
    + rewrite resize_length. reflexivity.
  - assert (P := grid_size_pos dims (proj1 Hok)). lia.
Qed.

End Grid.

(** ** Exact arithmetic *)
Open Scope R_scope.

Lemma rsum_plus : forall n f g, rsum n (fun i => f i + g i) = rsum n f + rsum n g.
Proof. induction n; simpl; intros; [lra|]. rewrite IHn. lra. Qed.
Lemma rsum_scal_l : forall n k f, rsum n (fun i => k * f i) = k * rsum n f.
Proof. induction n; simpl; intros; [lra|]. rewrite IHn. lra. Qed.
Lemma rsum_scal_r : forall n k f, rsum n (fun i => f i * k) = rsum n f * k.
Proof. induction n; simpl; intros; [lra|]. rewrite IHn. lra. Qed.
Lemma rsum_zero' : forall n, rsum n (fun _ => 0) = 0.
Proof. induction n; simpl; lra. Qed.
Lemma rsum_swap : forall n m f, rsum n (fun i => rsum m (fun j => f i j)) = rsum m (fun j => rsum n (fun i => f i j)).
Proof.
  induction n; simpl; intros m f; [rewrite rsum_zero'; reflexivity|].
  rewrite IHn, rsum_plus. reflexivity.
Qed.
Lemma rsum_delta : forall n f k, (k < n)%nat -> rsum n (fun i => f i * (if Nat.eqb i k then 1 else 0)) = f k.
Proof.
  induction n; intros f k Hk; [lia|]. cbn [rsum]. destruct (Nat.eq_dec k n) as [->|Hne].
  - rewrite Nat.eqb_refl. rewrite (rsum_ext n _ (fun _ => 0)), rsum_zero'; [lra|].
    intros i Hi. destruct (Nat.eqb_spec i n); [lia|]. ring.
  - rewrite IHn by lia. destruct (Nat.eqb_spec n k); [lia|]. ring.
Qed.
Lemma rsum_minus : forall n f g, rsum n (fun i => f i - g i) = rsum n f - rsum n g.
Proof. induction n; simpl; intros; [lra|]. rewrite IHn. lra. Qed.

Lemma rsum_shift : forall n f, rsum (S n) f = f 0%nat + rsum n (fun i => f (S i)).
Proof. induction n; intros f; [simpl; lra|]. cbn [rsum] in *. rewrite IHn. lra. Qed.

Lemma dot_rsum : forall n a x, length a = n -> length x = n ->
  dot a x = rsum n (fun j => nth j a 0 * nth j x 0).
Proof.
  induction n as [|n IH]; intros [|p a] [|q x] H1 H2; try discriminate; [reflexivity|].
  cbn [dot]. rewrite rsum_shift. simpl nth. rewrite (IH a x) by (simpl in *; lia). reflexivity.
Qed.

Lemma dot_upd : forall a x j y, length a = length x -> (j < length x)%nat ->
  dot a (upd x j y) = dot a x + nth j a 0 * (y - nth j x 0).
Proof.
  induction a as [|p a IH]; intros [|q x] j y H1 H2; simpl in *; try lia.
  destruct j; simpl; [lra|]. rewrite IH by lia. lra.
Qed.

(** A usable search object: holds the grid, the position is inside. *)
Definition fp_good (dims : list Z) (coords : list (list R)) (s : fp (T:=R)) : Prop :=
  grid_data dims coords /\ fp_holds dims s /\ fp_coords s = coords /\
  length (fp_period s) = length dims /\ length (fp_target s) = length dims /\
  solver_ok s /\ in_grid dims (fp_dIndices s).

(** Physical position of an index position. *)
Definition position (dims : list Z) (coords : list (list R)) (xs : list R) (i : nat) : R :=
  multilin dims xs (field_at dims (nth i coords [])).

Lemma good_coord : forall dims (coords : list (list R)) i, grid_data dims coords -> (i < length dims)%nat ->
  (Z.of_nat (length (nth i coords [])) = grid_size dims)%Z.
Proof.
  intros dims coords i (_ & _ & L & F) Hi. rewrite Forall_forall in F. apply F.
  apply nth_In. lia.
Qed.

Lemma in_grid_length : forall dims xs, in_grid dims xs -> length xs = length dims.
Proof. intros. symmetry. eapply Forall2_len; eauto. Qed.

Lemma in_grid_nth : forall dims xs, in_grid dims xs -> forall j, (j < length dims)%nat ->
  0 <= nth j xs 0 <= IZR (nth j dims 0%Z - 1).
Proof.
  induction 1; simpl; intros j Hj; [lia|]. destruct j; auto. apply IHForall2. lia.
Qed.

Lemma in_grid_of_nth : forall dims xs, length xs = length dims ->
  (forall j, (j < length dims)%nat -> 0 <= nth j xs 0 <= IZR (nth j dims 0%Z - 1)) -> in_grid dims xs.
Proof.
  induction dims as [|d ds IH]; intros [|x xs] L H; try discriminate; constructor.
  - apply (H 0%nat). simpl. lia.
  - apply IH; [simpl in L; lia|]. intros j Hj. apply (H (S j)). simpl. lia.
Qed.

Lemma in_grid_upd : forall dims xs j y, in_grid dims xs -> (j < length dims)%nat ->
  0 <= y <= IZR (nth j dims 0%Z - 1) -> in_grid dims (upd xs j y).
Proof.
  intros dims xs j y H. revert j. induction H as [|d x ds xs Hx H IH]; intros j Hj Hy; simpl in *; [lia|].
  destruct j; constructor; auto. apply IH; auto. lia.
Qed.

Lemma getPosition_R : forall dims coords s, fp_good dims coords s ->
  fp_getPosition s = Ret (map (fun i => position dims coords (fp_dIndices s) i) (seq 0 (length dims))).
Proof.
  intros dims coords s (HD & Hh & Hc & _ & _ & _ & Hx).
  unfold fp_getPosition. rewrite Hc.
  assert (E : coords = map (fun i => nth i coords []) (seq 0 (length dims))).
  { apply (nth_ext _ _ [] []).
    - rewrite map_length, seq_length. apply HD.
    - intros n Hn. assert (n < length dims)%nat by (destruct HD as (_ & _ & L & _); lia).
      rewrite (nth_indep _ [] (nth 0%nat coords [])) at 1 by lia.
      rewrite (nth_indep (map _ _) [] (nth 0%nat coords [])) by (rewrite map_length, seq_length; lia).
      rewrite (map_nth (fun i => nth i coords []) (seq 0 (length dims)) 0%nat n), seq_nth by auto.
      apply nth_indep. destruct HD as (_ & _ & L & _); lia. }
  rewrite E at 1.
  assert (MM : forall (l : list nat), (forall i, In i l -> (i < length dims)%nat) ->
    mapM (fp_interp s (fp_dIndices s)) (map (fun i => nth i coords []) l) =
    Ret (map (fun i => position dims coords (fp_dIndices s) i) l)).
  { induction l as [|i l IH]; intros Hl; [reflexivity|]. cbn [map mapM].
    rewrite (interp_R dims); auto.
    - cbn [bind]. rewrite IH by (intros; apply Hl; simpl; auto). reflexivity.
    - apply HD.
    - apply good_coord; auto. apply Hl. simpl. auto. }
  apply MM. intros i Hi. apply in_seq in Hi. lia.
Qed.

(** Distance between the current position and the target. *)
Definition distance (n : nat) (p t : nat -> R) : R := sqrt (rsum n (fun i => (p i - t i) * (p i - t i))).

Lemma getError_R : forall dims coords s, fp_good dims coords s ->
  fp_getError s = Ret (distance (length dims) (position dims coords (fp_dIndices s)) (fun i => nth i (fp_target s) 0)).
Proof.
  intros dims coords s G. unfold fp_getError. rewrite (getPosition_R dims coords) by auto. cbn [bind].
  destruct G as (HD & (Hd & _) & Hc & _ & Ht & _ & Hx). rewrite Hd.
  rewrite (foldM_zseq_sum _ (fun i => (position dims coords (fp_dIndices s) i - nth i (fp_target s) 0) *
     (position dims coords (fp_dIndices s) i - nth i (fp_target s) 0))).
  - cbn [bind]. change (n0 : R) with 0. rewrite Rplus_0_l. reflexivity.
  - intros acc i Hi. rewrite (vget_nth _ _ 0) by (rewrite map_length, seq_length; lia).
    cbn [bind]. rewrite (vget_nth (fp_target s) _ 0) by lia. cbn [bind].
    rewrite Nat2Z.id, seq_map_nth by auto. reflexivity.
Qed.

(** ** Jacobian *)
Definition stepHi (d : Z) (x : R) : R := if Rle_dec (x + 1 / 2) (IZR (d - 1)) then x + 1 / 2 else IZR (d - 1).
Definition stepLo (x : R) : R := if Rle_dec 0 (x - 1 / 2) then x - 1 / 2 else 0.

Lemma step_range : forall d x, (2 <= d)%Z -> 0 <= x <= IZR (d - 1) ->
  0 <= stepHi d x <= IZR (d - 1) /\ 0 <= stepLo x <= IZR (d - 1) /\ 1 / 2 <= stepHi d x - stepLo x.
Proof.
  intros d x Hd Hx. assert (1 <= IZR (d - 1)) by (apply IZR_le; lia).
  unfold stepHi, stepLo. destruct (Rle_dec (x + 1 / 2) (IZR (d - 1))); destruct (Rle_dec 0 (x - 1 / 2)); lra.
Qed.

Definition jac (dims : list Z) (coords : list (list R)) (xs : list R) (i j : nat) : R :=
  let x := nth j xs 0 in let d := nth j dims 0%Z in
  (position dims coords (upd xs j (stepHi d x)) i - position dims coords (upd xs j (stepLo x)) i) /
  (stepHi d x - stepLo x).

Lemma dims_ge2 : forall dims j, grid_ok dims -> (j < length dims)%nat ->
  (2 <= nth j dims 0 <= 2 ^ 31 - 1)%Z.
Proof.
  induction dims as [|d ds IH]; intros j H Hj; simpl in *; [lia|].
  apply grid_ok_cons in H. destruct H as (H1 & H2 & _). destruct j; auto. apply IH; auto. lia.
Qed.

Lemma jacEntry_R : forall dims coords s i j, fp_good dims coords s ->
  (i < length dims)%nat -> (j < length dims)%nat ->
  fp_jacEntry s (nth i coords []) j = Ret (jac dims coords (fp_dIndices s) i j).
Proof.
  intros dims coords s i j (HD & Hh & Hc & _ & _ & _ & Hx) Hi Hj. unfold fp_jacEntry.
  assert (L := in_grid_length _ _ Hx). assert (Hok : grid_ok dims) by apply HD.
  rewrite (vget_nth (fp_dIndices s) _ 0) by lia. cbn [bind].
  destruct Hh as (Hd & Hh). rewrite Hd. rewrite (vget_nth dims _ 0%Z) by lia. cbn [bind].
  rewrite !Nat2Z.id. assert (D := dims_ge2 dims j Hok Hj).
  rewrite wrap64_small by lia.
  assert (XG := in_grid_nth _ _ Hx j Hj).
  set (d := nth j dims 0%Z) in *. set (x := nth j (fp_dIndices s) 0) in *.
  cbn [nadd nsub nle nofZ ndiv NumR]. change (nhalf : R) with (1 / 2).
  change (n0 : R) with 0. unfold Rleb.
  destruct (step_range d x ltac:(lia) XG) as (S1 & S2 & S3).
  fold (stepHi d x).
  assert (E1 : (if if Rle_dec (x + 1 / 2) (IZR (d - 1)) then true else false then x + 1 / 2 else IZR (d - 1)) = stepHi d x).
  { unfold stepHi. destruct (Rle_dec (x + 1 / 2) (IZR (d - 1))); reflexivity. }
  assert (E2 : (if if Rle_dec 0 (x - 1 / 2) then true else false then x - 1 / 2 else 0) = stepLo x).
  { unfold stepLo. destruct (Rle_dec 0 (x - 1 / 2)); reflexivity. }
  rewrite E1, E2.
  assert (G1 := good_coord dims coords i HD Hi).
  rewrite (interp_R dims s (upd (fp_dIndices s) j (stepHi d x))) by (auto; try (split; auto); apply in_grid_upd; auto).
  cbn [bind].
  rewrite (interp_R dims s (upd (fp_dIndices s) j (stepLo x))) by (auto; try (split; auto); apply in_grid_upd; auto).
  reflexivity.
Qed.

Lemma jacobian_R : forall dims coords s, fp_good dims coords s ->
  fp_jacobianAndRHS s = Ret (
    concat (map (fun i => map (jac dims coords (fp_dIndices s) i) (seq 0 (length dims))) (seq 0 (length dims))),
    map (fun i => nth i (fp_target s) 0 - position dims coords (fp_dIndices s) i) (seq 0 (length dims))).
Proof.
  intros dims coords s G. assert (G' := G). destruct G' as (HD & Hh & Hc & _ & Ht & _ & Hx).
  unfold fp_jacobianAndRHS. assert (Hd : fp_dims s = dims) by apply Hh. rewrite Hd.
  rewrite (mapM_pure _ (fun i => (map (jac dims coords (fp_dIndices s) i) (seq 0 (length dims)),
     nth i (fp_target s) 0 - position dims coords (fp_dIndices s) i))).
  - cbn [bind]. rewrite !map_map. reflexivity.
  - intros i Hi. apply in_seq in Hi. rewrite Hc.
    assert (Lc : length coords = length dims) by apply HD.
    rewrite (vget_nth coords _ []) by lia. cbn [bind]. rewrite Nat2Z.id.
    rewrite (interp_R dims) by (first [solve [auto] | apply HD | apply good_coord; auto; lia]). cbn [bind].
    rewrite (vget_nth (fp_target s) _ 0) by lia. cbn [bind]. rewrite Nat2Z.id.
    rewrite (mapM_pure _ (jac dims coords (fp_dIndices s) i)).
    + reflexivity.
    + intros j Hj. apply in_seq in Hj. apply jacEntry_R; auto; lia.
Qed.

(** ** Truncation *)
Lemma truncate1_range : forall p d x, (1 <= d < 2 ^ 31)%Z -> 0 <= fp_truncate1 p d x <= IZR (d - 1).
Proof.
  intros p d x Hd. unfold fp_truncate1. rewrite wrap64_small by lia.
  assert (0 <= IZR (d - 1)) by (apply IZR_le; lia).
  set (y := if neq p n0 then x else nfmod (nadd (nfmod x p) p) p). clearbody y.
  cbn [nlt nofZ NumR]. change (n0 : R) with 0. repeat rcase; lra.
Qed.

Lemma truncate_in_grid : forall dims pers xs, grid_ok dims -> length pers = length dims ->
  length xs = length dims -> in_grid dims (fp_truncate pers dims xs).
Proof.
  induction dims as [|d ds IH]; intros [|p pers] [|x xs] Hok H1 H2; try discriminate; [constructor|].
  cbn [fp_truncate]. apply grid_ok_cons in Hok. destruct Hok as (Hd & Hok & _).
  constructor; [apply truncate1_range; lia|]. apply IH; simpl in *; auto; lia.
Qed.

Lemma addsteps : forall (xs ys : list R) n, length xs = n -> (n <= length ys)%nat ->
  mapM (fun i => let! x := vget xs i in let! dx := vget ys i in Ret (nadd x dx)) (zseq n) =
  Ret (map (fun i => nth i xs 0 + nth i ys 0) (seq 0 n)).
Proof.
  intros xs ys n H1 H2. unfold zseq.
  assert (E : forall l, (forall i, In i l -> (i < n)%nat) ->
    mapM (fun i => let! x := vget xs i in let! dx := vget ys i in Ret (nadd x dx)) (map Z.of_nat l) =
    Ret (map (fun i => nth i xs 0 + nth i ys 0) l)).
  { induction l as [|i l IH]; intros H; [reflexivity|]. cbn [map mapM].
    assert (Hi : (i < n)%nat) by (apply H; simpl; auto).
    rewrite (vget_nth xs _ 0) by lia. cbn [bind]. rewrite (vget_nth ys _ 0) by lia. cbn [bind].
    rewrite IH by (intros; apply H; simpl; auto). rewrite Nat2Z.id. reflexivity. }
  apply E. intros i Hi. apply in_seq in Hi. lia.
Qed.

(** ** One step: defined, stays inside the grid *)
Theorem next_total : forall g dims coords s, fp_good dims coords s -> (0 <= fp_iter s < int_max)%Z ->
  exists code s', fp_next g s = Ret (code, s') /\ fp_good dims coords s' /\
    In code [0; 1; -1; -2; -3]%Z /\ (fp_iter s <= fp_iter s' <= fp_iter s + 1)%Z.
Proof.
  intros g dims coords s G It. assert (G' := G). destruct G' as (HD & Hh & Hc & Hp & Ht & (sv & Hsv & W) & Hx).
  unfold fp_next. destruct (fp_inside _ _ _); cbn [negb].
  2:{ exists (-3)%Z, s. split; auto. split; auto. simpl. split; [auto 10|lia]. }
  rewrite (jacobian_R dims coords) by auto. cbn [bind fst snd]. rewrite Hsv.
  assert (Hd : fp_dims s = dims) by apply Hh. rewrite Hd in *.
  assert (Hn : (0 < length dims)%nat) by (destruct HD as (H & _); destruct dims; [congruence|simpl; lia]).
  set (J := concat _). set (r := map _ _).
  assert (LJ : length J = (length dims * length dims)%nat).
  { unfold J. rewrite (concat_length _ (length dims)).
    - rewrite map_length, seq_length. reflexivity.
    - apply Forall_forall. intros x Hin. apply in_map_iff in Hin. destruct Hin as (i & <- & _).
      rewrite map_length, seq_length. reflexivity. }
  assert (Lr : length r = length dims) by (unfold r; rewrite map_length, seq_length; reflexivity).
  destruct (ls_run_history (length dims) g sv sv J r W W LJ Lr Hn) as [_ [[info sv'] RR]].
  rewrite RR. cbn [bind snd].
  assert (W' := ls_run_wf _ _ _ _ _ _ _ W LJ Lr Hn RR).
  assert (Lx := in_grid_length _ _ Hx).
  rewrite addsteps; [|auto|]. 2:{ unfold ls_getSolution. destruct W' as (_ & _ & _ & _ & _ & -> & _). lia. }
  cbn [bind].
  set (xs := map _ (seq 0 (length dims))).
  assert (Lxs : length xs = length dims) by (unfold xs; rewrite map_length, seq_length; reflexivity).
  assert (TG := truncate_in_grid dims (fp_period s) xs ltac:(apply HD) Hp Lxs).
  rewrite chk_ok by (unfold int_min, int_max in *; lia). cbn [bind].
  assert (GG : forall errs old, fp_good dims coords
     (mkFp (Some sv') (fp_coords s) (fp_xmins s) (fp_xmaxs s) (fp_prodDims s) (fp_nodeProdDims s)
       (fp_period s) dims (fp_target s) (fp_nitermax s) (fp_tolpos s) (fp_iter s + 1)
       (fp_truncate (fp_period s) dims xs) errs old)).
  { intros. destruct Hh as (_ & Hh). unfold fp_good, fp_holds, solver_ok. cbn. repeat split; auto; try apply HD.
    - apply Hh. - apply Hh. - exists sv'. auto. }
  rewrite (getError_R dims coords) by auto. cbn [bind].
  match goal with |- context [if ?c then _ else _] => destruct c end.
  { eexists _, _. split; [reflexivity|]. split; [apply GG|]. simpl. split; [auto 10|lia]. }
  match goal with |- context [if ?c then _ else _] => destruct c end.
  { eexists _, _. split; [reflexivity|]. split; [apply GG|]. simpl. split; [auto 10|lia]. }
  match goal with |- context [if ?c then _ else _] => destruct c end.
  { eexists _, _. split; [reflexivity|]. split; [apply GG|]. simpl. split; [auto 10|lia]. }
  { eexists _, _. split; [reflexivity|]. split; [apply GG|]. simpl. split; [auto 10|lia]. }
Qed.
