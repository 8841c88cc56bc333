(** Multilinear interpolation: the model of SgFindPointInCell's interpolation in
    exact arithmetic. *)
From Coq Require Import ZArith List Bool Reals Lra Lia R_Ifp Zquot.
From Verif Require Import Base Num NumR M_LinearSolve M_FindPoint S_LinAlg S_Grid L_LinearSolve.
Import ListNotations.
Open Scope Z_scope.

(** ** Sizes *)
Lemma grid_size_pos : forall dims, Forall (fun d => 2 <= d) dims -> 1 <= grid_size dims.
Proof. induction 1; simpl; nia. Qed.

Lemma grid_ok_cons : forall d ds, grid_ok (d :: ds) -> 2 <= d <= 2 ^ 31 - 1 /\ grid_ok ds /\
  1 <= grid_size ds /\ d * grid_size ds <= 2 ^ 31 - 1.
Proof.
  intros d ds [H1 H2]. inversion H1; subst. simpl in H2.
  assert (P := grid_size_pos ds H4). repeat split; auto; nia.
Qed.

Lemma flat_bounds : forall dims v, is_node dims v -> 0 <= flat dims v < grid_size dims.
Proof.
  induction 1; simpl; [lia|]. nia.
Qed.

Lemma flat_inj : forall dims v w, is_node dims v -> is_node dims w ->
  flat dims v = flat dims w -> v = w.
Proof.
  intros dims v w H. revert w. induction H as [|d x dims v Hx H IH]; intros w Hw E.
  - inversion Hw. reflexivity.
  - inversion Hw as [|d' y dims' w' Hy Hw']; subst. simpl in E.
    assert (B1 := flat_bounds _ _ H). assert (B2 := flat_bounds _ _ Hw').
    assert (x = y) by nia. subst. f_equal. apply IH; auto. nia.
Qed.

Lemma wrap64_small : forall z, 0 <= z < 2 ^ 64 -> wrap64 z = z.
Proof. intros. unfold wrap64. apply Z.mod_small. auto. Qed.

Lemma to_int32_small : forall z, - 2 ^ 31 <= z < 2 ^ 31 -> to_int32 z = z.
Proof. intros. unfold to_int32. rewrite Z.mod_small; lia. Qed.

(** ** Cell along one axis *)
Definition cell (d : Z) (x : R) : Z := Z.min (Int_part x) (d - 2).

Lemma cell_spec : forall d x, 2 <= d -> (0 <= x <= IZR (d - 1))%R ->
  0 <= cell d x <= d - 2 /\ (IZR (cell d x) <= x <= IZR (cell d x) + 1)%R.
Proof.
  intros d x Hd Hx. assert (B := Int_part_bounds x).
  assert (0 <= Int_part x) by (apply Int_part_le; simpl; lra).
  unfold cell. destruct (Z.min_spec (Int_part x) (d - 2)) as [[H1 ->]|[H1 ->]].
  - split; [lia|lra].
  - split; [lia|]. split.
    + apply Rle_trans with (IZR (Int_part x)); [apply IZR_le; lia|lra].
    + rewrite <- plus_IZR. replace (d - 2 + 1) with (d - 1) by lia. lra.
Qed.

Lemma loCorner_R : forall d x, 2 <= d <= 2 ^ 31 - 1 -> (0 <= x <= IZR (d - 1))%R ->
  fp_loCorner d x = Ret (cell d x).
Proof.
  intros d x Hd Hx. assert (B := Int_part_bounds x).
  assert (H0 : 0 <= Int_part x) by (apply Int_part_le; simpl; lra).
  assert (H1 : Int_part x < d).
  { apply Int_part_lt. apply Rle_lt_trans with (IZR (d - 1)); [lra|]. apply IZR_lt. lia. }
  unfold fp_loCorner. rewrite to_int_floor by (unfold int_min, int_max; lia). cbn [bind].
  destruct (0 <=? Int_part x) eqn:E; [|apply Z.leb_gt in E; lia].
  rewrite to_int32_small by lia. rewrite chk_ok by (unfold int_min, int_max; lia). cbn [bind].
  rewrite wrap64_small, to_int32_small by lia. f_equal. unfold cell.
  destruct (Int_part x <=? d - 2) eqn:E2; [apply Z.leb_le in E2|apply Z.leb_gt in E2]; lia.
Qed.

Fixpoint cells (dims : list Z) (xs : list R) : list Z :=
  match dims, xs with
  | d :: ds, x :: xs' => cell d x :: cells ds xs'
  | _, _ => []
  end.

Lemma cells_spec : forall dims xs, Forall (fun d => 2 <= d) dims -> in_grid dims xs ->
  is_cell dims (cells dims xs) xs.
Proof.
  intros dims xs H. revert xs. induction H as [|d ds Hd H IH]; intros xs Hx; inversion Hx; subst.
  - split; constructor.
  - destruct (IH _ H4) as [A B]. destruct (cell_spec d y Hd H2) as [C D].
    split; constructor; auto.
Qed.

Lemma is_corner_node : forall dims c v xs, is_cell dims c xs -> is_corner c v -> is_node dims v.
Proof.
  intros dims c v xs [H _]. revert v. induction H as [|d a ds c Hd H IH]; intros v Hv; inversion Hv; subst.
  - constructor.
  - constructor; [lia|]. apply IH. auto.
Qed.

(** ** Corners of a cell, as bit lists *)
Fixpoint bits (n : nat) (j : Z) : list Z :=
  match n with
  | O => []
  | S n' => (j / 2 ^ Z.of_nat n' mod 2) :: bits n' j
  end.

Fixpoint zadd (a b : list Z) : list Z :=
  match a, b with x :: a', y :: b' => x + y :: zadd a' b' | _, _ => [] end.

Lemma bits_length : forall n j, length (bits n j) = n.
Proof. induction n; simpl; auto. Qed.

Lemma bits_01 : forall n j, Forall (fun b => b = 0 \/ b = 1) (bits n j).
Proof.
  induction n; simpl; intros; constructor; auto.
  assert (H := Z.mod_pos_bound (j / 2 ^ Z.of_nat n) 2 ltac:(lia)). lia.
Qed.

Lemma bits_shift : forall n k j, bits n (k * 2 ^ Z.of_nat n + j) = bits n j.
Proof.
  induction n as [|n IH]; intros k j; auto. cbn [bits].
  rewrite Nat2Z.inj_succ, Z.pow_succ_r by lia.
  replace (k * (2 * 2 ^ Z.of_nat n) + j) with ((2 * k) * 2 ^ Z.of_nat n + j) by ring.
  rewrite IH. f_equal.
  rewrite Z.div_add_l by (apply Z.pow_nonzero; lia).
  rewrite Z.mul_comm, <- Z.add_mod_idemp_l, Z.mod_mul by lia. reflexivity.
Qed.

Definition allbits (n : nat) : list (list Z) := map (bits n) (range (2 ^ Z.of_nat n)).

Lemma zseq_app : forall n m, zseq (n + m) = zseq n ++ map (fun z => Z.of_nat n + z) (zseq m).
Proof.
  intros n m. induction m as [|m IH].
  - rewrite Nat.add_0_r. simpl. rewrite app_nil_r. reflexivity.
  - rewrite Nat.add_succ_r, !zseq_S, IH, map_app, <- app_assoc. simpl. do 3 f_equal. lia.
Qed.

Lemma allbits_S : forall n,
  allbits (S n) = map (cons 0) (allbits n) ++ map (cons 1) (allbits n).
Proof.
  intros n. unfold allbits, range.
  assert (P : 0 < 2 ^ Z.of_nat n) by (apply Z.pow_pos_nonneg; lia).
  replace (Z.to_nat (2 ^ Z.of_nat (S n))) with (Z.to_nat (2 ^ Z.of_nat n) + Z.to_nat (2 ^ Z.of_nat n))%nat
    by (rewrite Nat2Z.inj_succ, Z.pow_succ_r by lia; lia).
  rewrite zseq_app, map_app, !map_map. f_equal.
  - apply map_ext_in. intros j Hj. apply in_zseq in Hj. cbn [bits].
    rewrite Z.div_small by lia. reflexivity.
  - apply map_ext_in. intros j Hj. apply in_zseq in Hj. cbn [bits].
    rewrite Z2Nat.id in * by lia.
    replace (2 ^ Z.of_nat n + j) with (1 * 2 ^ Z.of_nat n + j) by ring.
    rewrite bits_shift. f_equal.
    rewrite Z.div_add_l, Z.div_small by lia. reflexivity.
Qed.

Lemma allbits_in : forall n b, In b (allbits n) <-> length b = n /\ Forall (fun x => x = 0 \/ x = 1) b.
Proof.
  induction n as [|n IH]; intros b.
  - unfold allbits, range, zseq. simpl. split.
    + intros [<-|[]]. auto.
    + intros [H _]. destruct b; [auto|discriminate].
  - rewrite allbits_S, in_app_iff, !in_map_iff. split.
    + intros [(x & <- & Hx)|(x & <- & Hx)]; apply IH in Hx; destruct Hx; simpl; split; auto.
    + intros [H1 H2]. destruct b as [|x b]; [discriminate|]. inversion H2; subst.
      assert (In b (allbits n)) by (apply IH; auto).
      destruct H3; subst; [left|right]; eauto.
Qed.

Lemma allbits_NoDup : forall n, NoDup (allbits n).
Proof.
  assert (NM : forall (a : Z) l, NoDup l -> NoDup (map (cons a) l)).
  { intros a l. induction 1; simpl; constructor; auto. intros C. apply in_map_iff in C.
    destruct C as (y & E & Hy). injection E as <-. contradiction. }
  assert (NA : forall (l1 l2 : list (list Z)), NoDup l1 -> NoDup l2 -> (forall x, In x l1 -> ~ In x l2) -> NoDup (l1 ++ l2)).
  { induction l1; simpl; intros l2 H1 H2 H3; auto. inversion H1; subst. constructor.
    - rewrite in_app_iff. intros [C|C]; auto. apply (H3 a); auto.
    - apply IHl1; auto. }
  induction n.
  - unfold allbits, range, zseq. simpl. repeat constructor. simpl. tauto.
  - rewrite allbits_S. apply NA; auto.
    intros x H1 H2. apply in_map_iff in H1. apply in_map_iff in H2.
    destruct H1 as (y & <- & _). destruct H2 as (z & E & _). discriminate.
Qed.

Lemma zadd_corner : forall c b, length b = length c -> Forall (fun x => x = 0 \/ x = 1) b ->
  is_corner c (zadd c b).
Proof.
  induction c as [|a c IH]; intros [|x b] L H; simpl in *; try discriminate; constructor.
  - inversion H; subst. lia.
  - inversion H; subst. apply IH; auto.
Qed.

Lemma corner_zadd : forall c v, is_corner c v -> exists b, length b = length c /\
  Forall (fun x => x = 0 \/ x = 1) b /\ v = zadd c b.
Proof.
  induction 1 as [|a x c v Hx H IH].
  - exists []. simpl. auto.
  - destruct IH as (b & L & F & ->). exists (x - a :: b). simpl. split; [lia|]. split.
    + constructor; auto. lia.
    + f_equal. lia.
Qed.

Lemma zadd_inj : forall c b b', length b = length c -> length b' = length c ->
  zadd c b = zadd c b' -> b = b'.
Proof.
  induction c as [|a c IH]; intros [|x b] [|y b'] L L' E; simpl in *; try discriminate; auto.
  injection E as E1 E2. f_equal; [lia|]. apply IH; auto.
Qed.

(** ** Flat index and weight of a cell node *)
Lemma mkProd_spec : forall d ds, grid_ok (d :: ds) ->
  fp_mkProd (d :: ds) = grid_size ds :: fp_mkProd ds.
Proof.
  intros d ds. revert d. induction ds as [|e ds IH]; intros d H; [reflexivity|].
  apply grid_ok_cons in H. destruct H as (Hd & H & P & _).
  assert (H' := H). apply grid_ok_cons in H'. destruct H' as (He & H' & P' & Q).
  cbn [fp_mkProd]. cbn [fp_mkProd] in IH. rewrite (IH e) by auto. rewrite (wrap64_small e) by lia.
  rewrite wrap64_small by nia. cbn [grid_size]. f_equal. ring.
Qed.

Lemma grid_ok_length : forall dims, grid_ok dims -> (Z.of_nat (length dims) <= 31).
Proof.
  intros dims [H1 H2].
  assert (2 ^ Z.of_nat (length dims) <= grid_size dims).
  { clear H2. induction H1 as [|d ds H1 H IH]; [simpl; lia|]. cbn [length grid_size].
    rewrite Nat2Z.inj_succ, Z.pow_succ_r by lia. nia. }
  destruct (Z_le_gt_dec (Z.of_nat (length dims)) 31); auto.
  assert (2 ^ 32 <= 2 ^ Z.of_nat (length dims)) by (apply Z.pow_le_mono_r; lia). lia.
Qed.

Lemma mkNodeProd_spec : forall n, Z.of_nat n <= 62 ->
  fp_mkNodeProd (S n) = 2 ^ Z.of_nat n :: fp_mkNodeProd n.
Proof.
  induction n as [|n IH]; intros H; [reflexivity|].
  cbn [fp_mkNodeProd]. cbn [fp_mkNodeProd] in IH. rewrite IH by lia.
  rewrite Nat2Z.inj_succ, Z.pow_succ_r by lia. f_equal.
  rewrite Z.mul_comm. apply wrap64_small. split; [assert (0 < 2 ^ Z.of_nat n) by (apply Z.pow_pos_nonneg; lia); lia|].
  replace (2 * 2 ^ Z.of_nat n) with (2 ^ (Z.of_nat n + 1)) by (rewrite Z.pow_add_r by lia; lia).
  apply Z.pow_lt_mono_r; lia.
Qed.

Lemma hat1 : forall x v, (if Rleb (IZR v) x then IZR v + 1 - x else x - IZR v + 1)%R = (1 - Rabs (x - IZR v))%R.
Proof.
  intros. rcase.
  - rewrite Rabs_pos_eq by lra. lra.
  - rewrite Rabs_left by lra. lra.
Qed.

Lemma nodeWeight_R : forall dims xs j acc w, grid_ok dims -> in_grid dims xs ->
  0 <= acc -> acc + grid_size dims <= 2 ^ 62 ->
  fp_nodeWeight dims (fp_mkProd dims) (fp_mkNodeProd (length dims)) xs j acc w =
  Ret (acc + flat dims (zadd (cells dims xs) (bits (length dims) j)),
       (w * hat xs (zadd (cells dims xs) (bits (length dims) j)))%R).
Proof.
  induction dims as [|d ds IH]; intros xs j acc w Hok Hx Hacc Hs; inversion Hx; subst.
  - simpl. rewrite Z.add_0_r, Rmult_1_r. reflexivity.
  - assert (HL := grid_ok_length _ Hok). cbn [length] in *.
    assert (Hok' := Hok). apply grid_ok_cons in Hok'. destruct Hok' as (Hd & Hok' & P & Q).
    rewrite mkProd_spec by auto. rewrite mkNodeProd_spec by lia. cbn [fp_nodeWeight].
    rewrite loCorner_R by (auto; lia). cbn [bind].
    assert (P2 : 0 < 2 ^ Z.of_nat (length ds)) by (apply Z.pow_pos_nonneg; lia).
    destruct (2 ^ Z.of_nat (length ds) =? 0) eqn:E; [apply Z.eqb_eq in E; lia|].
    destruct (cell_spec d y ltac:(lia) H1) as [C1 C2].
    set (b := j / 2 ^ Z.of_nat (length ds) mod 2).
    assert (B : 0 <= b < 2) by (apply Z.mod_pos_bound; lia).
    rewrite (wrap64_small (cell d y + b)) by lia. rewrite (to_int32_small (cell d y + b)) by lia.
    cbn [grid_size] in Hs.
    assert (N0 : 0 <= grid_size ds * (cell d y + b)) by (apply Z.mul_nonneg_nonneg; lia).
    assert (N1 : grid_size ds * (cell d y + b) <= grid_size ds * (d - 1)) by (apply Z.mul_le_mono_nonneg_l; lia).
    assert (N2 : grid_size ds * (d - 1) + grid_size ds = d * grid_size ds) by ring.
    rewrite wrap64_small by (change (2 ^ 64) with (4 * 2 ^ 62); lia).
    rewrite IH by (auto; lia).
    cbn [nofZ NumR nle nadd nsub nmul].
    change (n1 : R) with 1%R. rewrite hat1.
    cbn [cells bits zadd flat hat]. fold b. f_equal. f_equal; [ring|].
    rewrite !Rmult_assoc. reflexivity.
Qed.

(** A search object holding a grid, with the derived members set consistently. *)
Definition fp_holds {T} {N : Num T} (dims : list Z) (s : fp (T:=T)) : Prop :=
  fp_dims s = dims /\ fp_prodDims s = fp_mkProd dims /\
  fp_nodeProdDims s = fp_mkNodeProd (length dims).

Lemma weights_R : forall dims (s : fp (T:=R)) xs, grid_ok dims -> fp_holds dims s -> in_grid dims xs ->
  fp_getSrcIndicesAndWeights s xs =
  Ret (map (fun b => (flat dims (zadd (cells dims xs) b), hat xs (zadd (cells dims xs) b)))
         (allbits (length dims))).
Proof.
  intros dims s xs Hok (H1 & H2 & H3) Hx. unfold fp_getSrcIndicesAndWeights.
  rewrite H1, H2, H3. unfold allbits. rewrite map_map. apply mapM_pure.
  intros j _. rewrite nodeWeight_R by (auto; try lia; destruct Hok; lia).
  change (n1 : R) with 1%R. rewrite Rmult_1_l. reflexivity.
Qed.

(** ** Multilinear interpolation *)
Open Scope R_scope.

Fixpoint multilin (dims : list Z) (xs : list R) (f : list Z -> R) : R :=
  match dims, xs with
  | d :: ds, x :: xs' =>
      let c := cell d x in
      (1 - (x - IZR c)) * multilin ds xs' (fun v => f (c :: v)) +
      (x - IZR c) * multilin ds xs' (fun v => f ((c + 1)%Z :: v))
  | _, _ => f []
  end.

Lemma lsum_app : forall a b, lsum (a ++ b) = lsum a + lsum b.
Proof. induction a; simpl; intros; [lra|]. rewrite IHa. lra. Qed.

Lemma lsum_scal : forall {A} (f : A -> R) k l, lsum (map (fun x => k * f x) l) = k * lsum (map f l).
Proof. induction l; simpl; [lra|]. rewrite IHl. lra. Qed.

Lemma lsum_ext : forall {A} (f g : A -> R) l, (forall x, In x l -> f x = g x) ->
  lsum (map f l) = lsum (map g l).
Proof. induction l; simpl; intros; auto. rewrite H, IHl; auto. Qed.

Lemma lsum_multilin : forall dims xs f, Forall (fun d => 2 <= d)%Z dims -> in_grid dims xs ->
  lsum (map (fun b => hat xs (zadd (cells dims xs) b) * f (zadd (cells dims xs) b)) (allbits (length dims))) =
  multilin dims xs f.
Proof.
  intros dims xs f H. revert xs f. induction H as [|d ds Hd H IH]; intros xs f Hx; inversion Hx; subst.
  - unfold allbits, range, zseq. simpl. lra.
  - cbn [length]. rewrite allbits_S, map_app, lsum_app, !map_map. cbn [cells zadd hat multilin].
    destruct (cell_spec d y Hd H2) as [C1 C2].
    rewrite Z.add_0_r.
    assert (E0 : 1 - Rabs (y - IZR (cell d y)) = 1 - (y - IZR (cell d y)))
      by (rewrite Rabs_pos_eq by lra; reflexivity).
    assert (E1 : 1 - Rabs (y - IZR (cell d y + 1)) = y - IZR (cell d y))
      by (rewrite plus_IZR; simpl; rewrite Rabs_minus_sym, Rabs_pos_eq by lra; lra).
    rewrite E0, E1.
    rewrite <- (IH l' (fun v => f (cell d y :: v))) by auto.
    rewrite <- (IH l' (fun v => f ((cell d y + 1)%Z :: v))) by auto.
    rewrite <- !lsum_scal. f_equal; apply lsum_ext; intros; ring.
Qed.

Lemma foldM_lsum : forall {A} (m : R -> A -> exec R) (f : A -> R) l acc,
  (forall s x, In x l -> m s x = Ret (s + f x)) ->
  foldM m l acc = Ret (acc + lsum (map f l)).
Proof.
  induction l as [|a l IH]; intros acc H; simpl; [rewrite Rplus_0_r; reflexivity|].
  rewrite H by (simpl; auto). simpl. rewrite IH by (intros; apply H; simpl; auto).
  rewrite Rplus_assoc. reflexivity.
Qed.

(** The field stored in row-major order, as a function of the node. *)
Definition field_at (dims : list Z) (field : list R) (v : list Z) : R :=
  nth (Z.to_nat (flat dims v)) field 0.

Theorem interp_R : forall dims (s : fp (T:=R)) xs field, grid_ok dims -> fp_holds dims s ->
  in_grid dims xs -> Z.of_nat (length field) = grid_size dims ->
  fp_interp s xs field = Ret (multilin dims xs (field_at dims field)).
Proof.
  intros dims s xs field Hok Hs Hx Hf. unfold fp_interp.
  rewrite (weights_R dims) by auto. cbn [bind].
  rewrite (foldM_lsum _ (fun kw => snd kw * nth (Z.to_nat (fst kw)) field 0)).
  - change (n0 : R) with 0. rewrite Rplus_0_l, map_map. cbn [fst snd]. f_equal.
    apply (lsum_multilin dims xs (field_at dims field)); auto. apply Hok.
  - intros acc [k w] Hk. apply in_map_iff in Hk. destruct Hk as (b & E & Hb). injection E as <- <-.
    cbn [fst snd]. rewrite (vget_nth field _ 0); [reflexivity|].
    rewrite Hf. apply flat_bounds. apply allbits_in in Hb. destruct Hb as [L F].
    apply is_corner_node with (c := cells dims xs) (xs := xs).
    + apply cells_spec; auto. apply Hok.
    + apply zadd_corner; auto. rewrite L.
      assert (L1 := cells_spec dims xs (proj1 Hok) Hx). destruct L1 as [L1 _].
      apply Forall2_len in L1. auto.
Qed.

(** ** Properties of multilinear interpolation *)
Lemma multilin_ext : forall dims xs f g, Forall (fun d => 2 <= d)%Z dims -> in_grid dims xs ->
  (forall v, is_node dims v -> f v = g v) -> multilin dims xs f = multilin dims xs g.
Proof.
  intros dims xs f g H. revert xs f g. induction H as [|d ds Hd H IH]; intros xs f g Hx E; inversion Hx; subst.
  - simpl. apply E. constructor.
  - cbn [multilin]. destruct (cell_spec d y Hd H2) as [C1 C2].
    rewrite (IH l' (fun v => f (cell d y :: v)) (fun v => g (cell d y :: v))); auto.
    rewrite (IH l' (fun v => f ((cell d y + 1)%Z :: v)) (fun v => g ((cell d y + 1)%Z :: v))); auto.
    + intros v Hv. apply E. constructor; auto. lia.
    + intros v Hv. apply E. constructor; auto. lia.
Qed.

Lemma multilin_lin : forall dims xs f g a b,
  multilin dims xs (fun v => a * f v + b * g v) = a * multilin dims xs f + b * multilin dims xs g.
Proof.
  induction dims as [|d ds IH]; intros xs f g a b; [reflexivity|].
  destruct xs as [|x xs]; [reflexivity|]. cbn [multilin]. rewrite !IH. ring.
Qed.

Lemma multilin_const : forall dims xs c, multilin dims xs (fun _ => c) = c.
Proof.
  induction dims as [|d ds IH]; intros [|x xs] c; auto. cbn [multilin]. rewrite !IH. ring.
Qed.

Lemma multilin_bounds : forall dims xs f lo hi, Forall (fun d => 2 <= d)%Z dims -> in_grid dims xs ->
  (forall v, is_node dims v -> lo <= f v <= hi) -> lo <= multilin dims xs f <= hi.
Proof.
  intros dims xs f lo hi H. revert xs f. induction H as [|d ds Hd H IH]; intros xs f Hx E; inversion Hx; subst.
  - simpl. apply E. constructor.
  - cbn [multilin]. destruct (cell_spec d y Hd H2) as [C1 C2].
    assert (A : lo <= multilin ds l' (fun v => f (cell d y :: v)) <= hi)
      by (apply IH; auto; intros v Hv; apply E; constructor; auto; lia).
    assert (B : lo <= multilin ds l' (fun v => f ((cell d y + 1)%Z :: v)) <= hi)
      by (apply IH; auto; intros v Hv; apply E; constructor; auto; lia).
    nra.
Qed.

Lemma multilin_node : forall dims v f, Forall (fun d => 2 <= d)%Z dims -> is_node dims v ->
  multilin dims (map IZR v) f = f v.
Proof.
  intros dims v f H. revert v f. induction H as [|d ds Hd H IH]; intros v f Hv; inversion Hv; subst; auto.
  cbn [map multilin]. rewrite !IH by auto. unfold cell. rewrite Int_part_IZR.
  destruct (Z.min_spec y (d - 2)) as [[E ->]|[E ->]].
  - replace (1 - (IZR y - IZR y)) with 1 by lra. replace (IZR y - IZR y) with 0 by lra. ring.
  - assert (y = d - 2 \/ y = d - 1)%Z as [-> | ->] by lia.
    + replace (IZR (d - 2) - IZR (d - 2)) with 0 by lra. ring.
    + replace (d - 2 + 1)%Z with (d - 1)%Z by lia.
      replace (IZR (d - 1) - IZR (d - 2)) with 1 by (rewrite <- minus_IZR; f_equal; lia). ring.
Qed.

Lemma multilin_affine : forall dims xs c0 cs, Forall (fun d => 2 <= d)%Z dims -> in_grid dims xs ->
  multilin dims xs (fun v => c0 + dot cs (map IZR v)) = c0 + dot cs xs.
Proof.
  intros dims xs c0 cs H. revert xs c0 cs. induction H as [|d ds Hd H IH]; intros xs c0 cs Hx; inversion Hx; subst.
  - simpl. reflexivity.
  - destruct cs as [|c cs].
    + simpl dot. rewrite (multilin_const (d :: ds) (y :: l') (c0 + 0)). reflexivity.
    + cbn [multilin map dot].
      assert (A : forall z, multilin ds l' (fun v => c0 + (c * IZR z + dot cs (map IZR v))) = c0 + c * IZR z + dot cs l').
      { intros z. rewrite <- (IH l' (c0 + c * IZR z)) by auto. apply multilin_ext; auto.
        intros; ring. }
      rewrite !A. rewrite plus_IZR. ring.
Qed.
