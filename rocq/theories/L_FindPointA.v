(** Affine grids, bounding box, periodic wrap (exact arithmetic). *)
From Coq Require Import ZArith List Bool Reals Lra Lia R_Ifp.
From Verif Require Import Base Num NumR M_LinearSolve M_FindPoint S_LinAlg S_Grid
  L_LinearSolve L_Interp L_FindPoint L_FindPointR.
Import ListNotations.
Open Scope R_scope.

Lemma eps_pos : 0 < (fp_eps : R).
Proof.
  unfold fp_eps, neps. rewrite lit_R. cbn [nmul nofZ NumR].
  assert (0 < IZR (2 ^ 52)) by (apply IZR_lt; lia).
  apply Rmult_lt_0_compat; [lra|]. apply Rdiv_lt_0_compat; lra.
Qed.

(** ** Bounding box *)
Lemma runmin_le : forall c i v, In v c -> runmin i c <= v.
Proof.
  assert (A : forall c i, runmin i c <= i).
  { induction c as [|w c IH]; intros i; [simpl; lra|]. unfold runmin in *. cbn [fold_left nlt NumR]. rcase.
    - apply IH. - eapply Rle_trans; [apply IH|]. lra. }
  induction c as [|w c IH]; intros i v []; unfold runmin; cbn [fold_left].
  - subst w. cbn [nlt NumR]. rcase.
    + eapply Rle_trans; [apply A|]. lra. + apply A.
  - apply IH. auto.
Qed.

Lemma runmin_init : forall c (i : R), runmin i c <= i.
Proof.
  induction c as [|w c IH]; intros i; [simpl; lra|]. unfold runmin in *. cbn [fold_left nlt NumR]. rcase.
  - apply IH. - eapply Rle_trans; [apply IH|]. lra.
Qed.

Lemma runmin_in : forall c i, runmin i c = i \/ In (runmin i c) c.
Proof.
  induction c as [|w c IH]; intros i; [left; reflexivity|]. unfold runmin. cbn [fold_left nlt NumR]. rcase.
  - destruct (IH i) as [E|E]; [left; exact E|right; right; exact E].
  - destruct (IH w) as [E|E]; [right; left; symmetry; exact E|right; right; exact E].
Qed.

Lemma runmax_ge : forall c i v, In v c -> v <= runmax i c.
Proof.
  assert (A : forall c i, i <= runmax i c).
  { induction c as [|w c IH]; intros i; [simpl; lra|]. unfold runmax in *. cbn [fold_left nlt NumR]. rcase.
    - apply IH. - eapply Rle_trans; [|apply IH]. lra. }
  induction c as [|w c IH]; intros i v []; unfold runmax; cbn [fold_left].
  - subst w. cbn [nlt NumR]. rcase.
    + eapply Rle_trans; [|apply A]. lra. + apply A.
  - apply IH. auto.
Qed.

Lemma runmax_init : forall c (i : R), i <= runmax i c.
Proof.
  induction c as [|w c IH]; intros i; [simpl; lra|]. unfold runmax in *. cbn [fold_left nlt NumR]. rcase.
  - apply IH. - eapply Rle_trans; [|apply IH]. lra.
Qed.

Lemma runmax_in : forall c i, runmax i c = i \/ In (runmax i c) c.
Proof.
  induction c as [|w c IH]; intros i; [left; reflexivity|]. unfold runmax. cbn [fold_left nlt NumR]. rcase.
  - destruct (IH i) as [E|E]; [left; exact E|right; right; exact E].
  - destruct (IH w) as [E|E]; [right; left; symmetry; exact E|right; right; exact E].
Qed.

Lemma inside_R : forall t mins maxs, length mins = length t -> length maxs = length t ->
  (fp_inside t mins maxs = true <->
   forall i, (i < length t)%nat -> nth i mins 0 - fp_eps <= nth i t 0 <= nth i maxs 0 + fp_eps).
Proof.
  induction t as [|x t IH]; intros [|a mins] [|b maxs] H1 H2; try discriminate.
  - simpl. split; auto. intros. lia.
  - cbn [fp_inside]. rewrite !andb_true_iff, IH by (simpl in *; lia). cbn [nle nadd nsub NumR].
    rewrite !Rleb_true. split.
    + intros [[A B] H] i Hi. destruct i; simpl; [auto|]. apply H. simpl in Hi. lia.
    + intros H. split; [apply (H 0%nat); simpl; lia|]. intros i Hi. apply (H (S i)). simpl. lia.
Qed.

(** ** Affine grids *)
(** Node positions: coordinate i of node v is c_i + A_i . v *)
Definition affine_grid (dims : list Z) (coords : list (list R)) (c : list R) (A : list (list R)) : Prop :=
  length A = length dims /\ Forall (fun r => length r = length dims) A /\
  forall i v, (i < length dims)%nat -> is_node dims v ->
    nth (Z.to_nat (flat dims v)) (nth i coords []) 0 = nth i c 0 + dot (nth i A []) (map IZR v).

Definition entry (A : list (list R)) (i j : nat) : R := nth j (nth i A []) 0.

(** Two-sided inverse. *)
Definition invertible (n : nat) (A : list (list R)) : Prop :=
  exists B : nat -> nat -> R,
    (forall i k, (i < n)%nat -> (k < n)%nat ->
       rsum n (fun j => entry A i j * B j k) = if Nat.eqb i k then 1 else 0) /\
    (forall i k, (i < n)%nat -> (k < n)%nat ->
       rsum n (fun j => B i j * entry A j k) = if Nat.eqb i k then 1 else 0).

Lemma nth_concat : forall (A : list (list R)) n i j, Forall (fun r => length r = n) A ->
  (i < length A)%nat -> (j < n)%nat -> nth (i * n + j) (concat A) 0 = entry A i j.
Proof.
  intros A n i j H. revert i. induction H as [|r A Hr H IH]; intros i Hi Hj; simpl in Hi; [lia|].
  unfold entry. cbn [concat]. destruct i.
  - simpl. rewrite app_nth1 by lia. reflexivity.
  - rewrite app_nth2 by (simpl; lia). replace (S i * n + j - length r)%nat with (i * n + j)%nat by (simpl; lia).
    apply IH; auto. lia.
Qed.

Lemma position_affine : forall dims coords c A xs i, grid_data dims coords -> affine_grid dims coords c A ->
  in_grid dims xs -> (i < length dims)%nat ->
  position dims coords xs i = nth i c 0 + dot (nth i A []) xs.
Proof.
  intros dims coords c A xs i HD (L & F & H) Hx Hi. unfold position.
  rewrite (multilin_ext _ _ _ (fun v => nth i c 0 + dot (nth i A []) (map IZR v))).
  - apply multilin_affine; auto. apply HD.
  - apply HD.
  - auto.
  - intros v Hv. apply H; auto.
Qed.

Lemma row_length : forall (A : list (list R)) n i, Forall (fun r => length r = n) A -> (i < length A)%nat ->
  length (nth i A []) = n.
Proof. intros A n i F Hi. rewrite Forall_forall in F. apply F. apply nth_In. auto. Qed.

Lemma jac_affine : forall dims coords c A xs i j, grid_data dims coords -> affine_grid dims coords c A ->
  in_grid dims xs -> (i < length dims)%nat -> (j < length dims)%nat ->
  jac dims coords xs i j = entry A i j.
Proof.
  intros dims coords c A xs i j HD HA Hx Hi Hj. unfold jac.
  assert (L := in_grid_length _ _ Hx). assert (D := dims_ge2 dims j ltac:(apply HD) Hj).
  assert (XG := in_grid_nth _ _ Hx j Hj).
  destruct (step_range (nth j dims 0%Z) (nth j xs 0) ltac:(lia) XG) as (S1 & S2 & S3).
  assert (HA' := HA). destruct HA' as (LA & FA & _).
  rewrite !(position_affine dims coords c A) by (auto; apply in_grid_upd; auto).
  rewrite !dot_upd by (try (rewrite (row_length A (length dims)) by (auto; lia)); lia).
  unfold entry. field. lra.
Qed.

Lemma invertible_rows : forall n A, length A = n -> Forall (fun r => length r = n) A -> invertible n A ->
  rows_independent n (concat A).
Proof.
  intros n A L F (B & HAB & HBA) z Hz i Hi.
  rewrite <- (rsum_delta n z i Hi).
  rewrite (rsum_ext n _ (fun k => rsum n (fun j => z k * (entry A k j * B j i)))).
  2:{ intros k Hk. rewrite rsum_scal_l, HAB by auto. reflexivity. }
  rewrite rsum_swap.
  rewrite (rsum_ext n _ (fun _ => 0)); [apply rsum_zero'|].
  intros j Hj.
  rewrite (rsum_ext n _ (fun k => (z k * entry A k j) * B j i)) by (intros; ring).
  rewrite rsum_scal_r.
  rewrite (rsum_ext n _ (fun i => z i * nth (i * n + j) (concat A) 0)).
  2:{ intros k Hk. rewrite nth_concat by (auto; lia). reflexivity. }
  rewrite Hz by auto. ring.
Qed.

Lemma invertible_inj : forall n A y, invertible n A ->
  (forall i, (i < n)%nat -> rsum n (fun j => entry A i j * y j) = 0) ->
  forall i, (i < n)%nat -> y i = 0.
Proof.
  intros n A y (B & HAB & HBA) Hy i Hi.
  rewrite <- (rsum_delta n y i Hi).
  rewrite (rsum_ext n _ (fun k => rsum n (fun j => B i j * entry A j k * y k))).
  2:{ intros k Hk. rewrite (rsum_scal_r n (y k) (fun j => B i j * entry A j k)), HBA by auto.
      rewrite (Nat.eqb_sym i k). ring. }
  rewrite rsum_swap. rewrite (rsum_ext n _ (fun _ => 0)); [apply rsum_zero'|].
  intros j Hj.
  rewrite (rsum_ext n _ (fun k => B i j * (entry A j k * y k))) by (intros; ring).
  rewrite rsum_scal_l, Hy by auto. ring.
Qed.

(** fmod *)
Lemma fmod_range : forall x p, 0 < p -> 0 <= x -> 0 <= Rfmod x p < p /\ exists k, x - Rfmod x p = IZR k * p.
Proof.
  intros x p Hp Hx. unfold Rfmod, Rtrunc.
  assert (0 <= x / p) by (apply Rmult_le_pos; [lra|]; apply Rlt_le, Rinv_0_lt_compat; lra).
  destruct (Rle_dec 0 (x / p)); [|lra].
  assert (B := Int_part_bounds (x / p)). assert (E : x = x / p * p) by (field; lra).
  split.
  - set (k := IZR (Int_part (x / p))) in *. clearbody k.
    replace (x - k * p) with ((x / p - k) * p) by (field; lra). split.
    + apply Rmult_le_pos; lra.
    + apply Rlt_le_trans with (1 * p); [|lra]. apply Rmult_lt_compat_r; lra.
  - exists (Int_part (x / p)). ring.
Qed.

Lemma fmod_neg : forall x p, 0 < p -> x < 0 -> - p < Rfmod x p <= 0 /\ exists k, x - Rfmod x p = IZR k * p.
Proof.
  intros x p Hp Hx.
  assert (E : x / p = - ((- x) / p)) by (field; lra).
  assert (0 < (- x) / p) by (apply Rdiv_lt_0_compat; lra).
  assert (F : Rfmod x p = - Rfmod (- x) p).
  { unfold Rfmod, Rtrunc. destruct (Rle_dec 0 (x / p)); [lra|].
    destruct (Rle_dec 0 (- x / p)); [|lra]. rewrite E, Ropp_involutive, opp_IZR. ring. }
  destruct (fmod_range (- x) p Hp ltac:(lra)) as [B [k Hk]]. rewrite F. split; [lra|].
  exists (- k)%Z. rewrite opp_IZR. lra.
Qed.

Lemma fmod_small : forall x p, 0 <= x < p -> Rfmod x p = x.
Proof.
  intros x p H. unfold Rfmod, Rtrunc.
  assert (H1 : 0 <= x / p) by (apply Rmult_le_pos; [lra|]; apply Rlt_le, Rinv_0_lt_compat; lra).
  destruct (Rle_dec 0 (x / p)); [|lra].
  rewrite (Int_part_spec (x / p) 0); [ring|]. split; [exact H1|].
  assert (x / p * p = x) by (field; lra). rewrite Rplus_0_l.
  apply Rmult_lt_reg_r with p; lra.
Qed.

Lemma wrap_spec : forall x p, 0 < p ->
  0 <= Rfmod (Rfmod x p + p) p < p /\ exists k, x - Rfmod (Rfmod x p + p) p = IZR k * p.
Proof.
  intros x p Hp. destruct (Rle_or_lt 0 x) as [Hx|Hx].
  - destruct (fmod_range x p Hp Hx) as [B [k Hk]].
    destruct (fmod_range (Rfmod x p + p) p Hp ltac:(lra)) as [B' [k' Hk']].
    split; auto. exists (k + k' - 1)%Z. rewrite minus_IZR, plus_IZR. lra.
  - destruct (fmod_neg x p Hp Hx) as [B [k Hk]].
    destruct (fmod_range (Rfmod x p + p) p Hp ltac:(lra)) as [B' [k' Hk']].
    split; auto. exists (k + k' - 1)%Z. rewrite minus_IZR, plus_IZR. lra.
Qed.

Lemma wrap_id : forall x p, 0 <= x < p -> Rfmod (Rfmod x p + p) p = x.
Proof.
  intros x p H. rewrite (fmod_small x p) by auto.
  destruct (fmod_range (x + p) p ltac:(lra) ltac:(lra)) as [B [k Hk]].
  assert (K : IZR k * p = 1 * p -> Rfmod (x + p) p = x) by lra. apply K.
  assert (k = 1%Z); [|subst; reflexivity].
  assert (A1 : 0 * p < IZR k * p) by lra. assert (A2 : IZR k * p < 2 * p) by lra.
  apply Rmult_lt_reg_r in A1; [|lra]. apply Rmult_lt_reg_r in A2; [|lra].
  apply lt_IZR in A1. apply lt_IZR in A2. lia.
Qed.

(** Wrapping and clipping leave positions of the grid alone. *)
Lemma truncate1_id : forall p d x, (2 <= d < 2 ^ 31)%Z -> p = 0 \/ p = IZR d -> 0 <= x <= IZR (d - 1) ->
  fp_truncate1 p d x = x.
Proof.
  intros p d x Hd Hp Hx. unfold fp_truncate1. rewrite wrap64_small by lia.
  assert (Ed : IZR (d - 1) = IZR d - 1) by (rewrite minus_IZR; reflexivity).
  assert (E : (if neq p n0 then x else nfmod (nadd (nfmod x p) p) p) = x).
  { cbn [neq nfmod nadd NumR]. change (n0 : R) with 0. rcase; auto.
    destruct Hp as [Hp|Hp]; [congruence|]. rewrite Hp. apply wrap_id. lra. }
  rewrite E. cbn [nlt nofZ NumR]. change (n0 : R) with 0. repeat rcase; lra.
Qed.

Definition periods_ok (dims : list Z) (pers : list R) : Prop :=
  Forall2 (fun d p => p = 0 \/ p = IZR d) dims pers.

Lemma truncate_id : forall dims pers xs, grid_ok dims -> periods_ok dims pers -> in_grid dims xs ->
  fp_truncate pers dims xs = xs.
Proof.
  intros dims pers xs Hok Hp. revert xs. induction Hp as [|d p dims pers H1 Hp IH]; intros xs Hx.
  - inversion Hx. reflexivity.
  - inversion Hx as [|d' x ds xs' Hx1 Hx2]; subst. apply grid_ok_cons in Hok.
    cbn [fp_truncate]. rewrite truncate1_id by (auto; lia). rewrite IH by tauto. reflexivity.
Qed.

(** The bounding box held by [s] contains the nodes. *)
Definition box_holds (dims : list Z) (coords : list (list R)) (s : fp (T:=R)) : Prop :=
  length (fp_xmins s) = length dims /\ length (fp_xmaxs s) = length dims /\
  forall i v, (i < length dims)%nat -> In v (nth i coords []) ->
    nth i (fp_xmins s) 0 <= v <= nth i (fp_xmaxs s) 0.

Lemma box_target : forall dims coords s ts, fp_good dims coords s -> box_holds dims coords s -> in_grid dims ts ->
  (forall i, (i < length dims)%nat -> nth i (fp_target s) 0 = position dims coords ts i) ->
  fp_inside (fp_target s) (fp_xmins s) (fp_xmaxs s) = true.
Proof.
  intros dims coords s ts (HD & _ & _ & _ & Ht & _) (B1 & B2 & B) Hts HT.
  apply inside_R; try lia. intros i Hi. rewrite Ht in Hi. rewrite HT by auto.
  assert (P := eps_pos).
  assert (nth i (fp_xmins s) 0 <= position dims coords ts i <= nth i (fp_xmaxs s) 0); [|lra].
  unfold position. apply multilin_bounds; auto; [apply HD|].
  intros v Hv. apply B; auto. unfold field_at. apply nth_In.
  assert (G := good_coord dims coords i HD Hi). assert (FB := flat_bounds _ _ Hv). lia.
Qed.

(** The step of an affine grid reaches the target whatever the guess. *)
Theorem affine_one_step : forall g dims coords c A s ts,
  gels_spec g (length dims) (length dims) ->
  fp_good dims coords s -> box_holds dims coords s -> periods_ok dims (fp_period s) ->
  fp_iter s = 0%Z -> fp_errors s = [] ->
  affine_grid dims coords c A -> invertible (length dims) A ->
  in_grid dims ts ->
  (forall i, (i < length dims)%nat -> nth i (fp_target s) 0 = nth i c 0 + dot (nth i A []) ts) ->
  exists code s', fp_next g s = Ret (code, s') /\ fp_dIndices s' = ts /\ fp_good dims coords s' /\
    fp_getError s' = Ret 0 /\
    ((1 < fp_nitermax s)%Z -> 0 < fp_tolpos s -> code = 1%Z).
Proof.
  intros g dims coords c A s ts HG G HB HP HI HE HA HInv Hts HT.
  assert (HD : grid_data dims coords) by apply G.
  destruct (next_total g dims coords s G ltac:(unfold int_max; lia)) as (code & s' & RN & G' & _).
  exists code, s'. split; auto.
  assert (Hpos : forall i, (i < length dims)%nat -> nth i (fp_target s) 0 = position dims coords ts i).
  { intros i Hi. rewrite (position_affine dims coords c A) by auto. auto. }
  assert (HIn := box_target dims coords s ts G HB Hts Hpos).
  destruct (next_inv _ _ _ _ RN) as [(_ & _ & C)|H]; [congruence|].
  destruct H as (_ & jr & sv & info & sv' & xs & err & Hjr & Hsv & Hrun & Hxs & Hd & _ & SG & ET & It & _ & EE & Er & Hc).
  rewrite (jacobian_R dims coords) in Hjr by auto. injection Hjr as <-. cbn [fst snd] in Hrun.
  destruct G as (_ & Hh & Hco & Hper & Htl & (sv0 & Hsv0 & W) & Hx).
  assert (Hdims : fp_dims s = dims) by apply Hh. rewrite Hdims in *.
  rewrite Hsv in Hsv0. injection Hsv0 as <-.
  set (n := length dims) in *.
  assert (Hn : (0 < n)%nat) by (unfold n; destruct HD as (H & _); destruct dims; [congruence|simpl; lia]).
  assert (HA' := HA). destruct HA' as (LA & FA & _). fold n in LA, FA.
  assert (EJ : concat (map (fun i => map (jac dims coords (fp_dIndices s) i) (seq 0 n)) (seq 0 n)) = concat A).
  { f_equal. apply (nth_ext _ _ [] []); rewrite map_length, seq_length; [auto|].
    intros i Hi. rewrite (nth_indep _ [] ((fun i => map (jac dims coords (fp_dIndices s) i) (seq 0 n)) 0%nat))
      by (rewrite map_length, seq_length; auto).
    rewrite (map_nth (fun i => map (jac dims coords (fp_dIndices s) i) (seq 0 n))), seq_nth by auto.
    apply (nth_ext _ _ 0 0); rewrite map_length, seq_length; [symmetry; apply row_length; auto; lia|].
    intros j Hj. rewrite seq_map_nth by auto. apply (jac_affine dims coords c A); auto. }
  rewrite EJ in Hrun. set (r := map _ (seq 0 n)) in Hrun.
  assert (Lr : length r = n) by (unfold r; rewrite map_length, seq_length; reflexivity).
  assert (LJ : length (concat A) = (n * n)%nat) by (rewrite (concat_length A n), LA by auto; reflexivity).
  destruct (ls_square_correct g n HG Hn sv (concat A) r W LJ Lr) as (info' & sv'' & Hrun' & W' & HS).
  rewrite Hrun in Hrun'. injection Hrun' as <- <-.
  destruct (HS _ eq_refl) as (H1 & H2 & _). specialize (H2 (invertible_rows n A LA FA HInv)).
  assert (NZ : exists k, (k < n * n)%nat /\ nth k (concat A) 0 <> 0).
  { destruct HInv as (B & HAB & _). specialize (HAB 0%nat 0%nat Hn Hn). rewrite Nat.eqb_refl in HAB.
    assert (NE : ~ (forall j, (j < n)%nat -> entry A 0 j = 0)).
    { intros C. rewrite (rsum_ext n _ (fun _ => 0)), rsum_zero' in HAB; [lra|].
      intros j Hj. rewrite C by auto. ring. }
    assert (DEC : forall m, (forall j, (j < m)%nat -> entry A 0 j = 0) \/ exists j, (j < m)%nat /\ entry A 0 j <> 0).
    { induction m as [|m [IH|(j & Hj & IH)]].
      - left. intros; lia.
      - destruct (Req_EM_T (entry A 0 m) 0).
        + left. intros j Hj. destruct (Nat.eq_dec j m); [subst; auto|apply IH; lia].
        + right. exists m. split; auto.
      - right. exists j. split; auto. }
    destruct (DEC n) as [C|(j & Hj & Hne)]; [contradiction|]. exists (0 * n + j)%nat. split; [nia|].
    rewrite nth_concat by (auto; lia). exact Hne. }
  specialize (H1 H2 NZ).
  assert (Lx := in_grid_length _ _ Hx). assert (Lt := in_grid_length _ _ Hts). fold n in Lx, Lt.
  set (y := ls_getSolution sv') in *.
  assert (Y : forall i, (i < n)%nat -> nth i y 0 = nth i ts 0 - nth i (fp_dIndices s) 0).
  { assert (Y0 : forall i, (i < n)%nat -> nth i y 0 - (nth i ts 0 - nth i (fp_dIndices s) 0) = 0).
    { apply (invertible_inj n A (fun i => nth i y 0 - (nth i ts 0 - nth i (fp_dIndices s) 0)) HInv).
      intros i Hi. specialize (H1 i Hi). unfold mat_vec in H1.
      unfold r in H1. rewrite seq_map_nth in H1 by auto.
      rewrite (position_affine dims coords c A), HT in H1 by auto.
      rewrite !(dot_rsum n) in H1 by (auto; apply row_length; auto; lia).
      rewrite (rsum_ext n _ (fun j => nth (i * n + j) (concat A) 0 * nth j y 0 -
         (entry A i j * nth j ts 0 - entry A i j * nth j (fp_dIndices s) 0))).
      2:{ intros j Hj. rewrite nth_concat by (auto; lia). ring. }
      rewrite rsum_minus, rsum_minus, H1. unfold entry. ring. }
    intros i Hi. specialize (Y0 i Hi). lra. }
  rewrite addsteps in Hxs by (auto; unfold y, ls_getSolution; destruct W' as (_ & _ & _ & _ & _ & -> & _); lia).
  injection Hxs as <-.
  assert (EX : map (fun i => nth i (fp_dIndices s) 0 + nth i y 0) (seq 0 n) = ts).
  { apply (nth_ext _ _ 0 0); rewrite map_length, seq_length; [auto|].
    intros i Hi. rewrite seq_map_nth by auto. rewrite Y by auto. ring. }
  rewrite EX in Hd. rewrite truncate_id in Hd; auto; [|apply HD].
  split; auto. split; auto.
  assert (E0 : fp_getError s' = Ret 0).
  { rewrite (getError_R dims coords) by auto. f_equal. unfold distance.
    rewrite (rsum_ext _ _ (fun _ => 0)), rsum_zero'; [apply sqrt_0|].
    intros i Hi. rewrite Hd, ET, Hpos by auto. ring. }
  split; auto.
  intros Hm Htol. rewrite E0 in EE. injection EE as <-. rewrite HE in *. rewrite HI in *.
  destruct Hc as [(_ & C & _)|[(_ & _ & C & _)|[(C & _)|(_ & _ & _ & C & _)]]]; auto.
  - rewrite Er in C. apply andb_true_iff in C. destruct C as [C _]. apply andb_true_iff in C. destruct C as [_ C]. discriminate.
  - lia.
  - apply Rltb_false in C. lra.
Qed.
