(** Weighted sums and node interpolation in IEEE double arithmetic. *)
From Coq Require Import ZArith List Bool Reals Lra Lia Floats.SpecFloat.
From Flocq Require Import Core BinarySingleNaN.
From Verif Require Import Base Num NumR NumF M_LinearSolve M_FindPoint M_SideIterator M_NodeInterp S_Grid S_Interp
  L_LinearSolve L_Interp L_FindPoint L_FindPointR L_FindPointA L_FindPointB L_FindPointG L_NodeInterp L_NodeInterpR L_Float L_FloatOps L_FindPointF L_FindOverlapF.
Import ListNotations.
Open Scope R_scope.

(** ** A weighted sum *)
(** The exact sum of rounded weights times rounded data. *)
Definition exact_sum (iw : list (Z * spec_float)) (field : list spec_float) : R :=
  lsum (map (fun kw => fval (snd kw) * fval (nth (Z.to_nat (fst kw)) field n0)) iw).

(** Error of one term and one addition, for data up to [M]. *)
Definition term_error (M : R) : R := 4 * uround * M + 3 * etiny.

Lemma term_error_pos : forall M, 0 <= M -> 0 <= term_error M.
Proof. intros M H. assert (P := etiny_pos). unfold term_error, uround. lra. Qed.

Lemma etiny_lt : etiny < / 1152921504606846976.
Proof. assert (S := etiny_small). assert (P := etiny_pos). unfold uround in S. lra. Qed.

Lemma big_bound : forall M x, 0 <= M <= bpow radix2 900 -> Rabs x <= 4 * M + 4 -> Rabs x <= bpow radix2 1000.
Proof.
  intros M x H B. eapply Rle_trans; [exact B|].
  assert (G : bpow radix2 1000 = bpow radix2 100 * bpow radix2 900) by (rewrite <- bpow_plus; reflexivity).
  assert (G1 : 1 <= bpow radix2 900) by (change 1 with (bpow radix2 0); apply bpow_le; lia).
  assert (G2 : 8 <= bpow radix2 100) by (change 8 with (bpow radix2 3); apply bpow_le; lia).
  rewrite G. apply Rle_trans with (8 * bpow radix2 900); [lra|]. apply Rmult_le_compat_r; lra.
Qed.

Lemma fold_close : forall field M, Forall dbl field -> (forall f, In f field -> Rabs (fval f) <= M) -> 0 <= M <= bpow radix2 900 ->
  forall (l : list (Z * spec_float)) acc s j,
  (forall k w, In (k, w) l -> (0 <= k < Z.of_nat (length field))%Z /\ unit_dbl w) -> dbl acc -> Rabs (fval acc - s) <= INR j * term_error M ->
  Rabs s + M * lsum (map (fun kw => fval (snd kw)) l) <= 2 * M -> (Z.of_nat (j + length l) <= 2147483648)%Z ->
  exists r, foldM (fun res kw => let! f := vget field (fst kw) in Ret (nadd res (nmul (snd kw) f))) l acc = Ret r /\ dbl r /\
    Rabs (fval r - (s + exact_sum l field)) <= INR (j + length l) * term_error M.
Proof.
  intros field M DF BF HM. induction l as [|[k w] l IH]; intros acc s j H DA EA B J; cbn [foldM].
  - exists acc. split; auto. split; auto. unfold exact_sum. cbn [map lsum length]. rewrite Rplus_0_r, Nat.add_0_r. exact EA.
  - destruct (H k w (or_introl eq_refl)) as [Hk [Dw Uw]]. cbn [fst snd].
    rewrite (vget_nth field k n0 Hk). cbn [bind]. set (f := nth (Z.to_nat k) field n0).
    assert (IF : In f field) by (apply nth_In; lia). assert (Df : dbl f) by (rewrite Forall_forall in DF; auto). assert (Bf := BF f IF).
    assert (P := etiny_pos). assert (PL := etiny_lt).
    assert (LP : 0 <= lsum (map (fun kw => fval (snd kw)) l)).
    { assert (Q : forall k w, In (k, w) l -> unit_dbl w) by (intros k' w' I; apply (H k' w'); right; auto). clear - Q. induction l as [|[k w] l IH]; cbn [map lsum]; [lra|].
      destruct (Q k w (or_introl eq_refl)) as [_ U]. assert (0 <= lsum (map (fun kw => fval (snd kw)) l)) by (apply IH; intros; eapply Q; right; eauto). cbn [snd]. lra. }
    cbn [map lsum snd] in B.
    assert (WF : Rabs (fval w * fval f) <= M * fval w) by (rewrite Rabs_mult, (Rabs_pos_eq (fval w)) by lra; rewrite Rmult_comm; apply Rmult_le_compat_r; lra).
    assert (WM : M * fval w <= M) by (rewrite <- (Rmult_1_r M) at 2; apply Rmult_le_compat_l; lra).
    assert (W0 : 0 <= M * fval w) by (apply Rmult_le_pos; lra). assert (L0 : 0 <= M * lsum (map (fun kw => fval (snd kw)) l)) by (apply Rmult_le_pos; lra).
    rewrite Rmult_plus_distr_l in B.
    destruct (f_mul w f Dw Df) as [Dp Vp]; [apply (big_bound M); [lra|]; lra|].
    assert (Ep := rnd_error (fval w * fval f)). rewrite <- Vp in Ep.
    assert (Ep' : Rabs (fval (nmul w f) - fval w * fval f) <= uround * M + etiny).
    { eapply Rle_trans; [exact Ep|]. apply Rplus_le_compat_r. apply Rmult_le_compat_l; [unfold uround; lra|]. lra. }
    assert (JB : INR j * term_error M <= M / 1048576 + 6442450944 * etiny).
    { assert (JJ : INR j <= 2147483648) by (rewrite INR_IZR_INZ; apply IZR_le; cbn [length] in J; lia).
      apply Rle_trans with (2147483648 * term_error M); [apply Rmult_le_compat_r; [apply term_error_pos; lra|auto]|]. unfold term_error, uround. lra. }
    assert (SB : Rabs (fval acc + fval (nmul w f)) <= 2 * M + (M / 1048576 + 6442450944 * etiny) + (uround * M + etiny)).
    { replace (fval acc + fval (nmul w f)) with ((fval acc - s) + (fval (nmul w f) - fval w * fval f) + (s + fval w * fval f)) by ring.
      eapply Rle_trans; [apply Rabs_triang|]. eapply Rle_trans; [apply Rplus_le_compat_r, Rabs_triang|].
      assert (T := Rabs_triang s (fval w * fval f)). lra. }
    destruct (f_add acc (nmul w f) DA Dp) as [Ds Vs]; [apply (big_bound M); [lra|]; eapply Rle_trans; [exact SB|]; unfold uround; lra|].
    assert (Es := rnd_error (fval acc + fval (nmul w f))). rewrite <- Vs in Es.
    assert (Es' : Rabs (fval (nadd acc (nmul w f)) - (fval acc + fval (nmul w f))) <= uround * (2 * M + (M / 1048576 + 6442450944 * etiny) + (uround * M + etiny)) + etiny).
    { eapply Rle_trans; [exact Es|]. apply Rplus_le_compat_r. apply Rmult_le_compat_l; [unfold uround; lra|exact SB]. }
    destruct (IH (nadd acc (nmul w f)) (s + fval w * fval f) (S j)) as (r & E & Dr & Er); auto.
    + intros k' w' I. apply H. right. auto.
    + replace (fval (nadd acc (nmul w f)) - (s + fval w * fval f)) with
        ((fval (nadd acc (nmul w f)) - (fval acc + fval (nmul w f))) + (fval (nmul w f) - fval w * fval f) + (fval acc - s)) by ring.
      eapply Rle_trans; [apply Rabs_triang|]. eapply Rle_trans; [apply Rplus_le_compat_r, Rabs_triang|].
      rewrite S_INR. rewrite Rmult_plus_distr_r, Rmult_1_l. set (e := INR j * term_error M) in *. unfold term_error.
      eapply Rle_trans; [apply Rplus_le_compat; [apply Rplus_le_compat; [exact Es'|exact Ep']|exact EA]|]. clearbody e. unfold uround. lra.
    + assert (T := Rabs_triang s (fval w * fval f)). lra.
    + cbn [length] in J. lia.
    + exists r. split; auto. split; auto. replace (j + length ((k, w) :: l))%nat with (S j + length l)%nat by (cbn [length]; lia).
      unfold exact_sum in *. cbn [map lsum fst snd]. fold f. rewrite <- Rplus_assoc. exact Er.
Qed.

Theorem weighted_F : forall iw field M, Forall dbl field -> (forall f, In f field -> Rabs (fval f) <= M) -> 0 <= M <= bpow radix2 900 ->
  (forall k w, In (k, w) iw -> (0 <= k < Z.of_nat (length field))%Z /\ unit_dbl w) -> lsum (map (fun kw => fval (snd kw)) iw) <= 2 ->
  (Z.of_nat (length iw) <= 2147483648)%Z ->
  exists r, weighted iw field = Ret r /\ dbl r /\ Rabs (fval r - exact_sum iw field) <= INR (length iw) * term_error M.
Proof.
  intros iw field M DF BF HM H L J. destruct zero_val as [Dz Vz].
  destruct (fold_close field M DF BF HM iw n0 0 0 H Dz) as (r & E & D & B); auto.
  - rewrite Vz. cbn [INR]. rewrite Rminus_0_r, Rabs_R0. lra.
  - rewrite Rabs_R0, Rplus_0_l, Rmult_comm. apply Rmult_le_compat_r; lra.
  - exists r. split; [exact E|]. split; [auto|]. rewrite Rplus_0_l in B. exact B.
Qed.

(** ** The interpolation in a cell *)
Lemma lsum_close : forall {A} (l : list A) f g e, (forall a, In a l -> Rabs (f a - g a) <= e) -> Rabs (lsum (map f l) - lsum (map g l)) <= INR (length l) * e.
Proof.
  intros A. induction l as [|a l IH]; intros f g e H; cbn [map lsum length].
  - unfold Rminus. rewrite Rplus_opp_r, Rabs_R0. simpl. lra.
  - rewrite S_INR. replace (f a + lsum (map f l) - (g a + lsum (map g l))) with ((f a - g a) + (lsum (map f l) - lsum (map g l))) by ring.
    eapply Rle_trans; [apply Rabs_triang|]. assert (H1 := H a (or_introl eq_refl)). assert (H2 := IH f g e (fun x I => H x (or_intror I))). lra.
Qed.

Lemma allbits_len : forall n, Z.of_nat (length (allbits n)) = (2 ^ Z.of_nat n)%Z.
Proof. intros n. unfold allbits, range. rewrite map_length, zseq_length. apply Z2Nat.id. apply Z.pow_nonneg. lia. Qed.

(** The exact value: the multilinear interpolation of the stored values. *)
Definition exact_interp (dims : list Z) (xs : list R) (field : list spec_float) : R :=
  multilin dims xs (fun v => fval (nth (Z.to_nat (flat dims v)) field n0)).

Definition interp_error (n : nat) (M : R) : R := IZR (2 ^ Z.of_nat n) * (INR (n + 1) * bpow radix2 (-51) * M + 3 * etiny).

Theorem interp_F : forall dims (s : fp (T:=spec_float)) xs field M, grid_ok dims -> fp_holds dims s -> in_gridF dims xs ->
  Z.of_nat (length field) = grid_size dims -> Forall dbl field -> (forall f, In f field -> Rabs (fval f) <= M) -> M <= bpow radix2 900 ->
  exists r, fp_interp s xs field = Ret r /\ dbl r /\ Rabs (fval r - exact_interp dims (map fval xs) field) <= interp_error (length dims) M.
Proof.
  intros dims s xs field M Hok Hh Hx LF DF BF MB.
  assert (HL := grid_ok_length _ Hok). assert (R := dims_range dims Hok).
  assert (M0 : 0 <= M).
  { destruct field as [|f field]; [exfalso|apply Rle_trans with (Rabs (fval f)); [apply Rabs_pos|apply BF; left; auto]].
    cbn in LF. clear - Hok LF. assert (G : (1 <= grid_size dims)%Z); [|lia]. destruct Hok as [F _]. clear LF.
    induction F; cbn [grid_size]; nia. }
  destruct (weights_held dims s xs Hok Hh Hx) as (c & iw & EW & _ & _ & Len & WP & _ & WS).
  assert (PL : (2 ^ Z.of_nat (length dims) <= 2 ^ 31)%Z) by (apply Z.pow_le_mono_r; lia).
  assert (NL : INR (length dims) <= 31) by (replace 31 with (INR 31) by (simpl; lra); apply le_INR; lia).
  destruct (weighted_F iw field M DF BF ltac:(lra)) as (r & E & D & B).
  - intros k w I. destruct (WP k w I) as (K & Dw & Uw & _). split; [lia|]. split; auto.
  - apply Rabs_le_inv in WS. assert (Q : INR (length dims) * bpow radix2 (-52) <= 1); [|lra].
    apply Rle_trans with (31 * bpow radix2 (-52)); [apply Rmult_le_compat_r; [apply bpow_ge_0|auto]|]. simpl. lra.
  - lia.
  - exists r. unfold fp_interp. rewrite EW. cbn [bind]. split; [exact E|]. split; auto.
    rewrite (weights_F dims) in EW by auto. injection EW as <-.
    unfold exact_interp. rewrite <- (lsum_multilin dims (map fval xs)) by (try apply grid_values; auto; apply Hok).
    unfold exact_sum in B. rewrite map_map in B. cbn [fst snd] in B. rewrite map_length in B, Len.
    set (S1 := lsum _) in B. set (S2 := lsum _).
    assert (C : Rabs (S1 - S2) <= INR (length (allbits (length dims))) * (INR (length dims) * bpow radix2 (-51) * M)).
    { apply lsum_close. intros b Hb. apply allbits_in in Hb. destruct Hb as [Lb Fb]. fold (fcells dims xs).
      assert (U1 : unit_dbl n1) by (destruct one_val as [A1 A2]; split; auto; rewrite A2; lra).
      destruct (pw_close dims xs b n1 1 0 R Hx Lb Fb U1 ltac:(lra)) as [_ C].
      { destruct one_val as [_ ->]. unfold Rminus. rewrite Rplus_opp_r, Rabs_R0. lra. }
      rewrite Rmult_1_l, Rplus_0_l in C. rewrite <- Rmult_minus_distr_r, Rabs_mult. apply Rmult_le_compat; try apply Rabs_pos.
      - eapply Rle_trans; [exact C|]. apply Rmult_le_compat_l; [apply pos_INR|].
        assert (Se := etiny_small). assert (Pe := etiny_pos). replace (bpow radix2 (-51)) with (4 * uround) by (unfold uround; simpl; lra). unfold uround in *. lra.
      - assert (Hn : is_node dims (zadd (fcells dims xs) b)).
        { apply (is_corner_node _ (fcells dims xs) _ (map fval xs)); [apply cells_spec; [apply Hok|apply grid_values; auto]|]. apply zadd_corner; auto.
          destruct (cells_spec dims (map fval xs) (proj1 Hok) (grid_values dims xs Hx)) as [CS _]. apply Forall2_length in CS. rewrite Lb. exact CS. }
        apply BF. apply nth_In. assert (FB := flat_bounds dims _ Hn). lia. }
    assert (EL : INR (length (allbits (length dims))) = IZR (2 ^ Z.of_nat (length dims))) by (rewrite INR_IZR_INZ, allbits_len; reflexivity).
    rewrite EL in *. replace (fval r - S2) with ((fval r - S1) + (S1 - S2)) by ring.
    eapply Rle_trans; [apply Rabs_triang|]. eapply Rle_trans; [apply Rplus_le_compat; [exact B|exact C]|].
    rewrite <- Rmult_plus_distr_l. unfold interp_error. apply Rmult_le_compat_l; [apply IZR_le; apply Z.pow_nonneg; lia|].
    unfold term_error. rewrite plus_INR. replace (bpow radix2 (-51)) with (4 * uround) by (unfold uround; simpl; lra). simpl (INR 1). right. ring.
Qed.

(** A field close to an affine function of the indices. *)
Lemma multilin_near : forall dims xs f g e, Forall (fun d => 2 <= d)%Z dims -> in_grid dims xs -> 
  (forall v, is_node dims v -> Rabs (f v - g v) <= e) -> Rabs (multilin dims xs f - multilin dims xs g) <= e.
Proof.
  intros dims xs f g e Hd Hx H. rewrite <- !(lsum_multilin dims xs) by auto.
  assert (S1 : lsum (map (fun b => hat xs (zadd (cells dims xs) b) * 1) (allbits (length dims))) = 1) by (rewrite (lsum_multilin dims xs (fun _ => 1)) by auto; apply multilin_const).
  assert (CS := cells_spec dims xs Hd Hx).
  assert (P : forall b, In b (allbits (length dims)) -> 0 <= hat xs (zadd (cells dims xs) b) /\ Rabs (f (zadd (cells dims xs) b) - g (zadd (cells dims xs) b)) <= e).
  { intros b Hb. apply allbits_in in Hb. destruct Hb as [L F]. split; [apply (hat_unit dims xs b); auto|]. apply H. apply (is_corner_node _ (cells dims xs) _ xs); auto.
    apply zadd_corner; auto. destruct CS as [CS _]. apply Forall2_length in CS. rewrite L. exact CS. }
  apply Rle_trans with (e * lsum (map (fun b => hat xs (zadd (cells dims xs) b) * 1) (allbits (length dims)))); [|rewrite S1; lra].
  generalize dependent (allbits (length dims)). intros l _ P. induction l as [|b l IH]; cbn [map lsum].
  - unfold Rminus. rewrite Rplus_opp_r, Rabs_R0. lra.
  - destruct (P b (or_introl eq_refl)) as [P1 P2]. assert (I := IH (fun x Ix => P x (or_intror Ix))).
    set (h := hat _ _) in *. set (F := f _) in *. set (G := g _) in *.
    replace (h * F + _ - (h * G + _)) with (h * (F - G) + (lsum (map (fun b => hat xs (zadd (cells dims xs) b) * f (zadd (cells dims xs) b)) l) - lsum (map (fun b => hat xs (zadd (cells dims xs) b) * g (zadd (cells dims xs) b)) l))) by ring.
    eapply Rle_trans; [apply Rabs_triang|]. rewrite Rmult_1_r, Rmult_plus_distr_l. apply Rplus_le_compat; auto.
    rewrite Rabs_mult, (Rabs_pos_eq h) by auto. rewrite Rmult_comm. apply Rmult_le_compat_r; auto.
Qed.

Theorem affine_ieee : forall s0 s dims per coords, grid_data dims coords -> fp_setGrid s0 dims per coords = Ret s ->
  forall field M c0 cs e, Z.of_nat (length field) = grid_size dims -> Forall dbl field -> (forall f, In f field -> Rabs (fval f) <= M) -> M <= bpow radix2 900 ->
  (forall v, is_node dims v -> Rabs (fval (nth (Z.to_nat (flat dims v)) field n0) - (c0 + dot cs (map IZR v))) <= e) ->
  forall xs, in_gridF dims xs ->
  exists r, fp_interp s xs field = Ret r /\ dbl r /\ Rabs (fval r - (c0 + dot cs (map fval xs))) <= e + interp_error (length dims) M.
Proof.
  intros s0 s dims per coords HD HS field M c0 cs e LF DF BF MB H xs Hx.
  destruct (setGrid_ok s0 dims per coords HD) as (s' & E & Hh & _). rewrite HS in E. injection E as <-.
  destruct (interp_F dims s xs field M (proj1 (proj2 HD)) Hh Hx LF DF BF MB) as (r & E & D & B). exists r. split; auto. split; auto.
  assert (G := grid_values dims xs Hx). assert (F2 : Forall (fun d => 2 <= d)%Z dims) by apply HD.
  assert (C := multilin_near dims (map fval xs) _ _ e F2 G H). rewrite multilin_affine in C by auto. fold (exact_interp dims (map fval xs) field) in C.
  replace (fval r - (c0 + dot cs (map fval xs))) with ((fval r - exact_interp dims (map fval xs) field) + (exact_interp dims (map fval xs) field - (c0 + dot cs (map fval xs)))) by ring.
  eapply Rle_trans; [apply Rabs_triang|]. lra.
Qed.

(** ** Where the weights come from *)
Lemma fok_trunc : forall pers dims xs, Forall fok pers -> Forall fok xs -> Forall fok (fp_truncate pers dims xs).
Proof.
  induction pers as [|p pers IH]; intros [|d dims] [|x xs] P X; cbn [fp_truncate]; auto.
  apply Forall_cons_iff in P, X. destruct P as [P1 P2], X as [X1 X2]. constructor; [|apply IH; auto].
  unfold fp_truncate1. cbv zeta. assert (Z0 : fok n0) by reflexivity.
  set (y := if neq p n0 then x else nfmod (nadd (nfmod x p) p) p).
  assert (Y : fok y) by (unfold y; destruct (neq p n0); auto; apply fok_fmod; auto; apply fok_add; auto; apply fok_fmod; auto). clearbody y.
  set (z := if nlt y n0 then n0 else y). assert (Z : fok z) by (unfold z; destruct (nlt y n0); auto). clearbody z.
  match goal with |- fok (if ?c then _ else _) => destruct c end; auto. apply fok_ofZ.
Qed.

Lemma castable_finite : forall x : spec_float, fok x -> castable x -> dbl x.
Proof.
  intros x V (z & E). split; auto. destruct x as [s|s| |s m e]; auto; discriminate E.
Qed.

Lemma trunc_axis : forall p d x, (2 <= d <= 2 ^ 31 - 1)%Z -> fok p -> fok x -> castable (fp_truncate1 p d x) -> on_axis d (fp_truncate1 p d x).
Proof.
  intros p d x Hd P X C. assert (F : dbl (fp_truncate1 p d x)).
  { apply castable_finite; auto. assert (Q := fok_trunc [p] [d] [x] ltac:(auto) ltac:(auto)). cbn [fp_truncate] in Q. apply Forall_inv in Q. exact Q. }
  revert F. clear C. unfold fp_truncate1. cbv zeta. destruct (dim_val d Hd) as [DD DV]. destruct zero_val as [ZD ZV]. assert (B := dim_R d Hd).
  set (y := if neq p n0 then x else nfmod (nadd (nfmod x p) p) p). clearbody y.
  destruct (nlt y n0) eqn:E1.
  - destruct (nlt (nofZ (wrap64 (d - 1))) n0) eqn:E2; intros F; split; auto; [rewrite DV; lra|rewrite ZV; lra].
  - destruct (nlt (nofZ (wrap64 (d - 1))) y) eqn:E2; intros F; split; auto; [rewrite DV; lra|].
    rewrite f_lt in E1, E2 by auto. rewrite ZV in E1. rewrite DV in E2. apply Rltb_false in E1, E2. lra.
Qed.

Lemma trunc_grid : forall dims pers xs, Forall (fun d => 2 <= d <= 2 ^ 31 - 1)%Z dims -> length pers = length dims -> length xs = length dims ->
  Forall fok pers -> Forall fok xs -> Forall castable (fp_truncate pers dims xs) -> in_gridF dims (fp_truncate pers dims xs).
Proof.
  induction dims as [|d dims IH]; intros [|p pers] [|x xs] R L1 L2 P X C; try discriminate; [constructor|].
  cbn [fp_truncate] in *. apply Forall_cons_iff in R, P, X, C. constructor; [apply trunc_axis; tauto|]. apply IH; tauto || (cbn [length] in *; lia).
Qed.

Lemma nodeWeight_cast : forall dims prods nprods (xs : list spec_float) j fl w r, length prods = length dims -> length nprods = length dims -> length xs = length dims ->
  fp_nodeWeight dims prods nprods xs j fl w = Ret r -> Forall castable xs.
Proof.
  induction dims as [|d dims IH]; intros [|p prods] [|q nprods] [|x xs] j fl w r L1 L2 L3 H; try discriminate; [constructor|].
  cbn [fp_nodeWeight] in H. apply bind_ret_inv in H. destruct H as (lo & HL & H). destruct (q =? 0)%Z; [discriminate|].
  constructor; [|eapply IH; [| | |exact H]; cbn [length] in *; lia].
  unfold fp_loCorner in HL. apply bind_ret_inv in HL. destruct HL as (z & HZ & _). exists z. exact HZ.
Qed.

Lemma mkProd_length : forall dims, length (fp_mkProd dims) = length dims.
Proof.
  induction dims as [|d dims IH]; auto. cbn [fp_mkProd]. destruct dims as [|e dims]; [reflexivity|].
  destruct (fp_mkProd (e :: dims)) as [|p ps] eqn:E; [discriminate IH|]. cbn [length] in *. lia.
Qed.

Lemma mkNodeProd_length : forall n, length (fp_mkNodeProd n) = n.
Proof. induction n as [|n IH]; auto. cbn [fp_mkNodeProd]. destruct (fp_mkNodeProd n); cbn [length] in *; lia. Qed.

Lemma weights_cast : forall dims (s : fp (T:=spec_float)) xs iw, fp_holds dims s -> length xs = length dims ->
  fp_getSrcIndicesAndWeights s xs = Ret iw -> Forall castable xs.
Proof.
  intros dims s xs iw (H1 & H2 & H3) L E. unfold fp_getSrcIndicesAndWeights in E. rewrite H1, H2, H3 in E.
  apply mapM_inv in E. assert (G := allbits_len (length dims)).
  assert (P : (1 <= 2 ^ Z.of_nat (length dims))%Z) by (assert (Q := Z.pow_pos_nonneg 2 (Z.of_nat (length dims))); lia).
  unfold range in E. destruct (Z.to_nat (2 ^ Z.of_nat (length dims))) as [|k] eqn:K; [lia|]. 
  inversion E as [|j r js rs Ej _ Ejs].
  apply (nodeWeight_cast dims (fp_mkProd dims) (fp_mkNodeProd (length dims)) xs j 0 n1 r); auto using mkProd_length, mkNodeProd_length.
  rewrite Ejs. exact Ej.
Qed.

Lemma vget_In : forall {A} (l : list A) i a, vget l i = Ret a -> In a l.
Proof. intros A l i a H. apply vget_inv in H. destruct H as [_ H]. eapply nth_error_In. exact H. Qed.

Lemma next_fok : forall g s code s', gives_doubles g -> fp_next g s = Ret (code, s') -> Forall fok (fp_period s) -> Forall fok (fp_dIndices s) ->
  Forall fok (fp_dIndices s') /\ (code <> (-3)%Z -> exists xs, length xs = length (fp_dims s) /\ Forall fok xs /\ fp_dIndices s' = fp_truncate (fp_period s) (fp_dims s) xs).
Proof.
  intros g s code s' V H P D. apply next_inv in H. destruct H as [(-> & -> & _)|(_ & jr & sv & info & sv' & xs & err & _ & _ & HL & HX & HI & _)]; [split; auto; congruence|].
  assert (FS : Forall fok (ls_getSolution sv')).
  { unfold ls_run in HL. apply bind_ret_inv in HL. destruct HL as (s1 & _ & HL). apply bind_ret_inv in HL. destruct HL as (s2 & _ & HL).
    unfold ls_solve in HL. destruct (ls_mat s2); [discriminate|]. destruct (ls_x s2) as [|x0 x1]; [discriminate|]. injection HL as _ <-. unfold ls_getSolution. cbn [ls_x].
    apply Forall_forall. intros x [<-|Hx]; [apply V|]. apply in_map_iff in Hx. destruct Hx as (k & <- & _). apply V. }
  assert (LX := mapM_length _ _ _ HX). rewrite zseq_length in LX.
  assert (FX : Forall fok xs).
  { apply mapM_inv in HX. clear - HX FS D. induction HX as [|i x is xs E _ IH]; constructor; auto.
    apply bind_ret_inv in E. destruct E as (a & Ea & E). apply bind_ret_inv in E. destruct E as (b & Eb & E). injection E as <-.
    apply fok_add; [rewrite Forall_forall in D; apply D|rewrite Forall_forall in FS; apply FS]; eapply vget_In; eauto. }
  split; [rewrite HI; apply fok_trunc; auto|]. intros _. exists xs. auto.
Qed.

Lemma loop_fok : forall g fuel s r, gives_doubles g -> Forall fok (fp_period s) -> Forall fok (fp_dIndices s) -> fp_loop g fuel s = Ret (Some r) ->
  exists s0, fp_next g s0 = Ret r /\ same_grid s s0 /\ Forall fok (fp_dIndices s0).
Proof.
  intros g. induction fuel as [|fuel IH]; intros s r V P D H; [discriminate|]. cbn [fp_loop] in H.
  apply bind_ret_inv in H. destruct H as ([c s1] & HN & H). cbn [fst snd] in H. destruct (Z.eqb_spec c 0) as [->|Nc].
  - assert (G := next_same_grid _ _ _ _ HN). destruct (next_fok g s 0 s1 V HN P D) as [D1 _].
    assert (P1 : fp_period s = fp_period s1) by apply G.
    destruct (IH s1 r V ltac:(rewrite <- P1; auto) D1 H) as (s0 & E & G' & D0). exists s0. split; auto. split; auto. eapply same_grid_trans; eauto.
  - injection H as <-. exists s. split; auto. split; [apply same_grid_refl|auto].
Qed.

Lemma find_fok : forall g f guess target f', gives_doubles g -> Forall fok (fp_period f) -> Forall fok guess ->
  ni_findTarget g f guess target = Ret (0%Z, f') ->
  exists f0, fp_next g f0 = Ret (1%Z, f') /\ same_grid f f0 /\ Forall fok (fp_dIndices f0).
Proof.
  intros g f guess target f' V P G H. unfold ni_findTarget in H.
  apply bind_ret_inv in H. destruct H as (s & HR & H). apply bind_ret_inv in H. destruct H as ([c r] & HS & H).
  unfold fp_reset in HR. apply bind_ret_inv in HR. destruct HR as (d & Hd & HR).
  apply bind_ret_inv in HR. destruct HR as (t & Ht & HR). injection HR as <-.
  set (s := mkFp _ _ _ _ _ _ _ _ _ _ _ _ _ _ _) in *.
  assert (SG : same_grid f s) by (repeat split).
  assert (FD : Forall fok (fp_dIndices s)).
  { cbn [s fp_dIndices]. apply mapM_inv in Hd. clear - Hd G. induction Hd; constructor; auto. rewrite Forall_forall in G. apply G. eapply vget_In; eauto. }
  unfold fp_search in HS. apply bind_ret_inv in HS. destruct HS as ([[c0 r0]|] & HL & HS).
  - injection HS as <- <-. destruct (loop_fok g _ s _ V P FD HL) as (s0 & E & G' & D0). exists s0.
    cbn [fst snd] in H. split; [|split; auto; eapply same_grid_trans; eauto].
    assert (C1 : c0 = 1%Z /\ f' = r0); [|destruct C1; subst; auto].
    assert (N0 : c0 <> 0%Z).
    { intros ->. clearbody s. clear - HL. revert HL. generalize (S (Z.to_nat (fp_nitermax s))). intros n. revert s. induction n as [|n IH]; intros s HL; [discriminate|].
      cbn [fp_loop] in HL. apply bind_ret_inv in HL. destruct HL as ([c1 s1] & _ & HL). cbn [fst snd] in HL. destruct (Z.eqb_spec c1 0); [eauto|]. congruence. }
    destruct (Z.ltb_spec 0 c0); [injection H as H2|injection H as H1 H2; congruence]. split; auto.
    apply next_inv in E. destruct E as [(-> & _)|(_ & jr & sv & info & sv' & xs & err & E)]; [lia|].
    destruct E as (_ & _ & _ & _ & _ & _ & _ & _ & _ & _ & _ & _ & [(-> & _)|[(-> & _)|[(-> & _)|(-> & _)]]]); lia.
  - exfalso. revert HL. apply loop_terminates; [lia|]. cbn [s fp_nitermax fp_iter]. lia.
Qed.

(** What is known of the weights of one node. *)
Definition near_convex (size : Z) (iw : list (Z * spec_float)) : Prop :=
  NoDup (map fst iw) /\ length iw = 4%nat /\ (forall k w, In (k, w) iw -> (0 <= k < size)%Z /\ unit_dbl w) /\
  Rabs (lsum (map (fun kw => fval (snd kw)) iw) - 1) <= bpow radix2 (-51).

Definition readyF (dims : list Z) (coords : list (list spec_float)) (f : fp (T:=spec_float)) : Prop :=
  fp_ready dims coords f /\ Forall fok (fp_period f).

Lemma readyF_twin : forall dims coords f f', readyF dims coords f -> twin f f' -> readyF dims coords f'.
Proof.
  intros dims coords f f' [A B] W. split; [eapply ready_twin; eauto|]. assert (E : fp_period f = fp_period f') by apply W. rewrite <- E. auto.
Qed.

Lemma found_weights : forall g f guess target f' d0 d1 coords iw, gives_doubles g -> readyF [d0; d1]%Z coords f -> Forall fok guess ->
  ni_findTarget g f guess target = Ret (0%Z, f') -> fp_getSrcIndicesAndWeights f' (fp_dIndices f') = Ret iw ->
  in_gridF [d0; d1]%Z (fp_dIndices f') /\ near_convex (d0 * d1) iw.
Proof.
  intros g f guess target f' d0 d1 coords iw V [(HD & Hh & Hc & Lp & So & It) P] G H E.
  destruct (find_fok g f guess target f' V P G H) as (f0 & HN & SG & D0).
  assert (P0 : fp_period f = fp_period f0) by apply SG. assert (DM : fp_dims f = fp_dims f0) by apply SG.
  destruct (next_fok g f0 1 f' V HN ltac:(rewrite <- P0; auto) D0) as [_ X]. destruct (X ltac:(discriminate)) as (xs & Lx & Fx & EI).
  assert (SG' := same_grid_trans _ _ _ SG (next_same_grid _ _ _ _ HN)).
  assert (Hh' : fp_holds [d0; d1]%Z f').
  { destruct Hh as (A & B & C). assert (Q1 : fp_dims f = fp_dims f') by apply SG'. assert (Q2 : fp_prodDims f = fp_prodDims f') by apply SG'.
    assert (Q3 : fp_nodeProdDims f = fp_nodeProdDims f') by apply SG'. unfold fp_holds. rewrite <- Q1, <- Q2, <- Q3. auto. }
  assert (DE : fp_dims f = [d0; d1]%Z) by apply Hh. rewrite <- DM, DE in EI, Lx. rewrite <- P0 in EI.
  assert (Hok : grid_ok [d0; d1]%Z) by apply HD. assert (R := dims_range _ Hok).
  assert (GI : in_gridF [d0; d1]%Z (fp_dIndices f')).
  { rewrite EI. apply trunc_grid; auto. rewrite <- EI. apply (weights_cast [d0; d1]%Z f' _ iw); auto. rewrite EI.
    clear - Lp Lx. destruct (fp_period f) as [|p [|q [|]]]; try discriminate Lp. destruct xs as [|x [|y [|]]]; try discriminate Lx. reflexivity. }
  split; auto.
  destruct (weights_held _ f' _ Hok Hh' GI) as (c & iw' & EW & _ & ND & Len & WP & _ & WS). rewrite E in EW. injection EW as <-.
  split; auto. split; [change (2 ^ Z.of_nat (length [d0; d1]%Z))%Z with 4%Z in Len; lia|]. split.
  - intros k w I. destruct (WP k w I) as (K & Dw & Uw & _). cbn [grid_size] in K. split; [lia|]. split; auto.
  - eapply Rle_trans; [exact WS|]. right. cbn [length]. simpl. lra.
Qed.

(** ** The weights of all nodes *)
Lemma sideGuess_fok : forall side c0 c1 guess, ni_sideGuess side c0 c1 = Ret guess -> Forall fok guess.
Proof.
  intros side c0 c1 guess H. unfold ni_sideGuess in H. repeat (apply bind_ret_inv in H; destruct H as (? & _ & H)). injection H as <-.
  assert (N2 : fok n2) by reflexivity. repeat constructor; apply fok_div; auto; apply fok_ofZ.
Qed.

Lemma retry_fok : forall g fuel it c0 c1 target f guess ier f' guess', ni_retry g fuel it c0 c1 target f guess = Ret (ier, f', guess') -> Forall fok guess -> Forall fok guess'.
Proof.
  intros g. induction fuel as [|fuel IH]; intros it c0 c1 target f guess ier f' guess' H G; cbn [ni_retry] in H; [injection H as <- <- <-; auto|].
  apply bind_ret_inv in H. destruct H as (side & _ & H). apply bind_ret_inv in H. destruct H as (g1 & HG & H). apply bind_ret_inv in H. destruct H as (r & _ & H).
  apply sideGuess_fok in HG. destruct (_ || _); [injection H as <- <- <-; auto|]. eapply IH; eauto.
Qed.

Lemma node_F : forall g dc c0 c1 f guess ws k f' guess' ws' d0 d1 coords, gives_doubles g -> readyF [d0; d1]%Z coords f -> Forall fok guess ->
  (forall j iw, In (j, iw) ws -> near_convex (d0 * d1) iw) ->
  ni_node g dc c0 c1 (f, guess, ws) k = Ret (f', guess', ws') ->
  readyF [d0; d1]%Z coords f' /\ Forall fok guess' /\ (forall j iw, In (j, iw) ws' -> near_convex (d0 * d1) iw).
Proof.
  intros g dc c0 c1 f guess ws k f' guess' ws' d0 d1 coords V RF G W H.
  assert (TW : twin f f').
  { apply node_twin in H; auto; destruct RF as [(A & (B & _) & _ & _ & C & _) _]; auto. rewrite B. discriminate. }
  split; [eapply readyF_twin; eauto|]. unfold ni_node in H.
  apply bind_ret_inv in H. destruct H as (x & _ & H). apply bind_ret_inv in H. destruct H as (y & _ & H).
  apply bind_ret_inv in H. destruct H as ([i1 f1] & HF & H). cbn [fst snd] in H. destruct (Z.eqb_spec i1 0) as [->|N].
  - apply bind_ret_inv in H. destruct H as (iw & HW & H). injection H as <- <- <-. split; auto.
    intros j w Hin. apply insert_in in Hin. destruct Hin as [[-> ->]|Hin]; eauto.
    apply (found_weights g f guess [x; y] f1 d0 d1 coords iw V RF G HF HW).
  - destruct (i1 =? -3)%Z; [injection H as <- <- <-; auto|].
    apply bind_ret_inv in H. destruct H as (sit & _ & H). apply bind_ret_inv in H. destruct H as ([[i2 f2] g2] & HR & H).
    apply retry_fok in HR; auto. destruct (i2 =? 0)%Z.
    + injection H as <- <- <-. auto.
    + apply bind_ret_inv in H. destruct H as (e & _ & H). injection H as <- <- <-. auto.
Qed.

Theorem compute_F : forall g (s s' : ni (T:=spec_float)) d0 d1 coords n dc, gives_doubles g -> readyF [d0; d1]%Z coords (ni_finder s) ->
  ni_src s = Some (d0, d1) -> ni_dst s = Some (n, dc) -> (0 <= n)%Z -> ni_computeWeights g s = Ret s' ->
  readyF [d0; d1]%Z coords (ni_finder s') /\ NoDup (map fst (ni_weights s')) /\
  forall k iw, In (k, iw) (ni_weights s') -> (0 <= k < n)%Z /\ near_convex (d0 * d1) iw /\
    located [nth 0 coords []; nth 1 coords []] (fp_tolpos (ni_finder s)) dc k iw.
Proof.
  intros g s s' d0 d1 coords n dc V RF ES ED Hn H. unfold ni_computeWeights in H. rewrite ES, ED in H.
  apply bind_ret_inv in H. destruct H as (e0 & _ & H). apply bind_ret_inv in H. destruct H as (e1 & _ & H).
  apply bind_ret_inv in H. destruct H as ([[f' g'] w'] & HF & H). injection H as <-. cbn [ni_finder ni_weights].
  assert (L0 : fok (lit 214423 100000)) by (vm_compute; reflexivity). assert (L1 : fok (lit 193265 100000)) by (vm_compute; reflexivity).
  set (guess := [ndiv (nofZ e0) (lit 214423 100000); ndiv (nofZ e1) (lit 193265 100000)]) in *.
  assert (G : Forall fok guess) by (repeat constructor; apply fok_div; auto; apply fok_ofZ).
  assert (I : readyF [d0; d1]%Z coords f' /\ Forall fok g' /\ forall j iw, In (j, iw) w' -> near_convex (d0 * d1) iw).
  { apply (foldM_inv (fun st => readyF [d0; d1]%Z coords (fst (fst st)) /\ Forall fok (snd (fst st)) /\ forall j iw, In (j, iw) (snd st) -> near_convex (d0 * d1) iw)) in HF; auto.
    - cbn [fst snd]. split; auto. split; auto. intros j iw [].
    - intros [[f1 g1] w1] k [[f2 g2] w2] (P1 & P2 & P3) _ HS. cbn [fst snd] in *. eapply node_F; eauto. }
  destruct I as (I1 & _ & I3). split; auto.
  destruct RF as [(F1 & (F2 & _) & F3 & _ & F4 & _) _]. assert (L2 : length coords = 2%nat) by apply F1. destruct coords as [|cx [|cy [|]]]; try discriminate.
  unfold range in HF. apply nodes_result with (cx := cx) (cy := cy) in HF; auto; try (rewrite F2; discriminate || reflexivity).
  destruct HF as (_ & [K1 K2] & L). rewrite Z2Nat.id in K1 by lia. split; auto. intros k iw Hin. split; [eauto|]. split; [eauto|]. cbn [nth]. auto.
Qed.

(** ** Histories of calls *)
Definition opF_ok (o : ni_op (T:=spec_float)) : Prop :=
  match o with NSetSrc d0 d1 _ _ c0 c1 => grid_data [d0; d1]%Z [c0; c1] | _ => True end.

Definition ni_invF (nit : Z) (tol : spec_float) (s : ni (T:=spec_float)) : Prop :=
  fp_nitermax (ni_finder s) = nit /\ fp_tolpos (ni_finder s) = tol /\ Forall fok (fp_period (ni_finder s)) /\
  match ni_dst s with None => True | Some (n, _) => (0 <= n)%Z end /\
  match ni_src s with None => True | Some (d0, d1) => exists coords, readyF [d0; d1]%Z coords (ni_finder s) end.

Lemma periods_fok : forall old dims per, Forall fok old -> Forall fok (fp_periods old dims per).
Proof.
  induction old as [|o old IH]; intros dims per H; [exact H|]. destruct dims as [|d ds]; [exact H|]. destruct per as [|p per]; [exact H|].
  apply Forall_cons_iff in H. destruct H as [H1 H2]. cbn [fp_periods]. constructor; [|apply IH; auto]. destruct (Z.eqb p 0); auto. apply fok_ofZ.
Qed.

Lemma resize_fok : forall old n, Forall fok old -> Forall fok (resize old n n0).
Proof.
  intros old n H. unfold resize. apply Forall_app. split.
  - revert n. induction H; intros [|n]; cbn [firstn]; constructor; auto.
  - apply Forall_forall. intros x Hx. apply repeat_spec in Hx. subst. reflexivity.
Qed.

Lemma run_invF : forall g nit tol ops s, gives_doubles g -> (nit <= int_max)%Z -> Forall opF_ok ops ->
  ni_run g ops (ni_new nit tol) = Ret s -> ni_invF nit tol s.
Proof.
  intros g nit tol ops s V Hn HO H. rewrite Forall_forall in HO. unfold ni_run in H.
  apply (foldM_inv (ni_invF nit tol)) in H; auto.
  - unfold ni_invF. cbn. repeat split; auto.
  - intros s1 o s2 (P1 & P2 & P3 & P4 & P5) Hin HS. apply HO in Hin.
    destruct o as [d0 d1 c0 c1|d0 d1 p0 p1 c0 c1|]; cbn [ni_step] in HS.
    + unfold ni_setDstGrid in HS. apply bind_ret_inv in HS. destruct HS as (? & _ & HS). apply bind_ret_inv in HS. destruct HS as (? & _ & HS).
      apply bind_ret_inv in HS. destruct HS as (cs & _ & HS). injection HS as <-. unfold ni_invF. cbn [ni_finder ni_dst ni_src].
      split; auto. split; auto. split; auto. split; auto. unfold wrap64. apply Z.mod_pos_bound. lia.
    + cbn [opF_ok] in Hin. destruct (setSrc_result _ _ _ _ _ _ _ _ Hin HS) as (A0 & A1 & A2 & A3 & A4 & A5 & A6 & A7 & A8).
      assert (FP : Forall fok (fp_period (ni_finder s2))).
      { destruct (setGrid_ok (ni_finder s1) [d0; d1]%Z [p0; p1] [c0; c1] Hin) as (f & E & _ & _ & _ & _ & _ & _ & _ & Pe & _). rewrite A0 in E. injection E as <-.
        rewrite Pe. apply periods_fok. apply resize_fok. auto. }
      unfold ni_invF. rewrite A5, A6, A7, A8. split; auto. split; auto. split; auto. split; auto. exists [c0; c1].
      split; auto. unfold fp_ready. rewrite A5, P1. tauto.
    + destruct (ni_src s1) as [[d0 d1]|] eqn:E1; [|unfold ni_computeWeights in HS; rewrite E1 in HS; discriminate].
      destruct P5 as (coords & RF). assert (RF' := RF). destruct RF' as [(F & (F2 & _) & _ & _ & F3 & _) _].
      apply compute_keeps in HS; auto; [|rewrite F2; discriminate].
      destruct HS as (A & B & C). unfold ni_invF. rewrite B, C, E1. assert (Q := readyF_twin _ _ _ _ RF A).
      split; [rewrite <- P1; symmetry; apply A|]. split; [rewrite <- P2; symmetry; apply A|]. split; [apply Q|]. split; auto. exists coords. auto.
Qed.

(** ** Values of the interpolated field *)
Lemma exact_sum_bounds : forall iw field lo hi, (forall k w, In (k, w) iw -> (0 <= k < Z.of_nat (length field))%Z /\ unit_dbl w) ->
  (forall f, In f field -> lo <= fval f <= hi) ->
  lo * lsum (map (fun kw => fval (snd kw)) iw) <= exact_sum iw field <= hi * lsum (map (fun kw => fval (snd kw)) iw).
Proof.
  intros iw field lo hi H B. unfold exact_sum. induction iw as [|[k w] iw IH]; cbn [map lsum fst snd]; [lra|].
  destruct (H k w (or_introl eq_refl)) as [Hk [_ U]]. assert (BB := B (nth (Z.to_nat k) field n0) ltac:(apply nth_In; lia)).
  assert (I := IH (fun k' w' Hin => H k' w' (or_intror Hin))). rewrite !Rmult_plus_distr_l.
  set (v := fval (nth _ _ _)) in *. set (W := fval w) in *.
  assert (Q1 : lo * W <= W * v) by (rewrite (Rmult_comm W); apply Rmult_le_compat_r; lra).
  assert (Q2 : W * v <= hi * W) by (rewrite (Rmult_comm W); apply Rmult_le_compat_r; lra). lra.
Qed.

Lemma weighted_near : forall size iw field lo hi M, near_convex size iw -> Z.of_nat (length field) = size -> Forall dbl field ->
  (forall f, In f field -> lo <= fval f <= hi) -> - M <= lo -> hi <= M -> M <= bpow radix2 900 ->
  exists r, weighted iw field = Ret r /\ dbl r /\ lo - (bpow radix2 (-48) * M + bpow radix2 (-1070)) <= fval r <= hi + (bpow radix2 (-48) * M + bpow radix2 (-1070)).
Proof.
  intros size iw field lo hi M (ND & L4 & W & S1) LF DF B Hlo Hhi HM.
  assert (W' : forall k w, In (k, w) iw -> (0 <= k < Z.of_nat (length field))%Z /\ unit_dbl w) by (intros k w I; rewrite LF; auto).
  assert (NE : exists k w, In (k, w) iw) by (destruct iw as [|[k w] l]; [discriminate|exists k, w; left; auto]). destruct NE as (k0 & w0 & I0).
  assert (LH : lo <= hi) by (destruct (W' k0 w0 I0) as [K _]; assert (Q := B (nth (Z.to_nat k0) field n0) ltac:(apply nth_In; lia)); lra).
  assert (M0 : 0 <= M) by lra.
  assert (AB : forall f, In f field -> Rabs (fval f) <= M) by (intros f I; apply Rabs_le; assert (Q := B f I); lra).
  apply Rabs_le_inv in S1. assert (U51 : bpow radix2 (-51) = 4 * uround) by (unfold uround; simpl; lra). rewrite U51 in S1.
  destruct (weighted_F iw field M DF AB ltac:(lra) W') as (r & E & D & C); [unfold uround in S1; lra|rewrite L4; simpl; lia|].
  exists r. split; auto. split; auto. rewrite L4 in C.
  assert (EB := exact_sum_bounds iw field lo hi W' B). set (Sw := lsum _) in *. set (X := exact_sum iw field) in *.
  assert (B1 : lo - 4 * uround * M <= lo * Sw).
  { replace (lo * Sw) with (lo + lo * (Sw - 1)) by ring. assert (Q : Rabs (lo * (Sw - 1)) <= M * (4 * uround)).
    { rewrite Rabs_mult. apply Rmult_le_compat; try apply Rabs_pos; apply Rabs_le; lra. } apply Rabs_le_inv in Q. lra. }
  assert (B2 : hi * Sw <= hi + 4 * uround * M).
  { replace (hi * Sw) with (hi + hi * (Sw - 1)) by ring. assert (Q : Rabs (hi * (Sw - 1)) <= M * (4 * uround)).
    { rewrite Rabs_mult. apply Rmult_le_compat; try apply Rabs_pos; apply Rabs_le; lra. } apply Rabs_le_inv in Q. lra. }
  apply Rabs_le_inv in C. unfold term_error in C. simpl (INR 4) in C.
  assert (U48 : bpow radix2 (-48) = 32 * uround) by (unfold uround; simpl; lra). rewrite U48.
  assert (T : bpow radix2 (-1070) = 16 * etiny) by (unfold etiny; change 16 with (bpow radix2 4); rewrite <- bpow_plus; reflexivity). rewrite T.
  assert (Pe := etiny_pos). assert (Pm : 0 <= uround * M) by (apply Rmult_le_pos; [unfold uround; lra|auto]). lra.
Qed.

(** ** The distance *)
Local Instance prec_pos : FLX.Prec_gt_0 fprec := eq_refl _.
Local Instance prec_emax : Prec_lt_emax fprec femax := eq_refl _.

Lemma sqrt_B : forall x : binary_float fprec femax, nsqrt (B2SF x) = B2SF (Bsqrt mode_NE x).
Proof.
  intros [sx|sx| |sx mx ex Bx]; cbn [nsqrt NumF]; [now (trivial || simpl; case sx).. | ].
  destruct sx; [reflexivity|]. simpl. rewrite B2SF_SF2B. set (melz := SFsqrt_core_binary _ _ _ _). case melz as [[mz ez] lz]. apply round_aux_equiv.
Qed.

Lemma f_sqrt : forall x, dbl x -> 0 <= fval x -> dbl (nsqrt x) /\ fval (nsqrt x) = rnd (sqrt (fval x)).
Proof.
  intros x D P. destruct (dbl_B x D) as (a & Ea & Fa & Va). destruct (Bsqrt_correct fprec femax _ _ mode_NE a) as (C1 & C2 & _).
  rewrite Ea, sqrt_B. assert (F : is_finite (Bsqrt mode_NE a) = true).
  { rewrite C2. destruct a as [s|s| |[|] m e B]; auto; try discriminate. exfalso. rewrite <- Va in P. cbn in P. assert (Q := F2R_lt_0 radix2 (Float radix2 (Z.neg m) e) ltac:(reflexivity)). lra. }
  destruct (B_dbl _ F) as [D1 V1]. split; auto. rewrite V1, C1, <- Ea, Va. reflexivity.
Qed.

Lemma norm_le : forall a b c d, 0 <= c -> 0 <= d -> Rabs a <= c -> Rabs b <= d -> sqrt (a ^ 2 + b ^ 2) <= sqrt (c ^ 2 + d ^ 2).
Proof.
  intros a b c d Hc Hd Ha Hb. apply sqrt_le_1_alt. rewrite <- (pow2_abs a), <- (pow2_abs b). assert (P := Rabs_pos a). assert (Q := Rabs_pos b). 
  apply Rplus_le_compat; apply pow_incr; auto.
Qed.

Lemma norm_shift : forall a b e f, sqrt ((a + e) ^ 2 + (b + f) ^ 2) <= sqrt (a ^ 2 + b ^ 2) + Rabs e + Rabs f.
Proof.
  intros a b e f. assert (P := Rabs_pos e). assert (Q := Rabs_pos f). assert (N := sqrt_pos (a ^ 2 + b ^ 2)).
  assert (SS : sqrt (a ^ 2 + b ^ 2) * sqrt (a ^ 2 + b ^ 2) = a ^ 2 + b ^ 2) by (apply sqrt_sqrt; nra). set (n := sqrt (a ^ 2 + b ^ 2)) in *. clearbody n.
  rewrite <- (sqrt_Rsqr (n + Rabs e + Rabs f)) by lra. apply sqrt_le_1_alt. unfold Rsqr.
  assert (A1 : Rabs a <= n) by (apply Rsqr_incr_0_var; auto; unfold Rsqr; rewrite SS; rewrite <- Rabs_mult, Rabs_pos_eq; nra).
  assert (B1 : Rabs b <= n) by (apply Rsqr_incr_0_var; auto; unfold Rsqr; rewrite SS; rewrite <- Rabs_mult, Rabs_pos_eq; nra).
  assert (AE : a * e <= n * Rabs e) by (eapply Rle_trans; [apply RRle_abs|]; rewrite Rabs_mult; apply Rmult_le_compat_r; auto).
  assert (BF : b * f <= n * Rabs f) by (eapply Rle_trans; [apply RRle_abs|]; rewrite Rabs_mult; apply Rmult_le_compat_r; auto).
  assert (E2 : e ^ 2 = Rabs e ^ 2) by (rewrite pow2_abs; reflexivity). assert (F2 : f ^ 2 = Rabs f ^ 2) by (rewrite pow2_abs; reflexivity).
  replace ((a + e) ^ 2 + (b + f) ^ 2) with (n * n + 2 * (a * e) + 2 * (b * f) + e ^ 2 + f ^ 2) by (rewrite SS; ring). rewrite E2, F2.
  replace ((n + Rabs e + Rabs f) * (n + Rabs e + Rabs f)) with (n * n + 2 * (n * Rabs e) + 2 * (n * Rabs f) + Rabs e ^ 2 + Rabs f ^ 2 + 2 * (Rabs e * Rabs f)) by ring.
  assert (0 <= Rabs e * Rabs f) by (apply Rmult_le_pos; auto). lra.
Qed.

Lemma p405 : forall x, Rabs x <= bpow radix2 405 -> Rabs (x * x) <= bpow radix2 810.
Proof.
  intros x H. rewrite Rabs_mult. change 810%Z with (405 + 405)%Z. rewrite bpow_plus. apply Rmult_le_compat; auto; apply Rabs_pos.
Qed.

Lemma dist_F : forall px py x y tol, dbl px -> dbl py -> dbl x -> dbl y -> dbl tol ->
  Rabs (fval px - fval x) <= bpow radix2 404 -> Rabs (fval py - fval y) <= bpow radix2 404 ->
  nlt (nsqrt (nadd (nadd n0 (nmul (nsub px x) (nsub px x))) (nmul (nsub py y) (nsub py y)))) tol = true ->
  sqrt ((fval px - fval x) ^ 2 + (fval py - fval y) ^ 2) <= fval tol * (1 + bpow radix2 (-50)) + bpow radix2 (-535).
Proof.
  intros px py x y tol Dpx Dpy Dx Dy Dt Bx By L.
  assert (UP : 0 < uround) by (unfold uround; lra). assert (Pe := etiny_pos). assert (PL := etiny_lt).
  assert (S405 : forall v, Rabs v <= bpow radix2 404 -> Rabs (rnd v) <= bpow radix2 405).
  { intros v H. assert (E := rnd_error v). assert (G : bpow radix2 405 = 2 * bpow radix2 404) by (change 405%Z with (1 + 404)%Z; rewrite bpow_plus; reflexivity).
    assert (G1 : 1 <= bpow radix2 404) by (change 1 with (bpow radix2 0); apply bpow_le; lia).
    apply Rle_trans with (Rabs v + (uround * Rabs v + etiny)); [|rewrite G; unfold uround; lra].
    replace (rnd v) with (v + (rnd v - v)) by ring. eapply Rle_trans; [apply Rabs_triang|]. lra. }
  assert (K1 : bpow radix2 404 <= bpow radix2 1000) by (apply bpow_le; lia). assert (K2 : bpow radix2 810 <= bpow radix2 998) by (apply bpow_le; lia).
  assert (K3 : bpow radix2 998 * 4 = bpow radix2 1000) by (change 4 with (bpow radix2 2); rewrite <- bpow_plus; reflexivity). assert (K4 := bpow_gt_0 radix2 998).
  assert (K5 : 1 <= bpow radix2 998) by (change 1 with (bpow radix2 0); apply bpow_le; lia).
  destruct (f_sub px x Dpx Dx ltac:(lra)) as [Da Va]. destruct (f_sub py y Dpy Dy ltac:(lra)) as [Db Vb].
  set (a0 := fval px - fval x) in *. set (b0 := fval py - fval y) in *.
  assert (Ba := S405 a0 Bx). assert (Bb := S405 b0 By). rewrite <- Va in Ba. rewrite <- Vb in Bb.
  set (da := nsub px x) in *. set (db := nsub py y) in *. set (a := fval da) in *. set (b := fval db) in *.
  assert (Ba2 := p405 a Ba). assert (Bb2 := p405 b Bb).
  destruct (f_mul da da Da Da ltac:(fold a; lra)) as [Dp Vp]. destruct (f_mul db db Db Db ltac:(fold b; lra)) as [Dq Vq]. fold a in Vp. fold b in Vq.
  set (sp := nmul da da) in *. set (sq := nmul db db) in *.
  assert (Ep := rnd_error (a * a)). assert (Eq := rnd_error (b * b)). rewrite <- Vp in Ep. rewrite <- Vq in Eq.
  assert (A0 : 0 <= a * a) by nra. assert (B0 : 0 <= b * b) by nra. rewrite (Rabs_pos_eq (a * a)) in * by auto. rewrite (Rabs_pos_eq (b * b)) in * by auto.
  destruct zero_val as [Dz Vz].
  assert (P0 : 0 <= fval sp) by (rewrite Vp, <- (rnd_Z 0) by lia; apply rnd_le; auto).
  assert (Q0 : 0 <= fval sq) by (rewrite Vq, <- (rnd_Z 0) by lia; apply rnd_le; auto).
  apply Rabs_le_inv in Ep, Eq.
  assert (P1 : fval sp <= bpow radix2 998 * 3 / 2) by (unfold uround in *; lra). assert (Q1 : fval sq <= bpow radix2 998 * 3 / 2) by (unfold uround in *; lra).
  destruct (f_add n0 sp Dz Dp) as [Dp' Vp']; [rewrite Vz, Rplus_0_l, Rabs_pos_eq; lra|]. rewrite Vz, Rplus_0_l, rnd_id in Vp' by auto.
  destruct (f_add (nadd n0 sp) sq Dp' Dq) as [De Ve]; [rewrite Vp', Rabs_pos_eq; lra|]. rewrite Vp' in Ve.
  set (se := nadd (nadd n0 sp) sq) in *. assert (Ee := rnd_error (fval sp + fval sq)). rewrite <- Ve in Ee. rewrite (Rabs_pos_eq (fval sp + fval sq)) in Ee by lra. apply Rabs_le_inv in Ee.
  assert (E0 : 0 <= fval se) by (rewrite Ve, <- (rnd_Z 0) by lia; apply rnd_le; lra).
  destruct (f_sqrt se De E0) as [Dr Vr]. rewrite f_lt in L by auto. apply Rltb_true in L. rewrite Vr in L.
  assert (Er := rnd_error (sqrt (fval se))). rewrite (Rabs_pos_eq (sqrt (fval se))) in Er by apply sqrt_pos. apply Rabs_le_inv in Er.
  set (s := sqrt (fval se)) in *. assert (S0 : 0 <= s) by apply sqrt_pos.
  assert (SS : s * s = fval se) by (apply sqrt_sqrt; auto).
  set (h := bpow radix2 (-536)). assert (H0 : 0 < h) by apply bpow_gt_0.
  assert (HH : h * h = 4 * etiny) by (unfold h, etiny; change 4 with (bpow radix2 2); rewrite <- !bpow_plus; reflexivity).
  assert (H535 : bpow radix2 (-535) = 2 * h) by (unfold h; change (-535)%Z with (1 + -536)%Z; rewrite bpow_plus; reflexivity).
  assert (TH : etiny <= h / 1024).
  { unfold etiny, h. apply Rle_trans with (bpow radix2 (-546)); [apply bpow_le; lia|]. change (-546)%Z with (-536 + -10)%Z. rewrite bpow_plus. right. simpl (bpow radix2 (-10)). unfold Rdiv. reflexivity. }
  (* the rounded differences *)
  set (nn := sqrt (a ^ 2 + b ^ 2)). assert (N0 : 0 <= nn) by apply sqrt_pos. assert (NN : nn * nn = a * a + b * b) by (unfold nn; rewrite sqrt_sqrt; [ring|nra]).
  assert (U1 : 1 - 2 * uround > 0) by (unfold uround; lra).
  assert (SM : nn * (1 - uround) <= s + h).
  { apply Rsqr_incr_0_var; [|lra]. unfold Rsqr. replace (nn * (1 - uround) * (nn * (1 - uround))) with ((nn * nn) * ((1 - uround) * (1 - uround))) by ring. rewrite NN.
    assert (LO : (a * a + b * b) * ((1 - uround) * (1 - uround)) <= fval se + 4 * etiny).
    { assert (T1 : (a * a + b * b) * (1 - uround) - 2 * etiny <= fval sp + fval sq) by lra.
      assert (T2 : (fval sp + fval sq) * (1 - uround) - etiny <= fval se) by lra.
      assert (T3 : ((a * a + b * b) * (1 - uround) - 2 * etiny) * (1 - uround) <= (fval sp + fval sq) * (1 - uround)) by (apply Rmult_le_compat_r; [lra|auto]).
      assert (T4 : 2 * etiny * (1 - uround) <= 2 * etiny) by (rewrite <- (Rmult_1_r (2 * etiny)) at 2; apply Rmult_le_compat_l; lra). lra. }
    replace ((s + h) * (s + h)) with (s * s + h * h + 2 * (s * h)) by ring. rewrite SS, HH. assert (0 <= s * h) by (apply Rmult_le_pos; lra). lra. }
  assert (ST : s * (1 - uround) <= fval tol + etiny) by lra.
  (* the exact differences *)
  assert (Xa := rnd_error a0). assert (Xb := rnd_error b0). rewrite <- Va in Xa. rewrite <- Vb in Xb. fold a in Xa. fold b in Xb.
  assert (Ya : Rabs (a0 * (1 - uround)) <= Rabs a + etiny).
  { rewrite Rabs_mult, (Rabs_pos_eq (1 - uround)) by lra. assert (T := Rabs_triang_inv a0 a). rewrite Rabs_minus_sym in T. lra. }
  assert (Yb : Rabs (b0 * (1 - uround)) <= Rabs b + etiny).
  { rewrite Rabs_mult, (Rabs_pos_eq (1 - uround)) by lra. assert (T := Rabs_triang_inv b0 b). rewrite Rabs_minus_sym in T. lra. }
  assert (M0 : sqrt (a0 ^ 2 + b0 ^ 2) * (1 - uround) <= nn + 2 * etiny).
  { rewrite <- (sqrt_Rsqr (1 - uround)) at 1 by lra. rewrite <- sqrt_mult_alt by nra.
    replace ((a0 ^ 2 + b0 ^ 2) * Rsqr (1 - uround)) with ((a0 * (1 - uround)) ^ 2 + (b0 * (1 - uround)) ^ 2) by (unfold Rsqr; ring).
    eapply Rle_trans; [apply (norm_le _ _ (Rabs a + etiny) (Rabs b + etiny)); auto; assert (T := Rabs_pos a); assert (T' := Rabs_pos b); lra|].
    eapply Rle_trans; [apply norm_shift|]. rewrite !pow2_abs. fold nn. rewrite (Rabs_pos_eq etiny) by lra. lra. }
  assert (T0 : 0 < fval tol) by (assert (Q : 0 <= rnd s) by (rewrite <- (rnd_Z 0) by lia; apply rnd_le; auto); lra).
  replace (bpow radix2 (-50)) with (8 * uround) by (unfold uround; simpl; lra). rewrite H535.
  set (D := sqrt (a0 ^ 2 + b0 ^ 2)) in *. assert (D0 : 0 <= D) by apply sqrt_pos. clearbody D nn s h. clear - ST SM M0 T0 D0 N0 S0 H0 TH Pe. unfold uround in *. lra.
Qed.
