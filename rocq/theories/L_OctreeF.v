(** Octree of points in IEEE double arithmetic. *)
From Coq Require Import ZArith List Bool Reals Lra Lia Floats.SpecFloat.
From Flocq Require Import Core BinarySingleNaN.
From Flocq.Prop Require Import Sterbenz Plus_error.
From Verif Require Import Base Num NumR NumF M_Octree L_Octree L_Float L_FloatOps.
Import ListNotations.
Open Scope R_scope.

Definition bit (b : Z) : Prop := (b = 0 \/ b = 1)%Z.

(** ** Every double gives a key *)
Lemma mant_bound : forall m e, SpecFloat.bounded fprec femax m e = true -> (Z.pos m < 2 ^ 53)%Z.
Proof.
  intros m e B. unfold SpecFloat.bounded in B. apply andb_prop in B. destruct B as [B _].
  unfold SpecFloat.canonical_mantissa in B. apply Zeq_bool_eq in B. unfold SpecFloat.fexp, fprec in B.
  rewrite Digits.Zpos_digits2_pos in B. assert (D : (Digits.Zdigits radix2 (Z.pos m) <= 53)%Z) by lia.
  apply (Digits.Zpower_gt_Zdigits radix2 53) in D. simpl Z.abs in D. exact D.
Qed.

Lemma floor_neg : forall m e, dbl (S754_finite true m e) -> dbl (nfloor (S754_finite true m e)) /\ fval (nfloor (S754_finite true m e)) < 0.
Proof.
  intros m e D. cbn [nfloor NumF F_floor]. destruct (Z.leb_spec 0 e) as [He|He].
  - split; auto. unfold fval. cbn [SF2R]. apply F2R_lt_0. simpl. lia.
  - assert (B := mant_bound m e (proj1 D)). assert (P : (0 < 2 ^ (- e))%Z) by (apply Z.pow_pos_nonneg; lia).
    assert (U : (Z.neg m / 2 ^ (- e) < 0)%Z) by (apply Z.div_lt_upper_bound; [lia|rewrite Z.mul_0_r; reflexivity]).
    assert (L : (Z.neg m <= Z.neg m / 2 ^ (- e))%Z) by (apply Z.div_le_lower_bound; [lia|nia]).
    destruct (f_ofZ (Z.neg m / 2 ^ (- e)) ltac:(lia)) as [K1 K2].
    destruct (Z.neg m / 2 ^ (- e))%Z eqn:E; [lia|lia|]. split; [exact K1|].
    change (F_ofZ (Z.neg p)) with (nofZ (Z.neg p) : spec_float). rewrite K2. apply IZR_lt. lia.
Qed.

Lemma clamp_bit : forall y : spec_float, fok y ->
  exists b, bit b /\ ntoZ (smin (nofZ 1) (smax (nofZ 0) (nfloor y))) = Some b.
Proof.
  intros y V. destruct (f_ofZ 0 ltac:(lia)) as [ZD ZV]. destruct (f_ofZ 1 ltac:(lia)) as [OD OV].
  destruct y as [s|s| |s m e].
  - exists 0%Z. split; [left; auto|]. destruct s; reflexivity.
  - destruct s; [exists 0%Z; split; [left; auto|reflexivity]|exists 1%Z; split; [right; auto|reflexivity]].
  - exists 0%Z. split; [left; auto|reflexivity].
  - assert (D : dbl (S754_finite s m e)) by (split; auto). destruct s.
    + destruct (floor_neg m e D) as [K1 K2]. exists 0%Z. split; [left; auto|].
      replace (smax (nofZ 0) (nfloor (S754_finite true m e))) with (nofZ 0 : spec_float); [reflexivity|].
      unfold smax. rewrite f_lt, ZV by auto. unfold Rltb. destruct (Rlt_dec _ _); [lra|reflexivity].
    + assert (P : 0 <= fval (S754_finite false m e)) by (unfold fval; cbn [SF2R]; apply F2R_ge_0; simpl; lia).
      assert (K : dbl (nfloor (S754_finite false m e)) /\ exists z, fval (nfloor (S754_finite false m e)) = IZR z /\ (0 <= z)%Z).
      { destruct (Rle_dec (fval (S754_finite false m e)) (bpow radix2 53)) as [L|L].
        - destruct (floor_val _ D (conj P L)) as [K1 K2]. split; auto. eexists. split; [exact K2|]. apply Zfloor_lub. exact P.
        - assert (He : (0 <= e)%Z).
          { destruct (Z.le_gt_cases 0 e) as [|He]; auto. exfalso. apply L. unfold fval. cbn [SF2R cond_Zopp]. unfold F2R. simpl Fnum. simpl Fexp.
            assert (B := mant_bound m e V). change (bpow radix2 53) with (IZR (2 ^ 53)). apply Rle_trans with (IZR (Z.pos m) * 1); [|rewrite Rmult_1_r; apply IZR_le; lia].
            apply Rmult_le_compat_l; [apply IZR_le; lia|]. change 1 with (bpow radix2 0). apply bpow_le. lia. }
          cbn [nfloor NumF F_floor]. destruct (Z.leb_spec 0 e); [|lia]. split; auto. exists (Z.pos m * 2 ^ e)%Z. split.
          + unfold fval. cbn [SF2R cond_Zopp]. unfold F2R. simpl Fnum. simpl Fexp. rewrite <- IZR_Zpower by auto. rewrite <- mult_IZR. reflexivity.
          + assert (0 < 2 ^ e)%Z by (apply Z.pow_pos_nonneg; lia). nia. }
      destruct K as [K1 (z & K2 & K3)]. destruct (Z.eq_dec z 0) as [->|NZ].
      * exists 0%Z. split; [left; auto|].
        replace (smax (nofZ 0) (nfloor (S754_finite false m e))) with (nofZ 0 : spec_float); [reflexivity|].
        unfold smax. rewrite f_lt, ZV, K2 by auto. unfold Rltb. destruct (Rlt_dec _ _); [lra|reflexivity].
      * exists 1%Z. split; [right; auto|]. assert (1 <= IZR z) by (apply IZR_le; lia).
        unfold smax. rewrite f_lt, ZV, K2 by auto. unfold Rltb. destruct (Rlt_dec 0 (IZR z)); [|lra].
        unfold smin. rewrite f_lt, OV, K2 by auto. unfold Rltb. destruct (Rlt_dec (IZR z) 1); [lra|reflexivity].
Qed.

Lemma fok_smin : forall x y : spec_float, fok x -> fok y -> fok (smin x y).
Proof. intros. unfold smin. destruct (nlt y x); auto. Qed.
Lemma fok_smax : forall x y : spec_float, fok x -> fok y -> fok (smax x y).
Proof. intros. unfold smax. destruct (nlt x y); auto. Qed.

Lemma digit_defined : forall xs xb prods (fact : spec_float) acc,
  length xs = length prods -> length xb = length xs -> List.Forall fok xs -> List.Forall fok xb -> fok fact ->
  exists bs inds, oc_digit xs xb prods fact acc = Ret (bs, (acc + flat2 prods inds)%Z) /\
    length inds = length xs /\ List.Forall (fun b => b = 0 \/ b = 1)%Z inds /\ length bs = length xs /\ List.Forall fok bs.
Proof.
  induction xs as [|x xs IH]; intros [|b xb] [|p prods] fact acc L1 L2 F1 F2 F3; simpl in L1, L2; try lia.
  - exists [], []. simpl. rewrite Z.add_0_r. repeat split; auto.
  - inversion F1; subst. inversion F2; subst.
    destruct (clamp_bit (nmul (nsub x b) fact)) as (d & Hd & E); [apply fok_mul; auto; apply fok_sub; auto|].
    destruct (IH xb prods fact (acc + p * d)%Z) as (bs & inds & R & A1 & A2 & A3 & A4); auto; try lia.
    exists (nadd b (ndiv (nofZ d) fact) :: bs), (d :: inds). split.
    { cbn [oc_digit]. cbv zeta. rewrite E, R. cbn [bind flat2]. do 2 f_equal. lia. }
    split; [simpl; lia|]. split; [constructor; auto|]. split; [simpl; lia|]. constructor; auto.
    apply fok_add; auto. apply fok_div; auto. apply fok_ofZ.
Qed.

Lemma keyloop_defined : forall ndims xs n el xb, length xs = ndims -> length xb = ndims -> List.Forall fok xs -> List.Forall fok xb ->
  exists ks, oc_keyloop (oc_prods ndims) xs xb el n = Ret ks /\ length ks = n /\ (forall d, In d ks -> (0 <= d < 2 ^ Z.of_nat ndims)%Z).
Proof.
  intros ndims xs. induction n as [|n IH]; intros el xb L1 L2 F1 F2.
  - exists []. simpl. repeat split; auto; tauto.
  - destruct (digit_defined xs xb (oc_prods ndims) (nofZ (2 ^ (Z.of_nat el + 1))) 0) as (bs & inds & R & A1 & A2 & A3 & A4); auto; try (rewrite ?oc_prods_length; lia); [apply fok_ofZ|].
    destruct (IH (S el) bs) as (ks & R' & B1 & B2); auto; try lia.
    exists ((0 + flat2 (oc_prods ndims) inds)%Z :: ks). cbn [oc_keyloop]. rewrite R. cbn [bind]. rewrite R'. cbn [bind]. split; auto.
    split; [simpl; lia|]. intros d [<-|Hd]; [|auto]. rewrite Z.add_0_l. apply flat2_bounds; auto. lia.
Qed.

Lemma normalize_fok : forall (pt mins maxs : list spec_float), length pt = length mins -> length pt = length maxs ->
  List.Forall fok pt -> List.Forall fok mins -> List.Forall fok maxs ->
  length (oc_normalize pt mins maxs) = length pt /\ List.Forall fok (oc_normalize pt mins maxs).
Proof.
  induction pt as [|p pt IH]; intros [|a mins] [|b maxs] L1 L2 F1 F2 F3; simpl in L1, L2; try lia; cbn [oc_normalize length]; auto.
  inversion F1; subst. inversion F2; subst. inversion F3; subst. destruct (IH mins maxs) as [I1 I2]; auto. split; [lia|]. constructor; auto.
  apply fok_smin; [apply fok_ofZ|]. apply fok_smax; [apply fok_ofZ|]. apply fok_div; apply fok_sub; auto.
Qed.

Lemma upd_Forall : forall {A} (P : A -> Prop) l k v, List.Forall P l -> P v -> List.Forall P (upd l k v).
Proof.
  intros A P. induction l as [|x l IH]; intros k v F V; [destruct k; constructor|]. inversion F; subst. destruct k; constructor; auto.
Qed.

(** The corner points exist for any arithmetic, and are doubles. *)
Lemma minmax_defined : forall {T} {N : Num T} (P : T -> Prop) ndims (points : list T) i mins maxs, (0 < ndims)%nat ->
  length mins = ndims -> length maxs = ndims -> List.Forall P points -> List.Forall P mins -> List.Forall P maxs ->
  exists k mins' maxs', foldM (oc_minmax_step ndims) points (i, (mins, maxs)) = Ret (k, (mins', maxs')) /\
    length mins' = ndims /\ length maxs' = ndims /\ List.Forall P mins' /\ List.Forall P maxs'.
Proof.
  intros T N P ndims points. induction points as [|p points IH]; intros i mins maxs Hn L1 L2 F F1 F2; simpl.
  - do 3 eexists. repeat split; eauto.
  - inversion F; subst. unfold oc_minmax_step at 1. set (d := (i mod Z.of_nat (length mins))%Z).
    assert (D : (0 <= d < Z.of_nat (length mins))%Z) by (apply Z.mod_pos_bound; lia).
    rewrite (vget_nth _ _ p) by lia. cbn [bind]. rewrite (vget_nth _ _ p) by lia. cbn [bind].
    assert (G1 : P (nth (Z.to_nat d) mins p)) by (apply Forall_nth; auto; lia).
    assert (G2 : P (nth (Z.to_nat d) maxs p)) by (apply Forall_nth; auto; lia).
    unfold vset. destruct (Z.leb_spec 0 d); [|lia]. destruct (Z.ltb_spec d (Z.of_nat (length mins))); [|lia]. cbn [andb bind].
    destruct (Z.ltb_spec d (Z.of_nat (length maxs))); [|lia]. cbn [andb bind].
    apply IH; rewrite ?upd_length; auto; try (apply upd_Forall; auto; match goal with |- P (if ?c then _ else _) => destruct c; auto end).
Qed.

Lemma repeat_Forall : forall {A} (P : A -> Prop) x n, P x -> List.Forall P (repeat x n).
Proof. induction n; simpl; constructor; auto. Qed.

Lemma firstn_Forall : forall {A} (P : A -> Prop) n l, List.Forall P l -> List.Forall P (firstn n l).
Proof. induction n; intros l F; simpl; auto. destruct l; auto. inversion F; subst. constructor; auto. Qed.
Lemma skipn_Forall : forall {A} (P : A -> Prop) n l, List.Forall P l -> List.Forall P (skipn n l).
Proof. induction n; intros l F; simpl; auto. destruct l; auto. inversion F; subst. auto. Qed.

Lemma fok_nmax : fok nmax.
Proof. apply fok_ofZ. Qed.

Theorem octree_defined : forall nlevs ndims (points : list spec_float), (0 < ndims)%nat -> List.Forall fok points ->
  exists o, oc_new nlevs ndims points = Ret o /\
    List.Forall fok (oc_xmins o) /\ List.Forall fok (oc_xmaxs o) /\
    forall pt lev, length pt = ndims -> List.Forall fok pt ->
      exists key, oc_getKey o pt lev = Ret key /\ length key = lev /\ (forall d, In d key -> (0 <= d < 2 ^ Z.of_nat ndims)%Z).
Proof.
  intros nlevs ndims points Hn F. unfold oc_new. destruct ndims as [|n]; [lia|].
  destruct (minmax_defined fok (S n) points 0 (repeat nmax (S n)) (repeat (nopp nmax) (S n))) as (k & mins & maxs & R & L1 & L2 & F1 & F2);
    auto using repeat_length.
  { apply repeat_Forall. apply fok_nmax. } { apply repeat_Forall. vm_compute. reflexivity. }
  rewrite R. cbn [bind].
  set (tree := oc_refine _ _ _ _ _ _).
  assert (K : forall n2k pt lev, length pt = S n -> List.Forall fok pt ->
    exists key, oc_getKey (mkOct tree n2k (oc_prods (S n)) mins maxs (S n) nlevs) pt lev = Ret key /\ length key = lev /\ (forall d, In d key -> (0 <= d < 2 ^ Z.of_nat (S n))%Z)).
  { intros n2k pt lev Lp Fp. unfold oc_getKey. cbn [oc_prodDims oc_xmins oc_xmaxs oc_ndims].
    destruct (normalize_fok pt mins maxs) as [N1 N2]; auto; try lia.
    apply keyloop_defined; auto; try lia; [apply repeat_length|apply repeat_Forall; apply fok_ofZ]. }
  assert (A : forall m pts, (m * S n <= length pts)%nat -> List.Forall fok pts ->
    exists ks, oc_attach (mkOct tree [] (oc_prods (S n)) mins maxs (S n) nlevs) m pts = Ret ks).
  { induction m as [|m IH]; intros pts Lp Fp; [eexists; reflexivity|]. cbn [oc_attach oc_ndims oc_nlevs].
    destruct (K [] (firstn (S n) pts) nlevs) as (key & E & _); [rewrite firstn_length; lia|apply firstn_Forall; auto|].
    rewrite E. cbn [bind]. destruct (IH (skipn (S n) pts)) as (ks & E2); [rewrite skipn_length; lia|apply skipn_Forall; auto|].
    rewrite E2. cbn [bind]. eexists; reflexivity. }
  destruct (A (length points / S n)%nat points) as (ks & E); auto.
  { assert (S n * (length points / S n) <= length points)%nat by (apply Nat.mul_div_le; lia). lia. }
  rewrite E. cbn [bind]. eexists. split; [reflexivity|]. cbn [oc_xmins oc_xmaxs]. split; auto.
Qed.

(** ** Boxes *)
Lemma pow_bpow : forall n, 2 ^ n = bpow radix2 (Z.of_nat n).
Proof. intros n. rewrite <- IZR_Zpower by lia. change (IZR (radix2 ^ Z.of_nat n)) with (IZR (2 ^ Z.of_nat n)). rewrite <- pow_IZR. reflexivity. Qed.

Lemma format_dy : forall k n, (Z.abs k <= 2 ^ 53)%Z -> (n <= 1000)%nat -> generic_format radix2 (SpecFloat.fexp fprec femax) (IZR k / 2 ^ n).
Proof.
  intros k n H Hn. rewrite pow_bpow. unfold Rdiv. rewrite <- bpow_opp. destruct (Z.eq_dec (Z.abs k) (2 ^ 53)) as [E|E].
  - assert (G : generic_format radix2 (SpecFloat.fexp fprec femax) (IZR (2 ^ 53) * bpow radix2 (- Z.of_nat n))).
    { change (IZR (2 ^ 53)) with (bpow radix2 53). rewrite <- bpow_plus. apply generic_format_bpow. unfold SpecFloat.fexp, fprec, femax, emin. lia. }
    assert (k = 2 ^ 53 \/ k = - 2 ^ 53)%Z as [-> | ->] by lia; [exact G|]. rewrite opp_IZR, Ropp_mult_distr_l_reverse. apply generic_format_opp. exact G.
  - change (IZR k * bpow radix2 (- Z.of_nat n)) with (F2R (Float radix2 k (- Z.of_nat n))).
    apply generic_format_FLT. exists (Float radix2 k (- Z.of_nat n)); [reflexivity| |unfold emin, fprec, femax; simpl; lia].
    simpl Fnum. change (radix2 ^ fprec)%Z with (2 ^ 53)%Z. lia.
Qed.

Lemma rnd_format : forall x, generic_format radix2 (SpecFloat.fexp fprec femax) x -> rnd x = x.
Proof. intros. apply round_generic; auto with typeclass_instances. Qed.

Lemma small_dy : forall x, Rabs x <= 2 -> Rabs x <= bpow radix2 1000.
Proof. intros x H. eapply Rle_trans; [exact H|]. change 2 with (bpow radix2 1). apply bpow_le. lia. Qed.

(** A double that is a whole number of 2^-el in [0, 1]. *)
Definition dy (el : nat) (x : spec_float) : Prop := dbl x /\ exists k, (0 <= k <= 2 ^ Z.of_nat el)%Z /\ fval x = IZR k / 2 ^ el.

Lemma pow2_pos : forall n, 0 < 2 ^ n.
Proof. intros. apply pow_lt. lra. Qed.

Lemma pow2_IZR : forall n, IZR (2 ^ Z.of_nat n) = 2 ^ n.
Proof. intros. rewrite <- pow_IZR. reflexivity. Qed.

Lemma dy_range : forall el x, dy el x -> 0 <= fval x <= 1.
Proof.
  intros el x [_ (k & H & E)]. rewrite E. assert (P := pow2_pos el). assert (IZR k <= 2 ^ el) by (rewrite <- pow2_IZR; apply IZR_le; lia).
  assert (0 <= IZR k) by (apply IZR_le; lia). split; [apply Rmult_le_pos; auto; left; apply Rinv_0_lt_compat; auto|].
  apply Rmult_le_reg_r with (2 ^ el); auto. unfold Rdiv. rewrite Rmult_assoc, Rinv_l by lra. lra.
Qed.

Lemma pow_le53 : forall n, (n <= 53)%nat -> (2 ^ Z.of_nat n <= 2 ^ 53)%Z.
Proof. intros. apply Z.pow_le_mono_r; lia. Qed.

(** Sum of two such numbers. *)
Lemma dy_add : forall el x y a b, (el <= 53)%nat -> dbl x -> dbl y -> fval x = IZR a / 2 ^ el -> fval y = IZR b / 2 ^ el ->
  (0 <= a + b <= 2 ^ Z.of_nat el)%Z -> dbl (nadd x y) /\ fval (nadd x y) = IZR (a + b) / 2 ^ el.
Proof.
  intros el x y a b Hel Dx Dy Ex Ey H. assert (P := pow2_pos el).
  assert (E : fval x + fval y = IZR (a + b) / 2 ^ el) by (rewrite Ex, Ey, plus_IZR; field; lra).
  assert (B : Rabs (fval x + fval y) <= 2).
  { rewrite E. assert (IZR (a + b) <= 2 ^ el) by (rewrite <- pow2_IZR; apply IZR_le; lia). assert (0 <= IZR (a + b)) by (apply IZR_le; lia).
    rewrite Rabs_pos_eq; [|apply Rmult_le_pos; auto; left; apply Rinv_0_lt_compat; auto].
    apply Rmult_le_reg_r with (2 ^ el); auto. unfold Rdiv. rewrite Rmult_assoc, Rinv_l by lra. lra. }
  destruct (f_add x y Dx Dy (small_dy _ B)) as [D V]. split; auto. rewrite V, E. apply rnd_format. apply format_dy; [|lia].
  assert (Q := pow_le53 el Hel). lia.
Qed.

Lemma step_F : forall lo inds dx el, (S el <= 53)%nat -> length lo = length inds -> List.Forall bit inds ->
  List.Forall (fun x => dbl x /\ exists k, (0 <= k < 2 ^ Z.of_nat el)%Z /\ fval x = IZR k / 2 ^ el) lo -> dbl dx -> fval dx = / 2 ^ (S el) ->
  List.Forall (fun x => dbl x /\ exists k, (0 <= k < 2 ^ Z.of_nat (S el))%Z /\ fval x = IZR k / 2 ^ (S el)) (fst (oc_step lo inds dx)) /\
  List.Forall dbl (snd (oc_step lo inds dx)) /\
  map fval (fst (oc_step lo inds dx)) = fst (oc_step (map fval lo) inds (fval dx)) /\
  map fval (snd (oc_step lo inds dx)) = snd (oc_step (map fval lo) inds (fval dx)).
Proof.
  induction lo as [|l lo IH]; intros [|i inds] dx el Hel L B F Dd Vd; simpl in L; try lia.
  - simpl. repeat split; auto.
  - inversion F as [|? ? [Dl (k & Hk & Ek)] F']; subst. inversion B as [|? ? Hi B']; subst.
    specialize (IH inds dx el Hel ltac:(lia) B' F' Dd Vd). cbn [oc_step map]. destruct (oc_step lo inds dx) as [los his].
    destruct (oc_step (map fval lo) inds (fval dx)) as [losR hisR]. cbn [fst snd] in *. destruct IH as (I1 & I2 & I3 & I4).
    assert (P := pow2_pos el). assert (PS : 2 ^ S el = 2 * 2 ^ el) by reflexivity.
    assert (ZS : (2 ^ Z.of_nat (S el) = 2 * 2 ^ Z.of_nat el)%Z) by (rewrite Nat2Z.inj_succ, Z.pow_succ_r by lia; reflexivity).
    destruct (f_ofZ i) as [Di Vi]; [destruct Hi; subst; lia|].
    assert (MB : fval (nofZ i) * fval dx = IZR i / 2 ^ S el) by (rewrite Vi, Vd; reflexivity).
    assert (M : dbl (nmul (nofZ i) dx) /\ fval (nmul (nofZ i) dx) = IZR i / 2 ^ S el).
    { destruct (f_mul (nofZ i) dx Di Dd) as [M1 M2].
      - apply small_dy. rewrite MB. assert (Q : / 2 ^ S el <= 1) by (rewrite <- Rinv_1; apply Rinv_le_contravar; [lra|]; apply pow_R1_Rle; lra).
        assert (0 < / 2 ^ S el) by (apply Rinv_0_lt_compat; apply pow2_pos). unfold Rdiv. destruct Hi; subst; [rewrite Rmult_0_l, Rabs_R0; lra|]. rewrite Rmult_1_l, Rabs_pos_eq; lra.
      - split; auto. rewrite M2, MB. apply rnd_format. apply format_dy; [destruct Hi; subst; lia|lia]. }
    destruct M as [M1 M2].
    destruct (dy_add (S el) l (nmul (nofZ i) dx) (2 * k) i Hel Dl M1) as [A1 A2]; [rewrite Ek, mult_IZR, PS; field; lra|exact M2|destruct Hi; subst; lia|].
    destruct (dy_add (S el) (nadd l (nmul (nofZ i) dx)) dx (2 * k + i) 1 Hel A1 Dd) as [B1 B2]; [exact A2|rewrite Vd; unfold Rdiv; lra|destruct Hi; subst; lia|].
    assert (E1 : fval (nadd l (nmul (nofZ i) dx)) = fval l + IZR i * fval dx).
    { rewrite A2, Ek, Vd, plus_IZR, mult_IZR, PS. field. lra. }
    split; [constructor; auto; split; auto; exists (2 * k + i)%Z; split; [destruct Hi; subst; lia|exact A2]|].
    split; [constructor; auto|]. cbn [map nadd nmul nofZ NumR]. split; f_equal; auto.
    change (nadd (nadd l (nmul (nofZ i) dx)) dx) with (nadd (nadd l (nmul (nofZ i) dx)) dx : spec_float).
    rewrite B2, Ek, Vd, !plus_IZR, mult_IZR, PS. simpl IZR. field. lra.
Qed.

Lemma levels_F : forall prods key lo hi dx el, (el + length key <= 53)%nat -> length lo = length prods -> List.Forall dbl hi ->
  List.Forall (fun x => dbl x /\ exists k, (0 <= k < 2 ^ Z.of_nat el)%Z /\ fval x = IZR k / 2 ^ el) lo -> dbl dx -> fval dx = / 2 ^ (S el) ->
  List.Forall (dy (el + length key)) (fst (oc_levels prods key lo hi dx)) /\ List.Forall dbl (snd (oc_levels prods key lo hi dx)) /\
  map fval (fst (oc_levels prods key lo hi dx)) = fst (oc_levels prods key (map fval lo) (map fval hi) (fval dx)) /\
  map fval (snd (oc_levels prods key lo hi dx)) = snd (oc_levels prods key (map fval lo) (map fval hi) (fval dx)).
Proof.
  intros prods. induction key as [|q key IH]; intros lo hi dx el Hel L Fh F Dd Vd.
  - cbn [oc_levels fst snd length]. rewrite Nat.add_0_r. repeat split; auto.
    eapply Forall_impl; [|exact F]. intros x [D (k & Hk & E)]. split; auto. exists k. split; [lia|auto].
  - cbn [length] in *. cbn [oc_levels].
    assert (LI : length (oc_getIndices prods q) = length prods) by (unfold oc_getIndices; apply map_length).
    assert (BI : List.Forall bit (oc_getIndices prods q)).
    { unfold oc_getIndices. apply Forall_forall. intros b Hb. apply in_map_iff in Hb. destruct Hb as (p & <- & _).
      assert (H := Z.mod_pos_bound (q / p) 2 ltac:(lia)). unfold bit. lia. }
    destruct (step_F lo (oc_getIndices prods q) dx el ltac:(lia) ltac:(lia) BI F Dd Vd) as (S1 & S2 & S3 & S4).
    destruct (oc_step_length lo (oc_getIndices prods q) dx ltac:(lia)) as [SL _].
    destruct (oc_step lo (oc_getIndices prods q) dx) as [lo' hi']. destruct (oc_step (map fval lo) (oc_getIndices prods q) (fval dx)) as [loR hiR].
    cbn [fst snd] in *. subst loR hiR.
    assert (D2 : dbl (ndiv dx (nofZ 2)) /\ fval (ndiv dx (nofZ 2)) = fval dx / 2).
    { destruct (f_ofZ 2 ltac:(lia)) as [TD TV]. assert (P := pow2_pos el). assert (PS : 2 ^ S el = 2 * 2 ^ el) by reflexivity.
      assert (E : fval dx / fval (nofZ 2) = IZR 1 / 2 ^ S (S el)) by (rewrite Vd, TV; simpl; field; lra).
      destruct (f_div dx (nofZ 2) Dd TD) as [A1 A2]; [rewrite TV; lra| |].
      - apply small_dy. rewrite E. unfold Rdiv. rewrite Rmult_1_l.
        assert (Q : / 2 ^ S (S el) <= 1) by (rewrite <- Rinv_1; apply Rinv_le_contravar; [lra|]; apply pow_R1_Rle; lra).
        assert (0 < / 2 ^ S (S el)) by (apply Rinv_0_lt_compat; apply pow2_pos). rewrite Rabs_pos_eq; lra.
      - split; auto. rewrite A2, E, rnd_format by (apply format_dy; lia). rewrite Vd. simpl. field. lra. }
    destruct D2 as [D2 V2].
    replace (el + S (length key))%nat with (S el + length key)%nat by lia.
    destruct (IH lo' hi' (ndiv dx (nofZ 2)) (S el)) as (J1 & J2 & J3 & J4); auto; try lia.
    { rewrite V2, Vd. simpl. field. apply Rgt_not_eq. apply pow2_pos. }
    rewrite V2 in J3, J4. auto.
Qed.

(** The bound of a box at the fraction [f] of the domain. *)
Definition scaled (mn mx f : R) : R := rnd (rnd (f * rnd (mx - mn)) + mn).

(** Domains far from overflow. *)
Definition modest (x : spec_float) : Prop := dbl x /\ Rabs (fval x) <= bpow radix2 990.

Lemma scaled_le : forall mn mx f g, mn <= mx -> f <= g -> scaled mn mx f <= scaled mn mx g.
Proof.
  intros mn mx f g H L. unfold scaled. apply rnd_le. apply Rplus_le_compat_r. apply rnd_le. apply Rmult_le_compat_r; auto.
  rewrite <- (rnd_Z 0) by lia. apply rnd_le. simpl. lra.
Qed.

Lemma rnd_big : forall x e, (e <= 1000)%Z -> (-1000 <= e)%Z -> Rabs x <= bpow radix2 e -> Rabs (rnd x) <= bpow radix2 e.
Proof.
  intros x e H1 H2 H. unfold rnd. apply abs_round_le_generic; auto with typeclass_instances.
  apply generic_format_bpow. unfold SpecFloat.fexp, fprec, femax, emin. lia.
Qed.

Lemma modest_sub : forall a b, modest a -> modest b -> dbl (nsub a b) /\ fval (nsub a b) = rnd (fval a - fval b) /\ Rabs (rnd (fval a - fval b)) <= bpow radix2 991.
Proof.
  intros a b [Da Ba] [Db Bb].
  assert (B : Rabs (fval a - fval b) <= bpow radix2 991).
  { change 991%Z with (1 + 990)%Z. rewrite bpow_plus. change (bpow radix2 1) with 2. unfold Rminus. eapply Rle_trans; [apply Rabs_triang|]. rewrite Rabs_Ropp. lra. }
  destruct (f_sub a b Da Db) as [D V]; [eapply Rle_trans; [exact B|apply bpow_le; lia]|]. split; auto. split; auto. apply rnd_big; auto; lia.
Qed.

Lemma scaled_val : forall x mn mx, dbl x -> 0 <= fval x <= 1 -> modest mn -> modest mx ->
  dbl (nadd (nmul x (nsub mx mn)) mn) /\ fval (nadd (nmul x (nsub mx mn)) mn) = scaled (fval mn) (fval mx) (fval x).
Proof.
  intros x mn mx D P Mn Mx. destruct (modest_sub mx mn Mx Mn) as (D1 & V1 & B1).
  assert (B2 : Rabs (fval x * rnd (fval mx - fval mn)) <= bpow radix2 991).
  { rewrite Rabs_mult, (Rabs_pos_eq (fval x)) by lra. eapply Rle_trans; [|exact B1]. rewrite <- (Rmult_1_l (Rabs (rnd _))) at 2. apply Rmult_le_compat_r; [apply Rabs_pos|lra]. }
  destruct (f_mul x (nsub mx mn) D D1) as [D2 V2]; [rewrite V1; eapply Rle_trans; [exact B2|apply bpow_le; lia]|]. rewrite V1 in V2.
  destruct Mn as [Dn Bn].
  destruct (f_add (nmul x (nsub mx mn)) mn D2 Dn) as [D3 V3].
  { rewrite V2. eapply Rle_trans; [apply Rabs_triang|]. apply Rle_trans with (bpow radix2 991 + bpow radix2 991).
    - apply Rplus_le_compat; [apply rnd_big; auto; lia|]. eapply Rle_trans; [exact Bn|apply bpow_le; lia].
    - replace (bpow radix2 991 + bpow radix2 991) with (bpow radix2 992); [apply bpow_le; lia|]. change 992%Z with (1 + 991)%Z. rewrite bpow_plus. change (bpow radix2 1) with 2. lra. }
  split; auto. rewrite V3, V2. reflexivity.
Qed.

Lemma scale_F : forall v mins maxs j, length v = length mins -> length v = length maxs -> (j < length v)%nat ->
  List.Forall (fun x => dbl x /\ 0 <= fval x <= 1) v -> List.Forall modest mins -> List.Forall modest maxs ->
  dbl (nth j (oc_scale v mins maxs) n0) /\
  fval (nth j (oc_scale v mins maxs) n0) = scaled (fval (nth j mins n0)) (fval (nth j maxs n0)) (fval (nth j v n0)).
Proof.
  induction v as [|x v IH]; intros [|a mins] [|b maxs] j L1 L2 Hj F1 F2 F3; simpl in L1, L2, Hj; try lia.
  inversion F1 as [|? ? [D P] F1']; subst. inversion F2; subst. inversion F3; subst. cbn [oc_scale]. destruct j as [|j]; cbn [nth].
  - apply scaled_val; auto.
  - apply IH; auto; lia.
Qed.

Lemma Forall_map_fval : forall (P : R -> Prop) l, List.Forall P (map fval l) -> List.Forall (fun x => P (fval x)) l.
Proof. induction l; simpl; intros H; inversion H; subst; constructor; auto. Qed.

Lemma dyad_bounds : forall ds, List.Forall bit ds -> 0 <= dyad ds /\ dyad ds + / 2 ^ length ds <= 1.
Proof.
  induction ds as [|d ds IH]; intros F; simpl.
  - rewrite Rinv_1. lra.
  - inversion F; subst. destruct (IH H2) as [I1 I2]. assert (P := pow2_pos (length ds)).
    assert (E : / (2 * 2 ^ length ds) = / 2 ^ length ds / 2) by (field; lra). rewrite E.
    assert (0 <= IZR d <= 1) by (destruct H1; subst; simpl; lra). split; lra.
Qed.

Lemma map_digit_bits : forall p key, List.Forall bit (map (digit p) key).
Proof. intros. apply Forall_forall. intros b H. apply in_map_iff in H. destruct H as (q & <- & _). apply digit_binary. Qed.

Lemma nth_map_fval : forall l j, nth j (map fval l) 0 = fval (nth j l n0).
Proof. intros. change 0 with (fval n0). apply map_nth. Qed.

Lemma computeLoHi_F : forall ndims mins maxs key j, length mins = ndims -> length maxs = ndims -> List.Forall modest mins -> List.Forall modest maxs ->
  key <> [] -> (length key <= 53)%nat -> (j < ndims)%nat ->
  let mn := fval (nth j mins n0) in let mx := fval (nth j maxs n0) in
  let f := dyad (map (digit (2 ^ (Z.of_nat ndims - 1 - Z.of_nat j))) key) in
  let r := oc_computeLoHi ndims (oc_prods ndims) mins maxs key in
  dbl (nth j (fst r) n0) /\ fval (nth j (fst r) n0) = scaled mn mx f /\
  dbl (nth j (snd r) n0) /\ fval (nth j (snd r) n0) = scaled mn mx (f + / 2 ^ length key).
Proof.
  intros ndims mins maxs key j L1 L2 F1 F2 Hk Lk Hj mn mx f. cbv zeta. unfold oc_computeLoHi.
  destruct (f_ofZ 0 ltac:(lia)) as [ZD ZV]. destruct (f_ofZ 1 ltac:(lia)) as [OD OV].
  assert (HH : dbl nhalf /\ fval nhalf = / 2 ^ 1).
  { assert (E : (nhalf : spec_float) = S754_finite false 4503599627370496 (-53)) by (vm_compute; reflexivity). rewrite E.
    split; [split; reflexivity|]. unfold fval. cbn [SF2R cond_Zopp]. unfold F2R. simpl Fnum. simpl Fexp.
    change (bpow radix2 (-53)) with (/ IZR (2 ^ 53)). change (2 ^ 53)%Z with 9007199254740992%Z. simpl. lra. }
  destruct HH as [HD HV].
  destruct (levels_F (oc_prods ndims) key (repeat (nofZ 0) ndims) (repeat (nofZ 1) ndims) nhalf 0) as (A1 & A2 & A3 & A4); auto.
  { rewrite repeat_length, oc_prods_length. reflexivity. } { apply repeat_Forall; auto. }
  { apply repeat_Forall. split; auto. exists 0%Z. split; [simpl; lia|]. rewrite ZV. simpl. field. }
  assert (S := oc_levels_spec (oc_prods ndims) key (map fval (repeat (nofZ 0) ndims)) (map fval (repeat (nofZ 1) ndims)) (fval nhalf)).
  rewrite map_length, repeat_length, oc_prods_length in S. specialize (S eq_refl). destruct S as [S1 S2].
  rewrite map_length, repeat_length in S2.
  assert (M0 : forall i, nth i (map fval (repeat (nofZ 0) ndims)) 0 = 0).
  { intros i. rewrite nth_map_fval. change (n0 : spec_float) with (nofZ 0 : spec_float). rewrite nth_repeat. exact ZV. }
  assert (LS := proj2 (proj2 (S2 j Hj)) eq_refl).
  rewrite <- A3 in S1, S2. rewrite <- A4 in S2, LS. rewrite map_length in S1, LS.
  destruct (oc_levels (oc_prods ndims) key (repeat (nofZ 0) ndims) (repeat (nofZ 1) ndims) nhalf) as [lo hi]. cbn [fst snd] in *.
  assert (X : forall i, (i < ndims)%nat -> fval (nth i lo n0) = dyad (map (digit (2 ^ (Z.of_nat ndims - 1 - Z.of_nat i))) key) /\
     fval (nth i hi n0) = dyad (map (digit (2 ^ (Z.of_nat ndims - 1 - Z.of_nat i))) key) + / 2 ^ length key).
  { intros i Hi. destruct (S2 i Hi) as (B1 & B2 & _). specialize (B2 Hk). rewrite !nth_map_fval in *. rewrite oc_prods_nth in B1, B2 by auto.
    assert (Y := M0 i). rewrite nth_map_fval in Y. rewrite Y, HV, pow_1 in B1, B2. split; [rewrite B1; field|rewrite B2; field; apply Rgt_not_eq, pow2_pos]. }
  assert (FH : List.Forall (fun x => dbl x /\ 0 <= fval x <= 1) hi).
  { apply Forall_forall. intros x Hx. rewrite Forall_forall in A2. split; [auto|]. apply (In_nth _ _ n0) in Hx. destruct Hx as (i & Hi & <-).
    destruct (X i ltac:(lia)) as [_ X2]. rewrite X2. destruct (dyad_bounds _ (map_digit_bits (2 ^ (Z.of_nat ndims - 1 - Z.of_nat i)) key)) as [Y1 Y2].
    rewrite map_length in Y2. assert (0 < / 2 ^ length key) by (apply Rinv_0_lt_compat, pow2_pos). lra. }
  assert (FL : List.Forall (fun x => dbl x /\ 0 <= fval x <= 1) lo).
  { eapply Forall_impl; [|exact A1]. intros x Hx. split; [apply Hx|exact (dy_range _ _ Hx)]. }
  destruct (X j Hj) as [X1 X2].
  destruct (scale_F lo mins maxs j) as [U1 U2]; auto; try lia. destruct (scale_F hi mins maxs j) as [V1 V2]; auto; try lia.
  unfold mn, mx. rewrite U2, V2, X1, X2. auto.
Qed.

(** Corners of the box of a key of an octree. *)
Lemma key_box_F : forall nlevs ndims (points : list spec_float) o key j, oc_new nlevs ndims points = Ret o ->
  List.Forall modest (oc_xmins o) -> List.Forall modest (oc_xmaxs o) ->
  valid_key ndims nlevs key -> (length key <= 53)%nat -> (j < ndims)%nat ->
  let mn := fval (nth j (oc_xmins o) n0) in let mx := fval (nth j (oc_xmaxs o) n0) in
  let f := dyad (map (digit (2 ^ (Z.of_nat ndims - 1 - Z.of_nat j))) key) in
  dbl (nth j (oc_getLo o key) n0) /\ fval (nth j (oc_getLo o key) n0) = scaled mn mx f /\
  dbl (nth j (oc_getHi o key) n0) /\ fval (nth j (oc_getHi o key) n0) = scaled mn mx (f + / 2 ^ length key).
Proof.
  intros nlevs ndims points o key j H F1 F2 V Lk Hj. cbv zeta.
  assert (F : oc_find (oc_tree o) key = Some (oc_computeLoHi ndims (oc_prods ndims) (oc_xmins o) (oc_xmaxs o) key)).
  { apply (oc_tree_find _ _ _ _ H). auto. }
  unfold oc_getLo, oc_getHi. rewrite F. destruct (oc_corner_length _ _ _ _ H) as [L1 L2].
  assert (NK : key <> []) by (destruct V as [V _]; destruct key; [simpl in V; lia|discriminate]).
  assert (S := computeLoHi_F ndims (oc_xmins o) (oc_xmaxs o) key j L1 L2 F1 F2 NK Lk Hj). cbv zeta in S.
  destruct (oc_computeLoHi ndims (oc_prods ndims) (oc_xmins o) (oc_xmaxs o) key) as [lo hi]. exact S.
Qed.

Lemma key_lo0_F : forall nlevs ndims (points : list spec_float) o j, oc_new nlevs ndims points = Ret o ->
  List.Forall modest (oc_xmins o) -> (j < ndims)%nat -> fval (nth j (oc_getLo o []) n0) = scaled (fval (nth j (oc_xmins o) n0)) (fval (nth j (oc_xmaxs o) n0)) 0.
Proof.
  intros nlevs ndims points o j H F Hj. destruct (oc_root _ _ _ _ H) as [-> _]. unfold scaled. rewrite Rmult_0_l, (rnd_Z 0), Rplus_0_l by lia.
  symmetry. apply rnd_id. destruct (oc_corner_length _ _ _ _ H) as [L1 _]. rewrite Forall_forall in F. apply F. apply nth_In. lia.
Qed.

(** Children tile their parent, to the last bit. *)
Theorem octree_children_F : forall nlevs ndims (points : list spec_float) o,
  oc_new nlevs ndims points = Ret o -> (nlevs <= 53)%nat ->
  (forall j, (j < ndims)%nat -> modest (nth j (oc_getLo o []) n0) /\ modest (nth j (oc_getHi o []) n0) /\
     nle (nth j (oc_getLo o []) n0) (nth j (oc_getHi o []) n0) = true) ->
  forall key, (1 <= length key < nlevs)%nat -> (forall d, In d key -> (0 <= d < 2 ^ Z.of_nat ndims)%Z) ->
  (forall pt, (forall j, (j < ndims)%nat -> dbl (nth j pt n0) /\
      nle (nth j (oc_getLo o key) n0) (nth j pt n0) = true /\ nle (nth j pt n0) (nth j (oc_getHi o key) n0) = true) ->
    exists q, (0 <= q < 2 ^ Z.of_nat ndims)%Z /\ forall j, (j < ndims)%nat ->
      nle (nth j (oc_getLo o (key ++ [q])) n0) (nth j pt n0) = true /\ nle (nth j pt n0) (nth j (oc_getHi o (key ++ [q])) n0) = true) /\
  (forall q j, (0 <= q < 2 ^ Z.of_nat ndims)%Z -> (j < ndims)%nat ->
      nle (nth j (oc_getLo o key) n0) (nth j (oc_getLo o (key ++ [q])) n0) = true /\
      nle (nth j (oc_getLo o (key ++ [q])) n0) (nth j (oc_getHi o (key ++ [q])) n0) = true /\
      nle (nth j (oc_getHi o (key ++ [q])) n0) (nth j (oc_getHi o key) n0) = true) /\
  (forall p q pt, (0 <= p < 2 ^ Z.of_nat ndims)%Z -> (0 <= q < 2 ^ Z.of_nat ndims)%Z -> p <> q ->
     (forall j, (j < ndims)%nat -> dbl (nth j pt n0) /\
        nlt (nth j (oc_getLo o (key ++ [p])) n0) (nth j pt n0) = true /\ nlt (nth j pt n0) (nth j (oc_getHi o (key ++ [p])) n0) = true) ->
     (forall j, (j < ndims)%nat ->
        nlt (nth j (oc_getLo o (key ++ [q])) n0) (nth j pt n0) = true /\ nlt (nth j pt n0) (nth j (oc_getHi o (key ++ [q])) n0) = true) -> False).
Proof.
  intros nlevs ndims points o H HL Hdom key Hlen Hdig.
  destruct (oc_root _ _ _ _ H) as [R1 R2]. rewrite R1, R2 in Hdom. destruct (oc_corner_length _ _ _ _ H) as [L1 L2].
  assert (F1 : List.Forall modest (oc_xmins o)).
  { apply Forall_forall. intros x Hx. apply (In_nth _ _ n0) in Hx. destruct Hx as (i & Hi & <-). apply Hdom. lia. }
  assert (F2 : List.Forall modest (oc_xmaxs o)).
  { apply Forall_forall. intros x Hx. apply (In_nth _ _ n0) in Hx. destruct Hx as (i & Hi & <-). apply Hdom. lia. }
  assert (V : valid_key ndims nlevs key) by (split; auto; lia).
  assert (V2 : forall q, (0 <= q < 2 ^ Z.of_nat ndims)%Z -> valid_key ndims nlevs (key ++ [q])).
  { intros q Hq. split; [rewrite app_length; cbn [length]; lia|]. intros d Hd. apply in_app_or in Hd. destruct Hd as [Hd|[<-|[]]]; auto. }
  set (sc := fun j => scaled (fval (nth j (oc_xmins o) n0)) (fval (nth j (oc_xmaxs o) n0))).
  set (f := fun j => dyad (map (digit (2 ^ (Z.of_nat ndims - 1 - Z.of_nat j))) key)).
  set (h := / 2 ^ length key).
  assert (HP : 0 < h) by (unfold h; apply Rinv_0_lt_compat, pow2_pos).
  assert (P : forall j, (j < ndims)%nat -> dbl (nth j (oc_getLo o key) n0) /\ fval (nth j (oc_getLo o key) n0) = sc j (f j) /\
     dbl (nth j (oc_getHi o key) n0) /\ fval (nth j (oc_getHi o key) n0) = sc j (f j + h)).
  { intros j Hj. apply (key_box_F nlevs ndims points o key j H F1 F2 V); auto; lia. }
  assert (C : forall q j, (0 <= q < 2 ^ Z.of_nat ndims)%Z -> (j < ndims)%nat ->
     let b := digit (2 ^ (Z.of_nat ndims - 1 - Z.of_nat j)) q in
     dbl (nth j (oc_getLo o (key ++ [q])) n0) /\ fval (nth j (oc_getLo o (key ++ [q])) n0) = sc j (f j + IZR b * (h / 2)) /\
     dbl (nth j (oc_getHi o (key ++ [q])) n0) /\ fval (nth j (oc_getHi o (key ++ [q])) n0) = sc j (f j + (IZR b + 1) * (h / 2))).
  { intros q j Hq Hj b.
    assert (K := key_box_F nlevs ndims points o (key ++ [q]) j H F1 F2 (V2 q Hq) ltac:(rewrite app_length; simpl; lia) Hj). cbv zeta in K.
    rewrite map_app, dyad_app, map_length, app_length in K. fold (f j) in K. simpl map in K. fold b in K. cbn [dyad length] in K. rewrite pow_add, pow_1 in K.
    assert (NZ : 2 ^ length key <> 0) by (apply Rgt_not_eq, pow2_pos).
    replace (f j + (IZR b + 0) / 2 / 2 ^ length key) with (f j + IZR b * (h / 2)) in K by (unfold h; field; auto).
    replace (f j + IZR b * (h / 2) + / (2 ^ length key * 2)) with (f j + (IZR b + 1) * (h / 2)) in K by (unfold h; field; auto).
    exact K. }
  assert (W : forall j a b, (j < ndims)%nat -> a <= b -> sc j a <= sc j b).
  { intros j a b Hj L. unfold sc. apply scaled_le; auto. destruct (Hdom j Hj) as ([D1 _] & [D2 _] & E). rewrite f_le in E by auto. revert E. unfold Rleb. destruct (Rle_dec _ _); [auto|discriminate]. }
  assert (NLE : forall x y, dbl x -> dbl y -> nle x y = true <-> fval x <= fval y).
  { intros x y Dx Dy. rewrite f_le by auto. unfold Rleb. destruct (Rle_dec _ _); split; auto; try lra; discriminate. }
  assert (NLT : forall x y, dbl x -> dbl y -> nlt x y = true <-> fval x < fval y).
  { intros x y Dx Dy. rewrite f_lt by auto. unfold Rltb. destruct (Rlt_dec _ _); split; auto; try lra; discriminate. }
  split; [|split].
  - intros pt Hpt.
    destruct (choose_digits ndims (fun j b => sc j (f j + IZR b * (h / 2)) <= fval (nth j pt n0) <= sc j (f j + (IZR b + 1) * (h / 2)))) as (q & Hq & G).
    { intros j Hj. destruct (Hpt j Hj) as (D & A & B). destruct (P j Hj) as (P1 & P2 & P3 & P4). rewrite NLE in A, B by auto. rewrite P2 in A. rewrite P4 in B.
      destruct (Rle_dec (fval (nth j pt n0)) (sc j (f j + h / 2))) as [L|L].
      - exists 0%Z. split; auto. replace (f j + 0 * (h / 2)) with (f j) by lra. replace (f j + (0 + 1) * (h / 2)) with (f j + h / 2) by lra. auto.
      - exists 1%Z. split; auto. replace (f j + 1 * (h / 2)) with (f j + h / 2) by lra. replace (f j + (1 + 1) * (h / 2)) with (f j + h) by lra. lra. }
    exists q. split; auto. intros j Hj. destruct (C q j Hq Hj) as (C1 & C2 & C3 & C4). destruct (Hpt j Hj) as (D & _). rewrite !NLE by auto. rewrite C2, C4. apply G; auto.
  - intros q j Hq Hj. destruct (C q j Hq Hj) as (C1 & C2 & C3 & C4). destruct (P j Hj) as (P1 & P2 & P3 & P4). rewrite !NLE by auto. rewrite C2, C4, P2, P4.
    assert (B : 0 <= IZR (digit (2 ^ (Z.of_nat ndims - 1 - Z.of_nat j)) q) <= 1).
    { destruct (digit_binary (2 ^ (Z.of_nat ndims - 1 - Z.of_nat j)) q) as [E|E]; rewrite E; simpl; lra. }
    split; [|split]; apply W; auto; nra.
  - intros p q pt Hp Hq Hne Hpp Hqq. apply Hne. apply (digits_inj ndims); auto.
    intros j Hj. destruct (C p j Hp Hj) as (P1 & P2 & P3 & P4). destruct (C q j Hq Hj) as (Q1 & Q2 & Q3 & Q4).
    destruct (Hpp j Hj) as (D & A1 & A2). destruct (Hqq j Hj) as (B1 & B2). rewrite NLT in A1, A2, B1, B2 by auto. rewrite P2 in A1. rewrite P4 in A2. rewrite Q2 in B1. rewrite Q4 in B2.
    destruct (digit_binary (2 ^ (Z.of_nat ndims - 1 - Z.of_nat j)) p) as [E|E];
    destruct (digit_binary (2 ^ (Z.of_nat ndims - 1 - Z.of_nat j)) q) as [E'|E']; rewrite E, E' in *; auto; exfalso.
    + replace (f j + (0 + 1) * (h / 2)) with (f j + 1 * (h / 2)) in A2 by lra. lra.
    + replace (f j + (0 + 1) * (h / 2)) with (f j + 1 * (h / 2)) in B2 by lra. lra.
Qed.

(** ** Keys *)
Lemma format_up : forall x n, generic_format radix2 (SpecFloat.fexp fprec femax) x -> generic_format radix2 (SpecFloat.fexp fprec femax) (x * 2 ^ n).
Proof.
  intros x n G. rewrite pow_bpow.
  assert (G' : generic_format radix2 (FLT_exp (SpecFloat.emin fprec femax) fprec) x) by exact G.
  apply FLT_format_generic in G'; [|reflexivity]. destruct G' as [[m e] E B Hmin]. simpl in B, Hmin.
  apply generic_format_FLT. exists (Float radix2 m (e + Z.of_nat n)); simpl; auto; [|lia].
  rewrite E. unfold F2R. simpl Fnum. simpl Fexp. rewrite bpow_plus. ring.
Qed.

Lemma format_sub_dy : forall el x b k, dbl x -> dbl b -> (0 <= k)%Z -> fval b = IZR k / 2 ^ el -> 0 <= fval x - fval b <= / 2 ^ el ->
  generic_format radix2 (SpecFloat.fexp fprec femax) (fval x - fval b).
Proof.
  intros el x b k Dx Db Hk Eb H. destruct (Z.eq_dec k 0) as [->|NZ].
  - replace (fval x - fval b) with (fval x); [apply dbl_format; auto|]. rewrite Eb. unfold Rdiv. ring.
  - assert (P : 0 < / 2 ^ el) by (apply Rinv_0_lt_compat, pow2_pos). assert (1 <= IZR k) by (apply IZR_le; lia).
    assert (L : / 2 ^ el <= fval b) by (rewrite Eb; unfold Rdiv; nra).
    apply Sterbenz.sterbenz; auto with typeclass_instances; try (apply dbl_format; auto). lra.
Qed.

Lemma clamp_F : forall y : spec_float, dbl y -> 0 <= fval y <= 2 ->
  exists d, bit d /\ ntoZ (smin (nofZ 1) (smax (nofZ 0) (nfloor y))) = Some d /\
    ntoZ (smin (nofZ 1) (smax (nofZ 0) (nfloor (fval y)))) = Some d /\ 0 <= fval y - IZR d <= 1.
Proof.
  intros y D P. destruct (min_max_floor (fval y) P) as (d & Hd & E & B1 & B2 & B3). exists d. split; [exact Hd|]. split; [|auto].
  destruct (f_ofZ 0 ltac:(lia)) as [ZD ZV]. destruct (f_ofZ 1 ltac:(lia)) as [OD OV].
  destruct (floor_val y D) as [D1 V1].
  { split; [lra|]. apply Rle_trans with 2; [lra|]. change 2 with (bpow radix2 1). apply bpow_le. lia. }
  assert (Q : (0 <= Zfloor (fval y) <= 2)%Z).
  { split; [apply Zfloor_lub; simpl; lra|]. apply le_IZR. eapply Rle_trans; [apply Zfloor_lb|lra]. }
  assert (L := Zfloor_lb (fval y)). assert (U := Zfloor_ub (fval y)).
  unfold smax. rewrite f_lt, ZV, V1 by auto. unfold Rltb.
  destruct (Z.eq_dec (Zfloor (fval y)) 0) as [EZ|NZ].
  - rewrite EZ in *. destruct (Rlt_dec 0 0); [lra|]. replace d with 0%Z; [reflexivity|]. destruct Hd; subst; auto. simpl in *. lra.
  - assert (1 <= IZR (Zfloor (fval y))) by (apply IZR_le; lia). destruct (Rlt_dec 0 (IZR (Zfloor (fval y)))); [|lra].
    unfold smin. rewrite f_lt, OV, V1 by auto. unfold Rltb. destruct (Rlt_dec _ 1); [lra|]. replace d with 1%Z; [reflexivity|].
    destruct Hd as [-> | ->]; auto. exfalso. destruct (Rlt_dec (fval y) 2) as [C|C]; [specialize (B2 C); lra|]. assert (fval y = 2) by lra. specialize (B3 H0). lia.
Qed.

(** State of the key computation. *)
Definition basedF (el : nat) (x b : spec_float) : Prop :=
  dbl b /\ exists k, (0 <= k < 2 ^ Z.of_nat el)%Z /\ fval b = IZR k / 2 ^ el /\ 0 <= fval x - fval b <= / 2 ^ el.

Lemma digit_F : forall el xs xb prods acc, (S el <= 53)%nat -> length xs = length prods -> List.Forall dbl xs -> Forall2 (basedF el) xs xb ->
  exists bs a, oc_digit xs xb prods (nofZ (2 ^ (Z.of_nat el + 1))) acc = Ret (bs, a) /\
    oc_digit (map fval xs) (map fval xb) prods (nofZ (2 ^ (Z.of_nat el + 1))) acc = Ret (map fval bs, a) /\ Forall2 (basedF (S el)) xs bs.
Proof.
  intros el xs. induction xs as [|x xs IH]; intros xb prods acc Hel L F B; inversion B as [|? b ? xb' Bx B']; subst.
  - exists [], acc. destruct prods; simpl; auto.
  - destruct prods as [|p prods]; [discriminate|]. inversion F as [|? ? Dx F']; subst. destruct Bx as [Db (k & Hk & Eb & Hx)].
    assert (ZE : (Z.of_nat el + 1 = Z.of_nat (S el))%Z) by lia.
    assert (P := pow2_pos el). assert (PS : 2 ^ S el = 2 * 2 ^ el) by reflexivity.
    assert (ZS : (2 ^ Z.of_nat (S el) = 2 * 2 ^ Z.of_nat el)%Z) by (rewrite Nat2Z.inj_succ, Z.pow_succ_r by lia; reflexivity).
    assert (HI : / 2 ^ el <= 1) by (rewrite <- Rinv_1; apply Rinv_le_contravar; [lra|]; apply pow_R1_Rle; lra).
    destruct (f_ofZ (2 ^ (Z.of_nat el + 1))) as [FD FV]; [rewrite ZE; assert (Q := pow_le53 (S el) Hel); assert (0 < 2 ^ Z.of_nat (S el))%Z by (apply Z.pow_pos_nonneg; lia); lia|].
    assert (FV' : fval (nofZ (2 ^ (Z.of_nat el + 1))) = 2 ^ S el) by (rewrite FV, ZE; apply pow2_IZR).
    set (fact := nofZ (2 ^ (Z.of_nat el + 1)) : spec_float) in *.
    destruct (f_sub x b Dx Db) as [D1 V1]; [apply small_dy; rewrite Rabs_pos_eq; lra|].
    rewrite (rnd_format _ (format_sub_dy el x b k Dx Db (proj1 Hk) Eb Hx)) in V1.
    assert (Y : 0 <= (fval x - fval b) * 2 ^ S el <= 2).
    { rewrite PS. split; [apply Rmult_le_pos; lra|]. apply Rle_trans with (/ 2 ^ el * (2 * 2 ^ el)); [apply Rmult_le_compat_r; lra|right; field; lra]. }
    destruct (f_mul (nsub x b) fact D1 FD) as [D2 V2]; [rewrite V1, FV'; apply small_dy; rewrite Rabs_pos_eq; lra|].
    rewrite V1, FV' in V2. rewrite (rnd_format _ (format_up _ (S el) (format_sub_dy el x b k Dx Db (proj1 Hk) Eb Hx))) in V2.
    destruct (clamp_F (nmul (nsub x b) fact) D2) as (d & Hd & E1 & E2 & BD); [rewrite V2; exact Y|]. rewrite V2 in E2, BD.
    destruct (f_ofZ d) as [DD DV]; [destruct Hd; subst; lia|].
    assert (QE : fval (nofZ d) / fval fact = IZR d / 2 ^ S el) by (rewrite DV, FV'; reflexivity).
    assert (QB : 0 <= IZR d / 2 ^ S el <= 1).
    { assert (0 < / 2 ^ S el) by (apply Rinv_0_lt_compat, pow2_pos).
      assert (/ 2 ^ S el <= 1) by (rewrite <- Rinv_1; apply Rinv_le_contravar; [lra|]; apply pow_R1_Rle; lra).
      unfold Rdiv. destruct Hd; subst; lra. }
    destruct (f_div (nofZ d) fact DD FD) as [D3 V3]; [rewrite FV'; apply Rgt_not_eq, pow2_pos|rewrite QE; apply small_dy; rewrite Rabs_pos_eq; lra|].
    rewrite QE, rnd_format in V3 by (apply format_dy; [destruct Hd; subst; lia|lia]).
    destruct (dy_add (S el) b (ndiv (nofZ d) fact) (2 * k) d Hel Db D3) as [D4 V4]; [rewrite Eb, mult_IZR, PS; field; lra|exact V3|destruct Hd; subst; lia|].
    assert (V5 : fval (nadd b (ndiv (nofZ d) fact)) = fval b + IZR d / 2 ^ S el).
    { rewrite V4, Eb, plus_IZR, mult_IZR, PS. field. lra. }
    destruct (IH xb' prods (acc + p * d)%Z Hel ltac:(simpl in L; lia) F' B') as (bs & a & I1 & I2 & I3).
    exists (nadd b (ndiv (nofZ d) fact) :: bs), a. split; [|split].
    + cbn [oc_digit]. cbv zeta. rewrite E1. rewrite I1. reflexivity.
    + cbn [oc_digit map]. cbv zeta.
      assert (FR : (nofZ (2 ^ (Z.of_nat el + 1)) : R) = 2 ^ S el) by (cbn [nofZ NumR]; rewrite ZE; apply pow2_IZR).
      rewrite FR in I2 |- *. cbn [nmul nsub nadd ndiv NumR] in *. rewrite E2. rewrite I2. cbn [bind]. do 3 f_equal. rewrite V5. reflexivity.
    + constructor; auto. split; auto. exists (2 * k + d)%Z. split; [destruct Hd; subst; lia|]. split; [exact V4|]. rewrite V5.
      replace (fval x - (fval b + IZR d / 2 ^ S el)) with (((fval x - fval b) * 2 ^ S el - IZR d) * / 2 ^ S el) by (field; apply Rgt_not_eq, pow2_pos).
      assert (0 < / 2 ^ S el) by (apply Rinv_0_lt_compat, pow2_pos). split; [apply Rmult_le_pos; lra|].
      rewrite <- (Rmult_1_l (/ 2 ^ S el)) at 2. apply Rmult_le_compat_r; lra.
Qed.

Lemma keyloop_F : forall prods xs n el xb, (el + n <= 53)%nat -> length xs = length prods -> List.Forall dbl xs -> Forall2 (basedF el) xs xb ->
  oc_keyloop prods xs xb el n = oc_keyloop prods (map fval xs) (map fval xb) el n.
Proof.
  intros prods xs. induction n as [|n IH]; intros el xb Hel L F B; [reflexivity|]. cbn [oc_keyloop].
  destruct (digit_F el xs xb prods 0 ltac:(lia) L F B) as (bs & a & E1 & E2 & B').
  rewrite E1, E2. cbn [bind]. rewrite (IH (S el) bs) by (auto; lia). reflexivity.
Qed.

(** The key of a point: binary digits of its normalised coordinates. *)
Lemma key_digits_F : forall ndims xs n, (n <= 53)%nat -> length xs = ndims -> List.Forall (fun x => dbl x /\ 0 <= fval x <= 1) xs ->
  exists ks, oc_keyloop (oc_prods ndims) xs (repeat (nofZ 0) ndims) 0 n = Ret ks /\ length ks = n /\
    (forall d, In d ks -> (0 <= d < 2 ^ Z.of_nat ndims)%Z) /\
    forall j, (j < ndims)%nat -> let f := dyad (map (digit (2 ^ (Z.of_nat ndims - 1 - Z.of_nat j))) ks) in
      f <= fval (nth j xs n0) <= f + / 2 ^ n /\ (fval (nth j xs n0) = f + / 2 ^ n -> fval (nth j xs n0) = 1).
Proof.
  intros ndims xs n Hn L F. destruct (f_ofZ 0 ltac:(lia)) as [ZD ZV].
  assert (F1 : List.Forall dbl xs) by (eapply Forall_impl; [|exact F]; intros x [D _]; exact D).
  assert (M : map fval (repeat (nofZ 0) ndims) = repeat 0 ndims) by (clear - ZV; induction ndims; cbn [repeat map]; [reflexivity|rewrite ZV, IHndims; reflexivity]).
  rewrite keyloop_F; auto; try (rewrite oc_prods_length; auto).
  2:{ subst ndims. clear - F ZD ZV. induction F as [|x l [D P] F' IH]; [constructor|]. cbn [length repeat]. constructor; auto. split; auto.
      exists 0%Z. split; [simpl; lia|]. rewrite ZV. simpl. rewrite Rinv_1. split; [field|lra]. }
  rewrite M.
  destruct (oc_keyloop_spec ndims (map fval xs) n 0 (repeat 0 ndims)) as (ks & bs & R & A1 & A2 & A3 & A4).
  { rewrite map_length. auto. }
  { split; [rewrite map_length, repeat_length; auto|]. intros j Hj. rewrite nth_repeat, nth_map_fval, pow_O, Rinv_1.
    rewrite map_length in Hj. rewrite Forall_forall in F. destruct (F (nth j xs n0) (nth_In _ _ Hj)) as [_ P]. split; [lra|intros; lra]. }
  exists ks. split; auto. split; auto. split; auto. intros j Hj f. destruct A3 as [_ A3]. rewrite map_length in A3.
  specialize (A3 j ltac:(lia)). specialize (A4 j Hj). rewrite nth_repeat in A4. simpl pow in A4. rewrite Rinv_1, Rplus_0_l, Rmult_1_l in A4. fold f in A4.
  rewrite nth_map_fval, A4 in A3. simpl plus in A3. destruct A3 as [A5 A6]. split; [lra|]. intros E. apply A6. lra.
Qed.

(** ** A point and the box of its key *)
Lemma sub_pos : forall a b, dbl a -> dbl b -> fval b < fval a -> 0 < rnd (fval a - fval b).
Proof.
  intros a b Da Db H.
  assert (L : 0 <= rnd (fval a - fval b)) by (rewrite <- (rnd_Z 0) by lia; apply rnd_le; simpl; lra).
  assert (NZ : rnd (fval a - fval b) <> 0); [|lra].
  unfold rnd. unfold Rminus. apply round_plus_neq_0; auto with typeclass_instances; try (apply dbl_format; auto); try (apply generic_format_opp, dbl_format; auto).
  lra.
Qed.

Lemma dbl_zero : forall z, dbl z -> fval z = 0 -> exists s, z = S754_zero s.
Proof.
  intros z [V F] E. destruct z as [s|s| |s m e]; try discriminate; [eauto|]. exfalso. unfold fval in E. cbn [SF2R] in E.
  destruct s; cbn [cond_Zopp] in E.
  - assert (F2R (Float radix2 (- Z.pos m) e) < 0) by (apply F2R_lt_0; simpl; lia). lra.
  - assert (0 < F2R (Float radix2 (Z.pos m) e)) by (apply F2R_gt_0; simpl; lia). lra.
Qed.

(** Allowance for rounding in a domain from [mn] to [mx]. *)
Definition box_tol (mn mx : R) : R := (Rabs mn + Rabs mx) * / 1125899906842624 + bpow radix2 (-1070).

Lemma tiny_bounds : 0 < etiny /\ etiny <= uround /\ bpow radix2 (-1070) = 16 * etiny /\ 0 < uround.
Proof.
  assert (P : 0 < etiny) by apply bpow_gt_0. split; auto. split; [|split].
  - unfold uround. change (/ 9007199254740992) with (bpow radix2 (-53)). unfold etiny. apply bpow_le. lia.
  - unfold etiny. change (-1070)%Z with (4 + -1074)%Z. rewrite bpow_plus. change (bpow radix2 4) with 16. reflexivity.
  - unfold uround. lra.
Qed.

Lemma normal_axis : forall p mn mx, modest p -> modest mn -> modest mx -> fval mn <= fval p <= fval mx ->
  let x := smin (nofZ 1) (smax (nofZ 0) (ndiv (nsub p mn) (nsub mx mn))) in
  dbl x /\ 0 <= fval x <= 1 /\ Rabs (scaled (fval mn) (fval mx) (fval x) - fval p) <= box_tol (fval mn) (fval mx) /\
  (fval mn < fval mx -> fval x = rnd (rnd (fval p - fval mn) / rnd (fval mx - fval mn))).
Proof.
  intros p mn mx Mp Mn Mx H. cbv zeta. destruct (f_ofZ 0 ltac:(lia)) as [ZD ZV]. destruct (f_ofZ 1 ltac:(lia)) as [OD OV].
  destruct (modest_sub p mn Mp Mn) as (D1 & V1 & _). destruct (modest_sub mx mn Mx Mn) as (D2 & V2 & _).
  destruct tiny_bounds as (T1 & T2 & T3 & T4).
  destruct (Rle_lt_or_eq_dec (fval mn) (fval mx)) as [LT|EQ]; [lra| |].
  - assert (PL := sub_pos mx mn (proj1 Mx) (proj1 Mn) LT). set (len := rnd (fval mx - fval mn)) in *. set (A := rnd (fval p - fval mn)) in *.
    assert (A0 : 0 <= A) by (unfold A; rewrite <- (rnd_Z 0) by lia; apply rnd_le; simpl; lra).
    assert (AL : A <= len) by (unfold A, len; apply rnd_le; lra).
    assert (Q : 0 <= A / len <= 1).
    { split; [apply Rmult_le_pos; auto; left; apply Rinv_0_lt_compat; auto|]. apply Rmult_le_reg_r with len; auto. unfold Rdiv. rewrite Rmult_assoc, Rinv_l by lra. lra. }
    destruct (f_div (nsub p mn) (nsub mx mn) D1 D2) as [D3 V3]; [rewrite V2; lra|rewrite V1, V2; apply small_dy; rewrite Rabs_pos_eq; lra|].
    rewrite V1, V2 in V3. set (q := rnd (A / len)) in *.
    assert (Q0 : 0 <= q <= 1).
    { unfold q. split; [rewrite <- (rnd_Z 0) by lia; apply rnd_le; simpl; lra|]. rewrite <- (rnd_Z 1) by lia. apply rnd_le. lra. }
    assert (X : dbl (smin (nofZ 1) (smax (nofZ 0) (ndiv (nsub p mn) (nsub mx mn)))) /\ fval (smin (nofZ 1) (smax (nofZ 0) (ndiv (nsub p mn) (nsub mx mn)))) = q).
    { destruct (f_smax (nofZ 0) _ ZD D3) as [S1 S2]. destruct (f_smin (nofZ 1) _ OD S1) as [S3 S4]. split; auto. rewrite S4, S2, OV, ZV, V3.
      unfold smin, smax. cbn [nlt NumR]. unfold Rltb. repeat destruct (Rlt_dec _ _); lra. }
    destruct X as [X1 X2]. split; auto. rewrite X2. split; auto. split; [|auto].
    unfold scaled. fold len. set (Y := rnd (q * len)).
    assert (Y0 : 0 <= Y <= len).
    { unfold Y. split; [rewrite <- (rnd_Z 0) by lia; apply rnd_le; simpl; apply Rmult_le_pos; lra|].
      apply Rle_trans with (rnd len); [apply rnd_le; nra|]. right. rewrite <- V2. apply rnd_id. auto. }
    set (W := Rabs (fval mn) + Rabs (fval mx)).
    assert (W0 : 0 <= W) by (unfold W; assert (Z1 := Rabs_pos (fval mn)); assert (Z2 := Rabs_pos (fval mx)); lra).
    assert (Wp : 0 <= fval p - fval mn <= W /\ 0 <= fval mx - fval mn <= W /\ Rabs (fval mn) <= W).
    { unfold W. assert (Z1 := Rabs_pos (fval mx)). assert (Z2 := Rle_abs (fval mx)). assert (Z3 := Rle_abs (- fval mn)). rewrite Rabs_Ropp in Z3. repeat split; lra. }
    assert (E0 := rnd_error (fval mx - fval mn)). fold len in E0. rewrite (Rabs_pos_eq (fval mx - fval mn)) in E0 by lra. apply Rabs_le_inv in E0.
    assert (E1 := rnd_error (fval p - fval mn)). fold A in E1. rewrite (Rabs_pos_eq (fval p - fval mn)) in E1 by lra. apply Rabs_le_inv in E1.
    assert (E2 := rnd_error (A / len)). fold q in E2. rewrite (Rabs_pos_eq (A / len)) in E2 by lra. apply Rabs_le_inv in E2.
    assert (E3 := rnd_error (q * len)). fold Y in E3. rewrite (Rabs_pos_eq (q * len)) in E3 by nra. apply Rabs_le_inv in E3.
    assert (E4 := rnd_error (Y + fval mn)). apply Rabs_le_inv in E4.
    assert (B4 : Rabs (Y + fval mn) <= len + W) by (eapply Rle_trans; [apply Rabs_triang|]; rewrite (Rabs_pos_eq Y) by lra; lra).
    assert (LW : len <= W + uround * W + etiny) by nra.
    assert (E2' : - (uround * A + etiny * len) <= q * len - A <= uround * A + etiny * len).
    { assert (KK : q * len - A = (q - A / len) * len) by (field; lra). assert (KU : uround * A + etiny * len = (uround * (A / len) + etiny) * len) by (field; lra).
      rewrite KK, KU. split; [|apply Rmult_le_compat_r; lra]. rewrite <- Ropp_mult_distr_l_reverse. apply Rmult_le_compat_r; lra. }
    assert (U : uround * Rabs (Y + fval mn) <= uround * (len + W)) by (apply Rmult_le_compat_l; lra).
    assert (U2 : uround * (q * len) <= uround * len) by (apply Rmult_le_compat_l; [lra|nra]).
    assert (U3 : uround * A <= uround * len) by (apply Rmult_le_compat_l; lra).
    assert (U4 : uround * (fval p - fval mn) <= uround * W) by (apply Rmult_le_compat_l; lra).
    assert (U5 : uround * len <= uround * W + uround * (uround * W) + uround * etiny) by (replace (uround * W + uround * (uround * W) + uround * etiny) with (uround * (W + uround * W + etiny)) by ring; apply Rmult_le_compat_l; lra).
    assert (US : uround <= / 1000) by (unfold uround; lra).
    assert (UW : 0 <= uround * W) by (apply Rmult_le_pos; lra).
    assert (U6 : uround * (uround * W) <= / 1000 * (uround * W)) by (apply Rmult_le_compat_r; [exact UW|lra]).
    assert (U7 : uround * etiny <= / 1000 * etiny) by (apply Rmult_le_compat_r; lra).
    assert (U8 : etiny * len <= etiny * W + etiny * (uround * W) + etiny * etiny) by (replace (etiny * W + etiny * (uround * W) + etiny * etiny) with (etiny * (W + uround * W + etiny)) by ring; apply Rmult_le_compat_l; lra).
    assert (U9 : etiny * W <= uround * W) by (apply Rmult_le_compat_r; lra).
    assert (U10 : etiny * (uround * W) <= / 1000 * (uround * W)) by (apply Rmult_le_compat_r; [exact UW|lra]).
    assert (U11 : etiny * etiny <= / 1000 * etiny) by (apply Rmult_le_compat_r; lra).
    unfold box_tol. fold W. rewrite T3.
    replace (W * / 1125899906842624) with (8 * (uround * W)) by (unfold uround; lra).
    clear - E1 E2' E3 E4 U U2 U3 U4 U5 U6 U7 U8 U9 U10 U11 T1 UW.
    apply Rabs_le. lra.
  - assert (EP : fval p = fval mn) by lra.
    assert (Z1 : fval (nsub p mn) = 0) by (rewrite V1, EP, Rminus_diag_eq, (rnd_Z 0) by (lia || reflexivity); reflexivity).
    assert (Z2 : fval (nsub mx mn) = 0) by (rewrite V2, EQ, Rminus_diag_eq, (rnd_Z 0) by (lia || reflexivity); reflexivity).
    destruct (dbl_zero _ D1 Z1) as (s1 & ->). destruct (dbl_zero _ D2 Z2) as (s2 & ->).
    assert (E : smin (nofZ 1) (smax (nofZ 0) (ndiv (S754_zero s1) (S754_zero s2))) = (nofZ 0 : spec_float)) by (destruct s1, s2; reflexivity).
    rewrite E. split; auto. rewrite ZV. split; [lra|]. split; [|lra].
    unfold scaled. rewrite Rmult_0_l, (rnd_Z 0), Rplus_0_l, rnd_id by (lia || apply Mn). rewrite EP, Rminus_diag_eq, Rabs_R0 by reflexivity.
    unfold box_tol. assert (P1 := Rabs_pos (fval mn)). assert (P2 := Rabs_pos (fval mx)). assert (P3 := bpow_gt_0 radix2 (-1070)).
    assert (0 <= (Rabs (fval mn) + Rabs (fval mx)) * / 1125899906842624) by (apply Rmult_le_pos; lra). lra.
Qed.

Lemma normalize_F : forall pt mins maxs, length pt = length mins -> length pt = length maxs ->
  (forall j, (j < length pt)%nat -> modest (nth j pt n0) /\ modest (nth j mins n0) /\ modest (nth j maxs n0) /\ fval (nth j mins n0) <= fval (nth j pt n0) <= fval (nth j maxs n0)) ->
  length (oc_normalize pt mins maxs) = length pt /\ List.Forall (fun x => dbl x /\ 0 <= fval x <= 1) (oc_normalize pt mins maxs) /\
  forall j, (j < length pt)%nat -> nth j (oc_normalize pt mins maxs) n0 =
    smin (nofZ 1) (smax (nofZ 0) (ndiv (nsub (nth j pt n0) (nth j mins n0)) (nsub (nth j maxs n0) (nth j mins n0)))).
Proof.
  induction pt as [|p pt IH]; intros [|a mins] [|b maxs] L1 L2 H; simpl in L1, L2; try lia.
  - cbn [oc_normalize length]. split; auto. split; [constructor|intros; lia].
  - destruct (IH mins maxs ltac:(lia) ltac:(lia) (fun j Hj => H (S j) ltac:(simpl; lia))) as (I1 & I2 & I3).
    cbn [oc_normalize length]. split; [lia|]. split.
    + constructor; auto. destruct (H 0%nat ltac:(simpl; lia)) as (M1 & M2 & M3 & B). cbn [nth] in *. destruct (normal_axis p a b M1 M2 M3 B) as (N1 & N2 & _). auto.
    + intros [|j] Hj; cbn [nth]; auto. apply I3. lia.
Qed.

(** A point of the domain lies in the box of its key, up to rounding, on every axis and every level. *)
Theorem octree_point_F : forall nlevs ndims (points : list spec_float) o,
  oc_new nlevs ndims points = Ret o -> (nlevs <= 53)%nat ->
  forall pt, length pt = ndims ->
  (forall j, (j < ndims)%nat -> modest (nth j pt n0) /\ modest (nth j (oc_getLo o []) n0) /\ modest (nth j (oc_getHi o []) n0) /\
     fval (nth j (oc_getLo o []) n0) <= fval (nth j pt n0) <= fval (nth j (oc_getHi o []) n0)) ->
  forall lev, (1 <= lev <= nlevs)%nat ->
  exists key, oc_getKey o pt lev = Ret key /\ length key = lev /\ (forall d, In d key -> (0 <= d < 2 ^ Z.of_nat ndims)%Z) /\
    forall j, (j < ndims)%nat -> let tol := box_tol (fval (nth j (oc_getLo o []) n0)) (fval (nth j (oc_getHi o []) n0)) in
      dbl (nth j (oc_getLo o key) n0) /\ dbl (nth j (oc_getHi o key) n0) /\
      fval (nth j (oc_getLo o key) n0) - tol <= fval (nth j pt n0) <= fval (nth j (oc_getHi o key) n0) + tol.
Proof.
  intros nlevs ndims points o H HL pt Lp Hp lev Hlev.
  destruct (oc_root _ _ _ _ H) as [R1 R2]. rewrite R1, R2 in *. destruct (oc_corner_length _ _ _ _ H) as [L1 L2].
  assert (I := oc_new_inv _ _ _ _ H). destruct I as (Hn & H1 & H2 & H3 & _).
  assert (F1 : List.Forall modest (oc_xmins o)).
  { apply Forall_forall. intros x Hx. apply (In_nth _ _ n0) in Hx. destruct Hx as (i & Hi & <-). apply Hp. lia. }
  assert (F2 : List.Forall modest (oc_xmaxs o)).
  { apply Forall_forall. intros x Hx. apply (In_nth _ _ n0) in Hx. destruct Hx as (i & Hi & <-). apply Hp. lia. }
  destruct (normalize_F pt (oc_xmins o) (oc_xmaxs o)) as (N1 & N2 & N3); try lia; [intros j Hj; apply Hp; lia|].
  destruct (key_digits_F ndims (oc_normalize pt (oc_xmins o) (oc_xmaxs o)) lev ltac:(lia) ltac:(lia) N2) as (ks & K1 & K2 & K3 & K4).
  exists ks. unfold oc_getKey. rewrite H3, H1. split; auto. split; auto. split; auto. intros j Hj. cbv zeta.
  assert (V : valid_key ndims nlevs ks) by (split; auto; lia).
  destruct (key_box_F nlevs ndims points o ks j H F1 F2 V ltac:(lia) Hj) as (B1 & B2 & B3 & B4).
  destruct (K4 j Hj) as [[K5 K6] _]. destruct (Hp j Hj) as (M1 & M2 & M3 & M4).
  destruct (normal_axis _ _ _ M1 M2 M3 M4) as (X1 & X2 & X3 & _). rewrite <- N3 in X1, X2, X3 by lia.
  split; auto. split; auto. rewrite B2, B4, K2. apply Rabs_le_inv in X3.
  assert (ML : fval (nth j (oc_xmins o) n0) <= fval (nth j (oc_xmaxs o) n0)) by (eapply Rle_trans; apply M4).
  assert (S1 := scaled_le _ _ _ _ ML K5). assert (S2 := scaled_le _ _ _ _ ML K6). split; lra.
Qed.

(** ** Coordinates that are whole numbers of a step *)
Lemma format_ZE : forall k e, (Z.abs k <= 2 ^ 53)%Z -> (-1000 <= e <= 960)%Z -> generic_format radix2 (SpecFloat.fexp fprec femax) (IZR k * bpow radix2 e).
Proof.
  intros k e H He. destruct (Z.eq_dec (Z.abs k) (2 ^ 53)) as [E|E].
  - assert (G : generic_format radix2 (SpecFloat.fexp fprec femax) (IZR (2 ^ 53) * bpow radix2 e)).
    { change (IZR (2 ^ 53)) with (bpow radix2 53). rewrite <- bpow_plus. apply generic_format_bpow. unfold SpecFloat.fexp, fprec, femax, emin. lia. }
    assert (k = 2 ^ 53 \/ k = - 2 ^ 53)%Z as [-> | ->] by lia; [exact G|]. rewrite opp_IZR, Ropp_mult_distr_l_reverse. apply generic_format_opp. exact G.
  - change (IZR k * bpow radix2 e) with (F2R (Float radix2 k e)).
    apply generic_format_FLT. exists (Float radix2 k e); [reflexivity| |unfold emin, fprec, femax; simpl; lia].
    simpl Fnum. change (radix2 ^ fprec)%Z with (2 ^ 53)%Z. lia.
Qed.

Lemma dyad_int : forall ds, List.Forall bit ds -> exists m, (0 <= m < 2 ^ Z.of_nat (length ds))%Z /\ dyad ds = IZR m / 2 ^ length ds.
Proof.
  induction ds as [|d ds IH]; intros F.
  - exists 0%Z. simpl. split; [lia|field].
  - inversion F; subst. destruct (IH H2) as (m & Hm & E). exists (d * 2 ^ Z.of_nat (length ds) + m)%Z. cbn [length]. rewrite Nat2Z.inj_succ, Z.pow_succ_r by lia.
    split; [destruct H1; subst; lia|]. cbn [dyad]. rewrite E, plus_IZR, mult_IZR, pow2_IZR. simpl pow. field. apply Rgt_not_eq, pow2_pos.
Qed.

(** A whole number of steps of 2^e. *)
Definition steps (e : Z) (x : spec_float) (k : Z) : Prop := dbl x /\ (Z.abs k <= 2 ^ 52)%Z /\ fval x = IZR k * bpow radix2 e.

Lemma steps_modest : forall e x k, (-900 <= e <= 900)%Z -> steps e x k -> modest x.
Proof.
  intros e x k He (D & B & E). split; auto. rewrite E, Rabs_mult, (Rabs_pos_eq (bpow radix2 e)) by apply bpow_ge_0. rewrite <- abs_IZR.
  apply Rle_trans with (bpow radix2 52 * bpow radix2 e).
  - apply Rmult_le_compat_r; [apply bpow_ge_0|]. change (bpow radix2 52) with (IZR (2 ^ 52)). apply IZR_le. exact B.
  - rewrite <- bpow_plus. apply bpow_le. lia.
Qed.

Lemma exact_axis : forall e p mn mx a b c k m n, (-900 <= e <= 900)%Z -> steps e mn a -> steps e mx b -> steps e p c -> (a <= c <= b)%Z ->
  (b - a = 2 ^ Z.of_nat k)%Z -> (n <= 53)%nat -> (0 <= m <= 2 ^ Z.of_nat n)%Z ->
  let x := smin (nofZ 1) (smax (nofZ 0) (ndiv (nsub p mn) (nsub mx mn))) in
  (IZR m / 2 ^ n <= fval x -> scaled (fval mn) (fval mx) (IZR m / 2 ^ n) <= fval p) /\
  (fval x <= IZR m / 2 ^ n -> fval p <= scaled (fval mn) (fval mx) (IZR m / 2 ^ n)).
Proof.
  intros e p mn mx a b c k m n He Sa Sb Sc Hc Hk Hn Hm. cbv zeta.
  assert (Ma := steps_modest _ _ _ He Sa). assert (Mb := steps_modest _ _ _ He Sb). assert (Mc := steps_modest _ _ _ He Sc).
  destruct Sa as (Da & Ba & Ea). destruct Sb as (Db & Bb & Eb). destruct Sc as (Dc & Bc & Ec).
  assert (PE := bpow_gt_0 radix2 e). assert (Pk := pow2_pos k). assert (Pn := pow2_pos n).
  assert (HAC : IZR a <= IZR c) by (apply IZR_le; lia). assert (HCB : IZR c <= IZR b) by (apply IZR_le; lia).
  assert (HBA : IZR b - IZR a = 2 ^ k) by (rewrite <- minus_IZR, Hk; apply pow2_IZR).
  assert (K53 : (k <= 53)%nat).
  { destruct (Nat.le_gt_cases k 53); auto. exfalso. assert (2 ^ 54 <= 2 ^ Z.of_nat k)%Z by (apply Z.pow_le_mono_r; lia). lia. }
  destruct (normal_axis p mn mx Mc Ma Mb) as (_ & _ & _ & X).
  { rewrite Ea, Eb, Ec. split; apply Rmult_le_compat_r; lra. }
  specialize (X ltac:(rewrite Ea, Eb; apply Rmult_lt_compat_r; lra)). rewrite X. clear X.
  assert (E1 : rnd (fval p - fval mn) = IZR (c - a) * bpow radix2 e).
  { rewrite Ea, Ec. replace (IZR c * bpow radix2 e - IZR a * bpow radix2 e) with (IZR (c - a) * bpow radix2 e) by (rewrite minus_IZR; ring). apply rnd_format, format_ZE; lia. }
  assert (E2 : rnd (fval mx - fval mn) = 2 ^ k * bpow radix2 e).
  { rewrite Ea, Eb. replace (IZR b * bpow radix2 e - IZR a * bpow radix2 e) with (IZR (b - a) * bpow radix2 e) by (rewrite minus_IZR; ring).
    rewrite <- HBA, <- minus_IZR. apply rnd_format, format_ZE; lia. }
  assert (E3 : rnd (rnd (fval p - fval mn) / rnd (fval mx - fval mn)) = IZR (c - a) / 2 ^ k).
  { rewrite E1, E2. replace (IZR (c - a) * bpow radix2 e / (2 ^ k * bpow radix2 e)) with (IZR (c - a) / 2 ^ k) by (field; lra).
    apply rnd_format, format_dy; [|lia]. lia. }
  rewrite E3. unfold scaled. rewrite E2.
  assert (E4 : rnd (IZR m / 2 ^ n * (2 ^ k * bpow radix2 e)) = IZR m / 2 ^ n * (2 ^ k * bpow radix2 e)).
  { apply rnd_format. replace (IZR m / 2 ^ n * (2 ^ k * bpow radix2 e)) with (IZR m * bpow radix2 (e + Z.of_nat k - Z.of_nat n)).
    - apply format_ZE; [|lia]. assert (Q := pow_le53 n Hn). lia.
    - unfold Z.sub. rewrite !bpow_plus, bpow_opp, <- !pow_bpow. field. lra. }
  rewrite E4. rewrite <- (rnd_id p Dc), Ec, Ea.
  assert (M : IZR m / 2 ^ n * (2 ^ k * bpow radix2 e) + IZR a * bpow radix2 e - IZR c * bpow radix2 e = (IZR m / 2 ^ n - IZR (c - a) / 2 ^ k) * (2 ^ k * bpow radix2 e)).
  { rewrite minus_IZR. field. split; lra. }
  assert (PP : 0 < 2 ^ k * bpow radix2 e) by (apply Rmult_lt_0_compat; auto).
  split; intros L; apply rnd_le.
  - assert ((IZR m / 2 ^ n - IZR (c - a) / 2 ^ k) * (2 ^ k * bpow radix2 e) <= 0) by (rewrite <- (Rmult_0_l (2 ^ k * bpow radix2 e)); apply Rmult_le_compat_r; lra). lra.
  - assert (0 <= (IZR m / 2 ^ n - IZR (c - a) / 2 ^ k) * (2 ^ k * bpow radix2 e)) by (apply Rmult_le_pos; lra). lra.
Qed.

(** Then every point is in the box of its key. *)
Theorem octree_point_exact_F : forall nlevs ndims (points : list spec_float) o,
  oc_new nlevs ndims points = Ret o -> (nlevs <= 53)%nat ->
  forall pt, length pt = ndims ->
  (forall j, (j < ndims)%nat -> exists e a b c k, (-900 <= e <= 900)%Z /\ steps e (nth j (oc_getLo o []) n0) a /\ steps e (nth j (oc_getHi o []) n0) b /\
     steps e (nth j pt n0) c /\ (a <= c <= b)%Z /\ (b - a = 2 ^ Z.of_nat k)%Z) ->
  forall lev, (1 <= lev <= nlevs)%nat ->
  exists key, oc_getKey o pt lev = Ret key /\ length key = lev /\ (forall d, In d key -> (0 <= d < 2 ^ Z.of_nat ndims)%Z) /\
    forall j, (j < ndims)%nat -> nle (nth j (oc_getLo o key) n0) (nth j pt n0) = true /\ nle (nth j pt n0) (nth j (oc_getHi o key) n0) = true.
Proof.
  intros nlevs ndims points o H HL pt Lp Hp lev Hlev.
  destruct (oc_root _ _ _ _ H) as [R1 R2]. rewrite R1, R2 in *. destruct (oc_corner_length _ _ _ _ H) as [L1 L2].
  assert (I := oc_new_inv _ _ _ _ H). destruct I as (Hn & H1 & H2 & H3 & _).
  assert (MD : forall j, (j < ndims)%nat -> modest (nth j pt n0) /\ modest (nth j (oc_xmins o) n0) /\ modest (nth j (oc_xmaxs o) n0) /\
     fval (nth j (oc_xmins o) n0) <= fval (nth j pt n0) <= fval (nth j (oc_xmaxs o) n0)).
  { intros j Hj. destruct (Hp j Hj) as (e & a & b & c & k & He & Sa & Sb & Sc & Hc & _).
    split; [exact (steps_modest _ _ _ He Sc)|]. split; [exact (steps_modest _ _ _ He Sa)|]. split; [exact (steps_modest _ _ _ He Sb)|].
    destruct Sa as (_ & _ & ->). destruct Sb as (_ & _ & ->). destruct Sc as (_ & _ & ->). assert (PE := bpow_gt_0 radix2 e).
    split; apply Rmult_le_compat_r; try lra; apply IZR_le; lia. }
  assert (F1 : List.Forall modest (oc_xmins o)).
  { apply Forall_forall. intros x Hx. apply (In_nth _ _ n0) in Hx. destruct Hx as (i & Hi & <-). apply MD. lia. }
  assert (F2 : List.Forall modest (oc_xmaxs o)).
  { apply Forall_forall. intros x Hx. apply (In_nth _ _ n0) in Hx. destruct Hx as (i & Hi & <-). apply MD. lia. }
  destruct (normalize_F pt (oc_xmins o) (oc_xmaxs o)) as (N1 & N2 & N3); try lia; [intros j Hj; apply MD; lia|].
  destruct (key_digits_F ndims (oc_normalize pt (oc_xmins o) (oc_xmaxs o)) lev ltac:(lia) ltac:(lia) N2) as (ks & K1 & K2 & K3 & K4).
  exists ks. unfold oc_getKey. rewrite H3, H1. split; auto. split; auto. split; auto. intros j Hj.
  assert (V : valid_key ndims nlevs ks) by (split; auto; lia).
  destruct (key_box_F nlevs ndims points o ks j H F1 F2 V ltac:(lia) Hj) as (B1 & B2 & B3 & B4).
  destruct (K4 j Hj) as [[K5 K6] _]. destruct (MD j Hj) as ([M1 _] & _).
  rewrite N3 in K5, K6 by lia.
  destruct (Hp j Hj) as (e & a & b & c & k & He & Sa & Sb & Sc & Hc & Hk).
  destruct (dyad_int _ (map_digit_bits (2 ^ (Z.of_nat ndims - 1 - Z.of_nat j)) ks)) as (m & Hm & Em). rewrite map_length, K2 in Hm, Em.
  rewrite K2 in B4. rewrite Em in B2, B4, K5, K6.
  assert (EH : IZR m / 2 ^ lev + / 2 ^ lev = IZR (m + 1) / 2 ^ lev) by (rewrite plus_IZR; field; apply Rgt_not_eq, pow2_pos). rewrite EH in B4, K6.
  destruct (exact_axis e _ _ _ a b c k m lev He Sa Sb Sc Hc Hk ltac:(lia) ltac:(lia)) as [X1 _].
  destruct (exact_axis e _ _ _ a b c k (m + 1) lev He Sa Sb Sc Hc Hk ltac:(lia) ltac:(lia)) as [_ X2].
  specialize (X1 K5). specialize (X2 K6). rewrite <- B2 in X1. rewrite <- B4 in X2.
  rewrite !f_le by auto. unfold Rleb. destruct (Rle_dec _ _); [|lra]. destruct (Rle_dec _ _); [auto|lra].
Qed.

(** ** Corners of the domain *)
Lemma minmax_F : forall ndims (points : list spec_float) i mins maxs r, (0 < ndims)%nat -> List.Forall dbl points -> List.Forall dbl mins -> List.Forall dbl maxs ->
  foldM (oc_minmax_step ndims) points (i, (mins, maxs)) = Ret r ->
  foldM (oc_minmax_step ndims) (map fval points) (i, (map fval mins, map fval maxs)) = Ret (fst r, (map fval (fst (snd r)), map fval (snd (snd r)))).
Proof.
  intros ndims points. induction points as [|p points IH]; intros i mins maxs r Hn F F1 F2 H; simpl in H.
  - injection H as <-. reflexivity.
  - inversion F as [|? ? Dp F']; subst. apply bind_ret_inv in H. destruct H as ([i1 [m1 M1]] & H1 & H).
    cbn [map foldM]. unfold oc_minmax_step in H1 |- *.
    apply bind_ret_inv in H1. destruct H1 as (mn & G1 & H1). apply bind_ret_inv in H1. destruct H1 as (mx & G2 & H1).
    apply bind_ret_inv in H1. destruct H1 as (m2 & G3 & H1). apply bind_ret_inv in H1. destruct H1 as (M2 & G4 & H1). injection H1 as <- <- <-.
    set (d := (i mod Z.of_nat ndims)%Z) in *. unfold vset in G3, G4.
    destruct ((0 <=? d) && (d <? Z.of_nat (length mins)))%Z eqn:C3; [|discriminate]. injection G3 as <-.
    destruct ((0 <=? d) && (d <? Z.of_nat (length maxs)))%Z eqn:C4; [|discriminate]. injection G4 as <-.
    apply andb_prop in C3, C4. rewrite Z.leb_le, Z.ltb_lt in C3, C4.
    rewrite (vget_nth _ _ n0) in G1 by lia. rewrite (vget_nth _ _ n0) in G2 by lia. injection G1 as <-. injection G2 as <-.
    assert (Dmn : dbl (nth (Z.to_nat d) mins n0)) by (apply Forall_nth; auto; lia).
    assert (Dmx : dbl (nth (Z.to_nat d) maxs n0)) by (apply Forall_nth; auto; lia).
    rewrite (vget_nth (map fval mins) _ 0) by (rewrite map_length; lia). cbn [bind]. rewrite (vget_nth (map fval maxs) _ 0) by (rewrite map_length; lia). cbn [bind].
    unfold vset. rewrite !map_length. destruct (Z.leb_spec 0 d); [|lia]. destruct (Z.ltb_spec d (Z.of_nat (length mins))); [|lia]. destruct (Z.ltb_spec d (Z.of_nat (length maxs))); [|lia].
    cbn [andb bind]. rewrite !nth_map_fval. cbn [nlt NumR]. rewrite <- !f_lt by auto.
    assert (MU : forall l k v, map fval (upd l k v) = upd (map fval l) k (fval v)).
    { induction l as [|y l IHl]; intros [|k] v; simpl; auto. rewrite IHl. reflexivity. }
    assert (MI : forall (b : bool) x y, (if b then fval x else fval y) = fval (if b then x else y)) by (intros []; reflexivity).
    rewrite !MI, <- !MU. fold (oc_minmax_step (T := R) ndims). apply IH; auto; apply upd_Forall; auto; match goal with |- dbl (if ?c then _ else _) => destruct c; auto end.
Qed.

Lemma nmax_val : dbl nmax /\ dbl (nopp nmax).
Proof. split; split; vm_compute; reflexivity. Qed.

(** The corners bound the points. *)
Lemma corners_F : forall nlevs ndims (points : list spec_float) o, oc_new nlevs ndims points = Ret o -> List.Forall dbl points ->
  forall i j, (i < length points / ndims)%nat -> (j < ndims)%nat ->
  fval (nth j (oc_getLo o []) n0) <= fval (nth (i * ndims + j) points n0) <= fval (nth j (oc_getHi o []) n0).
Proof.
  intros nlevs ndims points o H F i j Hi Hj. destruct (oc_root _ _ _ _ H) as [R1 R2]. rewrite R1, R2.
  assert (I := oc_new_inv _ _ _ _ H). destruct I as (Hn & _ & _ & _ & _ & (c & H5) & _). destruct nmax_val as [X1 X2].
  apply minmax_F in H5; auto; try (apply repeat_Forall; auto). cbn [fst snd] in H5.
  apply minmax_bounds in H5; auto; try lia; try (rewrite map_length; apply repeat_length). destruct H5 as [_ MB]. cbn [fst snd] in MB. rewrite map_length in MB.
  assert (LB : (i * ndims + ndims <= length points)%nat).
  { assert (ndims * (length points / ndims) <= length points)%nat by (apply Nat.mul_div_le; lia). nia. }
  specialize (MB (i * ndims + j)%nat ltac:(lia)). cbv zeta in MB. rewrite Z.add_0_l in MB.
  replace (Z.to_nat (Z.of_nat (i * ndims + j) mod Z.of_nat ndims)) with j in MB; [rewrite !nth_map_fval in MB; exact MB|].
  rewrite Nat2Z.inj_add, Nat2Z.inj_mul, Z.add_comm, Z.mod_add, Z.mod_small by lia. lia.
Qed.

Lemma row_nth : forall {A} ndims (points : list A) i j d, (i < length points / ndims)%nat -> (j < ndims)%nat ->
  length (firstn ndims (skipn (i * ndims) points)) = ndims /\ nth j (firstn ndims (skipn (i * ndims) points)) d = nth (i * ndims + j) points d.
Proof.
  intros A ndims points i j d Hi Hj.
  assert (LB : (i * ndims + ndims <= length points)%nat).
  { assert (ndims * (length points / ndims) <= length points)%nat by (apply Nat.mul_div_le; lia). nia. }
  assert (Lpt : length (firstn ndims (skipn (i * ndims) points)) = ndims) by (rewrite firstn_length, skipn_length; lia). split; auto.
  rewrite <- (firstn_skipn (i * ndims) points) at 2. rewrite app_nth2; rewrite firstn_length, Nat.min_l by lia; [|lia].
  replace (i * ndims + j - i * ndims)%nat with j by lia. rewrite <- (firstn_skipn ndims (skipn (i * ndims) points)) at 2. rewrite app_nth1; auto. lia.
Qed.

(** The key stored for each point. *)
Theorem octree_stored_F : forall nlevs ndims (points : list spec_float) o,
  oc_new nlevs ndims points = Ret o -> (1 <= nlevs <= 53)%nat -> List.Forall modest points ->
  length (oc_node2Key o) = (length points / ndims)%nat /\
  forall i, (i < length points / ndims)%nat -> length (nth i (oc_node2Key o) []) = nlevs /\
    forall j, (j < ndims)%nat -> let key := nth i (oc_node2Key o) [] in
      let tol := box_tol (fval (nth j (oc_getLo o []) n0)) (fval (nth j (oc_getHi o []) n0)) in
      fval (nth j (oc_getLo o key) n0) - tol <= fval (nth (i * ndims + j) points n0) <= fval (nth j (oc_getHi o key) n0) + tol.
Proof.
  intros nlevs ndims points o H HL F.
  assert (FD : List.Forall dbl points) by (eapply Forall_impl; [|exact F]; intros x [D _]; exact D).
  assert (I := oc_new_inv _ _ _ _ H). destruct I as (Hn & H1 & H2 & H3 & H4 & (c & H5) & H6).
  apply oc_attach_spec in H6. destruct H6 as [A1 A2]. split; auto. intros i Hi. specialize (A2 i Hi). rewrite H1, H2 in A2.
  destruct (oc_root _ _ _ _ H) as [R1 R2]. destruct (oc_corner_length _ _ _ _ H) as [L1 L2].
  assert (PM : forall j, (j < ndims)%nat -> modest (nth (i * ndims + j) points n0)).
  { intros j Hj. apply Forall_nth; auto. assert (ndims * (length points / ndims) <= length points)%nat by (apply Nat.mul_div_le; lia). nia. }
  assert (MC : List.Forall (fun x => modest x \/ x = nmax) (oc_xmins o) /\ List.Forall (fun x => modest x \/ x = nopp nmax) (oc_xmaxs o)).
  { clear - H5 F Hn.
    assert (G : forall pts i mins maxs r, List.Forall modest pts -> List.Forall (fun x => modest x \/ x = nmax) mins -> List.Forall (fun x => modest x \/ x = nopp nmax) maxs ->
      foldM (oc_minmax_step ndims) pts (i, (mins, maxs)) = Ret r -> List.Forall (fun x => modest x \/ x = nmax) (fst (snd r)) /\ List.Forall (fun x => modest x \/ x = nopp nmax) (snd (snd r))).
    { induction pts as [|p pts IH]; intros i mins maxs r Fp F1 F2 H; simpl in H; [injection H as <-; auto|]. inversion Fp; subst.
      apply bind_ret_inv in H. destruct H as ([i1 [m1 M1]] & H1 & H). unfold oc_minmax_step in H1.
      apply bind_ret_inv in H1. destruct H1 as (mn & G1 & H1). apply bind_ret_inv in H1. destruct H1 as (mx & G2 & H1).
      apply bind_ret_inv in H1. destruct H1 as (m2 & G3 & H1). apply bind_ret_inv in H1. destruct H1 as (M2 & G4 & H1). injection H1 as <- <- <-.
      unfold vset in G3, G4. destruct (_ && _) eqn:C3 in G3; [|discriminate]. injection G3 as <-. destruct (_ && _) eqn:C4 in G4; [|discriminate]. injection G4 as <-.
      apply andb_prop in C3, C4. rewrite Z.leb_le, Z.ltb_lt in C3, C4.
      rewrite (vget_nth _ _ n0) in G1 by lia. rewrite (vget_nth _ _ n0) in G2 by lia. injection G1 as <-. injection G2 as <-.
      revert H. apply IH; auto; apply upd_Forall; auto; match goal with |- context [if ?c then _ else _] => destruct c; auto end.
      - apply (proj1 (Forall_nth _ _) F1). lia.
      - apply (proj1 (Forall_nth _ _) F2). lia. }
    exact (G points 0%Z _ _ _ F (repeat_Forall _ _ _ (or_intror eq_refl)) (repeat_Forall _ _ _ (or_intror eq_refl)) H5). }
  destruct MC as [MC1 MC2].
  assert (BIG : bpow radix2 990 < fval nmax).
  { assert (E : (nmax : spec_float) = S754_finite false 9007199254740991 971) by (vm_compute; reflexivity). rewrite E. unfold fval. cbn [SF2R cond_Zopp]. unfold F2R. simpl Fnum. simpl Fexp.
    change 990%Z with (19 + 971)%Z. rewrite bpow_plus. apply Rmult_lt_compat_r; [apply bpow_gt_0|]. change (bpow radix2 19) with 524288. lra. }
  assert (OPP : fval (nopp nmax) = - fval nmax).
  { assert (E : (nopp nmax : spec_float) = S754_finite true 9007199254740991 971) by (vm_compute; reflexivity).
    assert (E' : (nmax : spec_float) = S754_finite false 9007199254740991 971) by (vm_compute; reflexivity). rewrite E, E'. unfold fval. cbn [SF2R cond_Zopp]. rewrite <- F2R_Zopp. reflexivity. }
  assert (HD : forall j, (j < ndims)%nat -> modest (nth j (firstn ndims (skipn (i * ndims) points)) n0) /\ modest (nth j (oc_getLo o []) n0) /\ modest (nth j (oc_getHi o []) n0) /\
     fval (nth j (oc_getLo o []) n0) <= fval (nth j (firstn ndims (skipn (i * ndims) points)) n0) <= fval (nth j (oc_getHi o []) n0)).
  { intros j Hj. destruct (row_nth ndims points i j n0 Hi Hj) as [_ ->]. assert (B := corners_F _ _ _ _ H FD i j Hi Hj). rewrite R1, R2 in *.
    assert (P := PM j Hj). destruct P as [_ P]. apply Rabs_le_inv in P.
    split; [apply PM; auto|]. split; [|split; [|exact B]].
    - destruct (proj1 (Forall_nth _ _) MC1 j n0 ltac:(lia)) as [M|M]; auto. rewrite M in B. exfalso. lra.
    - destruct (proj1 (Forall_nth _ _) MC2 j n0 ltac:(lia)) as [M|M]; auto. rewrite M in B. exfalso. lra. }
  destruct (octree_point_F nlevs ndims points o H ltac:(lia) (firstn ndims (skipn (i * ndims) points)) (proj1 (row_nth ndims points i 0 n0 Hi Hn)) HD nlevs ltac:(lia))
    as (key & K1 & K2 & K3 & K4).
  assert (key = nth i (oc_node2Key o) []) by congruence. subst key. split; auto.
  intros j Hj. cbv zeta. destruct (K4 j Hj) as (_ & _ & K5). destruct (row_nth ndims points i j n0 Hi Hj) as [_ E]. rewrite E in K5. exact K5.
Qed.
