(** Rounding of weighted sums in IEEE arithmetic. *)
From Coq Require Import ZArith List Bool Reals Lra Lia Floats.SpecFloat.
From Flocq Require Import Core BinarySingleNaN.
From Verif Require Import Base Num NumF L_Float L_FloatOps.
Import ListNotations.
Open Scope R_scope.

(** The sum of products the code computes, from the left. *)
Definition dotF (acc : spec_float) (l : list (spec_float * spec_float)) : spec_float :=
  fold_left (fun s wd => nadd s (nmul (fst wd) (snd wd))) l acc.

(** The exact sum and the sum of the magnitudes of the terms. *)
Definition dot_exact (l : list (spec_float * spec_float)) : R := fold_right (fun wd s => fval (fst wd) * fval (snd wd) + s) 0 l.
Definition dot_size (l : list (spec_float * spec_float)) : R := fold_right (fun wd s => Rabs (fval (fst wd) * fval (snd wd)) + s) 0 l.

Definition pair_dbl (wd : spec_float * spec_float) : Prop := dbl (fst wd) /\ dbl (snd wd).

Lemma dot_size_pos : forall l, 0 <= dot_size l.
Proof. induction l as [|wd l IH]; simpl; [lra|]. assert (A := Rabs_pos (fval (fst wd) * fval (snd wd))). lra. Qed.

Lemma dot_exact_le : forall l, Rabs (dot_exact l) <= dot_size l.
Proof.
  induction l as [|wd l IH]; simpl; [rewrite Rabs_R0; lra|].
  eapply Rle_trans; [apply Rabs_triang|]. lra.
Qed.

Lemma etiny_pos : 0 < etiny.
Proof. apply bpow_gt_0. Qed.
Lemma etiny_small : etiny <= 1.
Proof. unfold etiny. apply (bpow_le radix2 (-1074) 0). lia. Qed.
Lemma u_pos : 0 < uround < / 1000.
Proof. unfold uround. split; [apply Rinv_0_lt_compat; lra|]. apply Rinv_lt_contravar; lra. Qed.

Lemma p900 : 100 <= bpow radix2 900 /\ 8 * bpow radix2 900 <= bpow radix2 1000.
Proof.
  split.
  - apply Rle_trans with (bpow radix2 7); [simpl; lra|]. apply bpow_le. lia.
  - replace 8 with (bpow radix2 3) by (simpl; lra). rewrite <- bpow_plus. apply bpow_le. lia.
Qed.

(** One step: the error grows by three units. *)
Lemma dot_step : forall acc w d k s a, dbl acc -> dbl w -> dbl d -> 0 <= k -> 3 * (k + 1) * uround <= / 2 ->
  Rabs s <= a -> Rabs (fval acc - s) <= 3 * k * uround * a + 3 * k * etiny -> a + Rabs (fval w * fval d) <= bpow radix2 900 -> 
  3 * k * etiny <= 1 ->
  dbl (nadd acc (nmul w d)) /\
  Rabs (fval (nadd acc (nmul w d)) - (s + fval w * fval d)) <= 3 * (k + 1) * uround * (a + Rabs (fval w * fval d)) + 3 * (k + 1) * etiny.
Proof.
  intros acc w d k s a DA DW DD K KU Hs He HB KE.
  assert (U := u_pos). assert (ET := etiny_pos). assert (ES := etiny_small). destruct p900 as [P1 P2].
  assert (A0 : 0 <= a) by (eapply Rle_trans; [apply Rabs_pos|exact Hs]).
  set (t := Rabs (fval w * fval d)) in *. assert (T0 : 0 <= t) by apply Rabs_pos.
  destruct (f_mul w d DW DD) as [DM VM]; [fold t; lra|].
  assert (EM := rnd_error (fval w * fval d)). rewrite <- VM in EM. fold t in EM.
  set (p := fval (nmul w d)) in *.
  assert (BP : Rabs p <= t + uround * t + etiny).
  { replace p with ((p - fval w * fval d) + fval w * fval d) by ring. eapply Rle_trans; [apply Rabs_triang|]. fold t. lra. }
  set (E := 3 * k * uround * a + 3 * k * etiny) in *.
  assert (KA : 3 * k * uround * a <= / 2 * a) by (apply Rmult_le_compat_r; [lra|nra]).
  assert (BA : Rabs (fval acc) <= a + E).
  { replace (fval acc) with ((fval acc - s) + s) by ring. eapply Rle_trans; [apply Rabs_triang|]. lra. }
  assert (UT : uround * t <= t) by nra.
  assert (BS : Rabs (fval acc + p) <= a + E + (t + uround * t + etiny)) by (eapply Rle_trans; [apply Rabs_triang|]; lra).
  destruct (f_add acc (nmul w d) DA DM) as [DS VS].
  { fold p. unfold E in BS. lra. }
  split; auto. assert (EA := rnd_error (fval acc + fval (nmul w d))). rewrite <- VS in EA. fold p in EA.
  set (r := fval (nadd acc (nmul w d))) in *.
  replace (r - (s + fval w * fval d)) with ((r - (fval acc + p)) + (fval acc - s) + (p - fval w * fval d)) by ring.
  eapply Rle_trans; [apply Rabs_triang|]. eapply Rle_trans; [apply Rplus_le_compat_r; apply Rabs_triang|].
  assert (UB : uround * Rabs (fval acc + p) <= uround * (a + E + (t + uround * t + etiny))) by (apply Rmult_le_compat_l; lra).
  assert (UE : uround * E <= / 2 * uround * a + / 2 * etiny).
  { unfold E. assert (X1 : 3 * k * uround <= / 2) by nra.
    assert (X2 : uround * (3 * k * uround * a) <= uround * (/ 2 * a)) by (apply Rmult_le_compat_l; lra).
    assert (X3 : 3 * k * uround * etiny <= / 2 * etiny) by (apply Rmult_le_compat_r; lra). lra. }
  assert (UU : uround * (uround * t) <= / 1000 * (uround * t)) by (apply Rmult_le_compat_r; [apply Rmult_le_pos; lra|lra]).
  assert (UEt : uround * etiny <= / 1000 * etiny) by (apply Rmult_le_compat_r; lra).
  unfold E in *. assert (0 <= uround * a) by (apply Rmult_le_pos; lra). assert (0 <= uround * t) by (apply Rmult_le_pos; lra).
  assert (0 <= 3 * k * uround * t) by (apply Rmult_le_pos; [|lra]; apply Rmult_le_pos; lra).
  lra.
Qed.

Lemma dot_from : forall l acc k s a, dbl acc -> Forall pair_dbl l -> 3 * (INR k + INR (length l)) * uround <= / 2 ->
  Rabs s <= a -> Rabs (fval acc - s) <= 3 * INR k * uround * a + 3 * INR k * etiny -> a + dot_size l <= bpow radix2 900 ->
  dbl (dotF acc l) /\
  Rabs (fval (dotF acc l) - (s + dot_exact l)) <= 3 * (INR k + INR (length l)) * uround * (a + dot_size l) + 3 * (INR k + INR (length l)) * etiny.
Proof.
  induction l as [|[w d] l IH]; intros acc k s a DA DL KU Hs He HB.
  - cbn [dotF fold_left dot_exact dot_size fold_right length INR] in *. rewrite !Rplus_0_r in *. split; auto.
  - inversion DL as [|? ? [DW DD] DL']; subst. cbn [fst snd] in *.
    cbn [dot_size fold_right fst snd] in HB. fold (dot_size l) in HB. assert (SP := dot_size_pos l).
    assert (LI : INR (length ((w, d) :: l)) = INR (length l) + 1) by (cbn [length]; apply S_INR).
    rewrite LI in *. assert (NL := pos_INR (length l)). assert (NK := pos_INR k).
    assert (U := u_pos). assert (ET := etiny_pos).
    assert (EU : etiny <= uround) by (unfold etiny; replace uround with (bpow radix2 (-53)) by (unfold uround; simpl; reflexivity); apply bpow_le; lia).
    destruct (dot_step acc w d (INR k) s a) as [D1 E1]; auto; try lra; try nra.
    destruct (IH (nadd acc (nmul w d)) (S k) (s + fval w * fval d) (a + Rabs (fval w * fval d))) as [D2 E2]; auto; rewrite ?S_INR; try lra.
    + eapply Rle_trans; [apply Rabs_triang|]. lra.
    + split; [exact D2|]. rewrite S_INR in E2. cbn [dotF fold_left dot_exact dot_size fold_right fst snd]. fold (dot_size l) (dot_exact l).
      unfold dotF in E2. replace (s + (fval w * fval d + dot_exact l)) with (s + fval w * fval d + dot_exact l) by ring.
      replace (INR k + (INR (length l) + 1)) with (INR k + 1 + INR (length l)) by ring.
      rewrite <- Rplus_assoc with (r1 := a). exact E2.
Qed.

(** A sum of n products of doubles is a double that differs from the exact sum by at most 3 n units
    of rounding of the sum of the magnitudes, and 3 n times the smallest double. *)
Theorem dot_F : forall l, Forall pair_dbl l -> (Z.of_nat (length l) <= 2 ^ 50)%Z -> dot_size l <= bpow radix2 900 ->
  dbl (dotF n0 l) /\
  Rabs (fval (dotF n0 l) - dot_exact l) <= 3 * INR (length l) * uround * dot_size l + 3 * INR (length l) * etiny.
Proof.
  intros l DL LN HB.
  destruct (f_ofZ 0 ltac:(lia)) as [D0 V0]. change (nofZ 0) with (n0 : spec_float) in *.
  destruct (dot_from l n0 0 0 0) as [D E]; auto.
  - cbn [INR]. rewrite Rplus_0_l. assert (A : INR (length l) <= IZR (2 ^ 50)) by (rewrite INR_IZR_INZ; apply IZR_le; exact LN).
    change (2 ^ 50)%Z with 1125899906842624%Z in A. unfold uround. lra.
  - rewrite Rabs_R0. lra.
  - rewrite V0, Rminus_0_r, Rabs_R0. simpl. lra.
  - lra.
  - split; auto. cbn [INR] in E. rewrite !Rplus_0_l in E. exact E.
Qed.
