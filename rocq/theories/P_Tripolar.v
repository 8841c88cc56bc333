(** Property theorems C56, C62, C63, C64, C65: tripolar grids. *)
From Coq Require Import ZArith List Bool Lia Reals Lra.
From Coq Require Import Floats.SpecFloat.
From Verif Require Import Base Num NumR NumF M_Grids TrigR L_ConserveTable L_Grids.
Import ListNotations.
Open Scope Z_scope.

Lemma in_from_to : forall a b k, In k (from_to a b) <-> a <= k < b.
Proof.
  intros a b k. unfold from_to. rewrite in_map_iff. split.
  - intros (x & <- & I). apply in_range in I. lia.
  - intros H. exists (k - a). split; [lia|]. apply in_range. lia.
Qed.
Lemma from_to_NoDup : forall a b, NoDup (from_to a b).
Proof. intros a b. unfold from_to. apply FinFun.Injective_map_NoDup; [intros x y; lia|apply range_NoDup]. Qed.

(** What every node holds: the formula of the part of the grid it belongs to. *)
Lemma tripolar_nodes : forall {T} {N : Num T} {G : Trig T} nlat nlon cap (lats lons : list T),
  1 <= nlat -> 1 <= nlon -> nlat * nlon <= int_max -> 0 <= cap <= nlat ->
  Z.of_nat (length lats) = nlat * nlon -> Z.of_nat (length lons) = nlat * nlon ->
  exists lats' lons', tripolar_getGrid (mkTripolar (nlat, nlon) cap lats lons) = Ret ((nlon, nlat), mkTripolar (nlat, nlon) cap lats' lons') /\
    length lats' = length lats /\ length lons' = length lons /\
    let di := ndiv (nmul n2 mpi) (nofZ (nlon - 1)) in
    let dj := ndiv mpi (nofZ (nlat - 1)) in
    let latPerim := nsub mpi (nmul (nofZ cap) dj) in
    let dj2 := ndiv (nmul (lit 5 10) mpi) (nofZ (nlat - cap - 1)) in
    forall j i d, 0 <= j < nlat -> 0 <= i < nlon ->
      (nth (Z.to_nat (i + j * nlon)) lons' d, nth (Z.to_nat (i + j * nlon)) lats' d) =
      if j <? cap then tp_low di dj j i
      else if i <? nlon ÷ 2 then tp_first cap latPerim di dj2 j i else tp_second cap latPerim di dj2 nlon j i.
Proof.
  intros T N G nlat nlon cap lats lons H1 H0 HM HC LL LO. unfold tripolar_getGrid. cbn [tp_dims tp_cap tp_lats tp_lons fst snd].
  assert (B1 : nlat <= int_max) by nia. assert (B0 : nlon <= int_max) by nia. unfold int_max in *.
  rewrite !chk_ok by (unfold int_min, int_max; lia). cbn [bind].
  assert (H2 : 0 <= nlon ÷ 2 <= nlon) by (rewrite Z.quot_div_nonneg by lia; split; [apply Z.div_pos; lia|apply Z.div_le_upper_bound; lia]).
  set (di := ndiv (nmul n2 mpi) (nofZ (nlon - 1))). set (dj := ndiv mpi (nofZ (nlat - 1))).
  destruct (rows_ok nlon nlat (range cap) (range nlon) (tp_low di dj) (lons, lats)) as (a & Ea & A1 & A2 & A3 & A4);
    [split; cbn [fst snd]; lia|lia|unfold int_max; nia|apply range_NoDup|apply range_NoDup|intros j I; apply in_range in I; lia|intros i I; apply in_range in I; lia|].
  rewrite Ea. cbn [bind fst snd] in *. repeat (rewrite chk_ok by (unfold int_min, int_max; lia); cbn [bind]).
  set (P := nsub mpi (nmul (nofZ cap) dj)). set (dj2 := ndiv (nmul (lit 5 10) mpi) (nofZ (nlat - cap - 1))).
  destruct (rows_ok nlon nlat (from_to cap nlat) (range (nlon ÷ 2)) (tp_first cap P di dj2) a) as (b & Eb & C1 & C2 & C3 & C4);
    [split; [rewrite A1|rewrite A2]; lia|lia|unfold int_max; nia|apply from_to_NoDup|apply range_NoDup|intros j I; apply in_from_to in I; lia|intros i I; apply in_range in I; lia|].
  rewrite Eb. cbn [bind].
  destruct (rows_ok nlon nlat (from_to cap nlat) (from_to (nlon ÷ 2) nlon) (tp_second cap P di dj2 nlon) b) as (e & Ee & D1 & D2 & D3 & D4);
    [split; [rewrite C1, A1|rewrite C2, A2]; lia|lia|unfold int_max; nia|apply from_to_NoDup|apply from_to_NoDup|intros j I; apply in_from_to in I; lia|intros i I; apply in_from_to in I; lia|].
  rewrite Ee. cbn [bind]. exists (snd e), (fst e). split; [reflexivity|]. split; [congruence|]. split; [congruence|]. cbv zeta.
  intros j i d Hj Hi. change (nth (Z.to_nat (i + j * nlon)) (fst e) d, nth (Z.to_nat (i + j * nlon)) (snd e) d) with (at_ e (i + j * nlon) d).
  destruct (Z.ltb_spec j cap) as [J|J].
  - rewrite D4 by (auto; intros [X _]; apply in_from_to in X; lia). rewrite C4 by (auto; intros [X _]; apply in_from_to in X; lia). apply A3; auto; apply in_range; lia.
  - destruct (Z.ltb_spec i (nlon ÷ 2)) as [I|I].
    + rewrite D4 by (auto; intros [_ X]; apply in_from_to in X; lia). apply C3; auto; [apply in_from_to; lia|apply in_range; lia].
    + apply D3; auto; apply in_from_to; lia.
Qed.

(** C56. Any arithmetic and any mathematical functions.  The constructor and getGrid are defined for
    0 <= capLatIndex <= number of latitudes, and the coordinates returned do not depend on what the
    vectors held before: every entry is written. *)
Theorem C56_all_written : forall (T : Type) (N : Num T) (G : Trig T) nlat nlon cap, 1 <= nlat -> 1 <= nlon -> nlat * nlon <= int_max -> 0 <= cap <= nlat ->
  exists s0 r, tripolar_new nlat nlon cap = Ret s0 /\ tripolar_getGrid s0 = Ret r /\
    Z.of_nat (length (tp_lats (snd r))) = nlat * nlon /\ Z.of_nat (length (tp_lons (snd r))) = nlat * nlon /\
    forall lats lons, Z.of_nat (length lats) = nlat * nlon -> Z.of_nat (length lons) = nlat * nlon ->
      tripolar_getGrid (mkTripolar (nlat, nlon) cap lats lons) = Ret r.
Proof.
  intros T N G nlat nlon cap H1 H0 HM HC. unfold tripolar_new. rewrite chk_ok by (unfold int_min in *; nia). cbn [bind].
  destruct (Z.leb_spec (nlat * nlon) 0); [nia|]. set (z := repeat n0 (Z.to_nat (nlat * nlon))).
  assert (LZ : Z.of_nat (length z) = nlat * nlon) by (unfold z; rewrite repeat_length; lia).
  destruct (tripolar_nodes nlat nlon cap z z H1 H0 HM HC LZ LZ) as (la & lo & E & L1 & L2 & V). eexists. eexists. split; [reflexivity|]. split; [exact E|].
  cbn [snd tp_lats tp_lons]. split; [lia|]. split; [lia|]. intros lats lons LL LO.
  destruct (tripolar_nodes nlat nlon cap lats lons H1 H0 HM HC LL LO) as (la' & lo' & E' & L1' & L2' & V').
  assert (EQ : forall k, 0 <= k < nlat * nlon -> exists j i, 0 <= j < nlat /\ 0 <= i < nlon /\ k = i + j * nlon).
  { intros k Hk. exists (k / nlon), (k mod nlon). assert (M := Z.mod_pos_bound k nlon ltac:(lia)). assert (D := Z.div_mod k nlon ltac:(lia)).
    split; [split; [apply Z.div_pos; lia|apply Z.div_lt_upper_bound; lia]|]. split; [auto|lia]. }
  assert (LA : la' = la).
  { apply (nth_ext _ _ n0 n0); [lia|]. intros k Hk. destruct (EQ (Z.of_nat k)) as (j & i & Hj & Hi & Ek); [lia|].
    assert (X := V j i n0 Hj Hi). assert (Y := V' j i n0 Hj Hi). rewrite <- X in Y. injection Y as _ Y. rewrite <- Ek, !Nat2Z.id in Y. auto. }
  assert (LB : lo' = lo).
  { apply (nth_ext _ _ n0 n0); [lia|]. intros k Hk. destruct (EQ (Z.of_nat k)) as (j & i & Hj & Hi & Ek); [lia|].
    assert (X := V j i n0 Hj Hi). assert (Y := V' j i n0 Hj Hi). rewrite <- X in Y. injection Y as Y _. rewrite <- Ek, !Nat2Z.id in Y. auto. }
  rewrite E', LA, LB. reflexivity.
Qed.
Print Assumptions C56_all_written.

(** Outside of 0 .. number of latitudes the cap index is not checked: an entry outside the vectors is written. *)
Example C56_cap_too_large : forall (T : Type) (N : Num T) (G : Trig T), (let! s := tripolar_new 2 2 3 in tripolar_getGrid s) = Undef OutOfBounds.
Proof. reflexivity. Qed.
Example C56_cap_negative : forall (T : Type) (N : Num T) (G : Trig T), (let! s := tripolar_new 2 2 (-1) in tripolar_getGrid s) = Undef OutOfBounds.
Proof. reflexivity. Qed.

(** C64 is false: getGrid gives the dimensions (longitudes, latitudes), but the longitude index varies
    fastest.  In the other classes the last index varies fastest: there the nodes (0, 2) and (0, 3) of a
    3 x 5 grid are neighbours.  Exact arithmetic, 5 latitudes, 3 longitudes. *)
Open Scope R_scope.
Theorem C64_order_refuted : exists s0 r, tripolar_new (T:=R) 5 3 4 = Ret s0 /\ tripolar_getGrid s0 = Ret r /\ fst r = (3, 5)%Z /\
  nth (0 * 5 + 2) (tp_lats (snd r)) 0 = -90 /\ nth (0 * 5 + 2) (tp_lons (snd r)) 0 = 180 /\
  nth (0 * 5 + 3) (tp_lats (snd r)) 0 = -45 /\ nth (0 * 5 + 3) (tp_lons (snd r)) 0 = -180.
Proof.
  assert (P := PI_RGT_0). set (z := repeat (0 : R) 15).
  destruct (tripolar_nodes (T:=R) 5 3 4 z z) as (la & lo & E & _ & _ & V); [lia|lia|unfold int_max; lia|lia|reflexivity|reflexivity|].
  eexists. eexists. split; [reflexivity|]. split; [exact E|]. split; [reflexivity|]. cbn [snd tp_lats tp_lons].
  assert (V2 := V 0%Z 2%Z 0 ltac:(lia) ltac:(lia)). assert (V3 := V 1%Z 0%Z 0 ltac:(lia) ltac:(lia)). cbn [Z.ltb Z.compare] in V2, V3.
  change (Z.to_nat (2 + 0 * 3)) with 2%nat in V2. change (Z.to_nat (0 + 1 * 3)) with 3%nat in V3.
  unfold tp_low, to_deg, lit, n2 in V2, V3. cbn [nadd nsub nmul ndiv nopp nofZ NumR mpi TrigR] in V2, V3.
  injection V2 as O2 A2. injection V3 as O3 A3. change (0 * 5 + 2)%nat with 2%nat. change (0 * 5 + 3)%nat with 3%nat. rewrite O2, A2, O3, A3.
  change (IZR (3 - 1)) with 2. change (IZR (5 - 1)) with 4. repeat split; field; lra.
Qed.
Print Assumptions C64_order_refuted.

(** What holds: with the dimensions (n, m) returned, the node with the first index i and the second
    index j is at i + j n. *)
Theorem C64_order_partial : forall nlat nlon cap, (2 <= nlat)%Z -> (2 <= nlon)%Z -> (nlat * nlon <= int_max)%Z -> (0 <= cap <= nlat)%Z ->
  exists s0 r, tripolar_new (T:=R) nlat nlon cap = Ret s0 /\ tripolar_getGrid s0 = Ret r /\ fst r = (nlon, nlat) /\
  (* below the cap the nodes are those of the ordinary grid *)
  forall j i, (0 <= j < cap)%Z -> (0 <= i < nlon)%Z -> let k := Z.to_nat (i + j * fst (fst r)) in
    nth k (tp_lats (snd r)) 0 = -90 + 180 * IZR j / IZR (nlat - 1) /\ nth k (tp_lons (snd r)) 0 = -180 + 360 * IZR i / IZR (nlon - 1).
Proof.
  intros nlat nlon cap H1 H0 HM HC. assert (P := PI_RGT_0). unfold tripolar_new. rewrite chk_ok by (unfold int_min in *; nia). cbn [bind].
  destruct (Z.leb_spec (nlat * nlon) 0); [nia|]. change (n0 (T:=R)) with 0. set (z := repeat 0 (Z.to_nat (nlat * nlon))).
  assert (LZ : Z.of_nat (length z) = (nlat * nlon)%Z) by (unfold z; rewrite repeat_length; lia).
  destruct (tripolar_nodes (T:=R) nlat nlon cap z z ltac:(lia) ltac:(lia) HM HC LZ LZ) as (la & lo & E & L1 & L2 & V). eexists. eexists. split; [reflexivity|]. split; [exact E|].
  split; [reflexivity|]. cbn [fst snd tp_lats tp_lons]. intros j i Hj Hi. specialize (V j i 0 ltac:(lia) Hi). destruct (Z.ltb_spec j cap); [|lia].
  unfold tp_low, to_deg, lit, n2 in V. cbn [nadd nsub nmul ndiv nopp nofZ NumR mpi TrigR] in V. injection V as O A. rewrite O, A.
  assert (1 <= IZR (nlat - 1)) by (apply IZR_le; lia). assert (1 <= IZR (nlon - 1)) by (apply IZR_le; lia). split; field; lra.
Qed.
Print Assumptions C64_order_partial.

(** ** The cap *)
Lemma tan_half_pi2 : forall t, 0 <= t <= PI / 4 -> 0 <= tan t <= 1.
Proof.
  intros t H. assert (P := PI_RGT_0). split.
  - rewrite <- tan_0. destruct (Req_dec t 0) as [-> | N]; [lra|]. left. apply tan_increasing; lra.
  - rewrite <- tan_PI4. destruct (Req_dec t (PI / 4)) as [-> | N]; [lra|]. left. apply tan_increasing; lra.
Qed.

Lemma acos_half : forall x, 0 <= x <= 1 -> 0 <= acos x <= PI / 2.
Proof.
  intros x H. assert (B := acos_bound x). split; [lra|]. destruct (Rle_dec (acos x) (PI / 2)); auto. exfalso.
  assert (cos (acos x) < 0) by (apply cos_lt_0; lra). rewrite cos_acos in H0 by lra. lra.
Qed.

(** Latitude (in radian) of a node of the cap with the angles pc and elc. *)
Lemma cap_lat : forall L pc elc, 0 <= L < PI -> 0 <= cos elc -> 0 <= cos pc ->
  PI / 2 - L <= PI / 2 - 2 * atan (tan (L / 2) * tan (5 / 10 * acos (cos elc * cos pc))) <= PI / 2.
Proof.
  intros L pc elc HL HE HP. assert (P := PI_RGT_0). assert (C1 := COS_bound elc). assert (C2 := COS_bound pc).
  assert (X : 0 <= cos elc * cos pc <= 1) by (split; nra). assert (A := acos_half _ X).
  assert (T := tan_half_pi2 (5 / 10 * acos (cos elc * cos pc)) ltac:(lra)).
  assert (TL : 0 <= tan (L / 2)) by (rewrite <- tan_0; destruct (Req_dec (L / 2) 0) as [-> | N]; [lra|left; apply tan_increasing; lra]).
  assert (M : forall x y, x <= y -> atan x <= atan y) by (intros x y [H| ->]; [left; apply atan_increasing; auto|lra]).
  assert (Y1 := M 0 (tan (L / 2) * tan (5 / 10 * acos (cos elc * cos pc))) ltac:(nra)). rewrite atan_0 in Y1.
  assert (Y2 := M (tan (L / 2) * tan (5 / 10 * acos (cos elc * cos pc))) (tan (L / 2)) ltac:(nra)). rewrite atan_tan in Y2 by lra. lra.
Qed.

Lemma cap_rim : forall L pc elc, 0 <= L < PI -> cos elc = 0 -> PI / 2 - 2 * atan (tan (L / 2) * tan (5 / 10 * acos (cos elc * cos pc))) = PI / 2 - L.
Proof.
  intros L pc elc HL ->. assert (P := PI_RGT_0). rewrite Rmult_0_l. replace (acos 0) with (PI / 2) by (rewrite <- cos_PI2, acos_cos by lra; reflexivity).
  replace (5 / 10 * (PI / 2)) with (PI / 4) by field. rewrite tan_PI4, Rmult_1_r, atan_tan by lra. field.
Qed.

(** Longitude of a node of the rim. *)
Lemma rim_lon : forall pc, - (PI / 2) < pc < PI / 2 -> Ratan2 1 (tan pc) = PI / 2 - pc /\ Ratan2 (-1) (tan pc) = pc - PI / 2.
Proof.
  intros pc H. assert (P := PI_RGT_0). assert (C := cos_gt_0 pc ltac:(lra) ltac:(lra)). assert (I := Rinv_0_lt_compat _ C). split.
  - replace 1 with (/ cos pc * sin (PI / 2 - pc)) at 1 by (rewrite sin_shift; field; lra).
    replace (tan pc) with (/ cos pc * cos (PI / 2 - pc)) by (rewrite cos_shift; unfold tan; field; lra). apply atan2_angle; lra.
  - replace (-1) with (/ cos pc * sin (pc - PI / 2)) by (replace (pc - PI / 2) with (- (PI / 2 - pc)) by ring; rewrite sin_neg, sin_shift; field; lra).
    replace (tan pc) with (/ cos pc * cos (pc - PI / 2)) by (replace (pc - PI / 2) with (- (PI / 2 - pc)) by ring; rewrite cos_neg, cos_shift; unfold tan; field; lra).
    apply atan2_angle; lra.
Qed.

(** The angles pc and elc of the nodes of the cap, for the reals. *)
Definition cap_angles (nlat nlon cap j i : Z) : R * R :=
  let ph := 2 * PI / IZR (nlon - 1) in
  let e2 := PI / 2 / IZR (nlat - cap - 1) in
  if (i <? nlon ÷ 2)%Z then (- (PI / 2) + IZR i * ph, PI / 2 - IZR (j - cap) * e2)
  else (- (PI / 2) + IZR (nlon - i - 1) * ph, - (PI / 2) + (1 - 1 / IZR (10 ^ 10)) * IZR (j - cap) * e2).

Lemma cap_nodes : forall nlat nlon cap, (2 <= nlon)%Z -> (nlat * nlon <= int_max)%Z -> (1 <= cap <= nlat - 2)%Z ->
  exists s0 r, tripolar_new (T:=R) nlat nlon cap = Ret s0 /\ tripolar_getGrid s0 = Ret r /\
  let L := PI - IZR cap * (PI / IZR (nlat - 1)) in 0 <= L < PI /\
  forall j i, (cap <= j < nlat)%Z -> (0 <= i < nlon)%Z -> let '(pc, elc) := cap_angles nlat nlon cap j i in
    - (PI / 2) <= pc <= PI / 2 /\ ((0 < i < nlon - 1)%Z -> (2 * i <> nlon - 1)%Z -> - (PI / 2) < pc < PI / 2) /\ 0 <= cos elc /\
    nth (Z.to_nat (i + j * nlon)) (tp_lats (snd r)) 0 = (PI / 2 - 2 * atan (tan (L / 2) * tan (5 / 10 * acos (cos elc * cos pc)))) * (180 / PI) /\
    nth (Z.to_nat (i + j * nlon)) (tp_lons (snd r)) 0 = (0 - Ratan2 (sin elc) (tan pc)) * (180 / PI).
Proof.
  intros nlat nlon cap H0 HM HC. assert (P := PI_RGT_0). unfold tripolar_new. rewrite chk_ok by (unfold int_min in *; nia). cbn [bind].
  destruct (Z.leb_spec (nlat * nlon) 0); [nia|]. change (n0 (T:=R)) with 0. set (z := repeat 0 (Z.to_nat (nlat * nlon))).
  assert (LZ : Z.of_nat (length z) = (nlat * nlon)%Z) by (unfold z; rewrite repeat_length; lia).
  destruct (tripolar_nodes (T:=R) nlat nlon cap z z ltac:(lia) ltac:(lia) HM ltac:(lia) LZ LZ) as (la & lo & E & L1 & L2 & V). eexists. eexists. split; [reflexivity|]. split; [exact E|].
  cbn [fst snd tp_lats tp_lons]. cbv zeta in *. clear E.
  assert (Q1 : 1 <= IZR (nlat - 1)) by (apply IZR_le; lia). assert (Q0 : 1 <= IZR (nlon - 1)) by (apply IZR_le; lia). assert (Q2 : 1 <= IZR (nlat - cap - 1)) by (apply IZR_le; lia).
  assert (QC : 1 <= IZR cap) by (apply IZR_le; lia). assert (QL : IZR cap < IZR (nlat - 1)) by (apply IZR_lt; lia).
  set (L := PI - IZR cap * (PI / IZR (nlat - 1))).
  assert (EQL : PI / IZR (nlat - 1) * IZR (nlat - 1) = PI) by (field; lra). assert (PL : 0 < PI / IZR (nlat - 1)) by (apply Rdiv_lt_0_compat; lra).
  split; [unfold L; split; nra|]. intros j i Hj Hi. unfold cap_angles. cbv zeta. set (e2 := PI / 2 / IZR (nlat - cap - 1)). set (ph := 2 * PI / IZR (nlon - 1)).
  specialize (V j i 0 ltac:(lia) Hi). destruct (Z.ltb_spec j cap); [lia|].
  unfold tp_first, tp_second, tp_node, to_deg, lit, n2, n1, n0 in V. cbn [nadd nsub nmul ndiv nopp nofZ NumR mpi msin mcos mtan macos matan matan2 TrigR] in V.
  assert (PH : 0 < ph) by (unfold ph; apply Rdiv_lt_0_compat; lra). assert (EPH : ph * IZR (nlon - 1) = 2 * PI) by (unfold ph; field; lra).
  assert (E2 : 0 < e2) by (unfold e2; apply Rdiv_lt_0_compat; lra). assert (EE2 : e2 * IZR (nlat - cap - 1) = PI / 2) by (unfold e2; field; lra).
  assert (HQ : (i < nlon ÷ 2)%Z <-> (2 * i < nlon - 1)%Z).
  { rewrite Z.quot_div_nonneg by lia. assert (D := Z.div_mod nlon 2 ltac:(lia)). assert (M := Z.mod_pos_bound nlon 2 ltac:(lia)). lia. }
  assert (GEN : forall k, (0 <= k)%Z -> (2 * k <= nlon - 1)%Z -> - (PI / 2) <= - (PI / 2) + IZR k * ph <= PI / 2 /\ ((0 < k)%Z -> (2 * k < nlon - 1)%Z -> - (PI / 2) < - (PI / 2) + IZR k * ph < PI / 2)).
  { intros k K0 K1. assert (0 <= IZR k) by (apply IZR_le; lia). assert (2 * IZR k <= IZR (nlon - 1)) by (rewrite <- mult_IZR; apply IZR_le; lia). split; [split; nra|].
    intros K2 K3. assert (0 < IZR k) by (apply IZR_lt; lia). assert (2 * IZR k < IZR (nlon - 1)) by (rewrite <- mult_IZR; apply IZR_lt; lia). split; nra. }
  assert (0 <= IZR (j - cap)) by (apply IZR_le; lia). assert (IZR (j - cap) <= IZR (nlat - cap - 1)) by (apply IZR_le; lia).
  assert (0 <= IZR (j - cap) * e2 <= PI / 2) by (split; nra).
  destruct (Z.ltb_spec i (nlon ÷ 2)) as [I|I]; injection V as VO VA; replace (5 / 10 * PI) with (PI / 2) in VA, VO by field.
  - apply HQ in I. destruct (GEN i ltac:(lia) ltac:(lia)) as [G1 G2]. split; auto. split; [intros; apply G2; lia|]. split; [|split; [rewrite VA|rewrite VO]; reflexivity].
    apply cos_ge_0; lra.
  - assert (~ (i < nlon ÷ 2)%Z) as NI by lia. rewrite HQ in NI. destruct (GEN (nlon - i - 1)%Z ltac:(lia) ltac:(lia)) as [G1 G2]. split; auto. split; [intros; apply G2; lia|].
    split; [|split; [rewrite VA|rewrite VO]; reflexivity].
    change (IZR (10 ^ 10)) with 10000000000. rewrite Rmult_assoc. set (t := IZR (j - cap) * e2) in *. apply cos_ge_0; lra.
Qed.

(** C62. Exact arithmetic, at least one row below the cap and two rows in it.  The first row of the cap
    has the latitude and the longitudes of the ordinary grid, so the two parts join (the longitude is
    not claimed where the tangent of the code has no value: at the ends and in the middle of the row);
    all latitudes of the cap are between that of its first row and 90. *)
Theorem C62_cap : forall nlat nlon cap, (2 <= nlon)%Z -> (nlat * nlon <= int_max)%Z -> (1 <= cap <= nlat - 2)%Z ->
  exists s0 r, tripolar_new (T:=R) nlat nlon cap = Ret s0 /\ tripolar_getGrid s0 = Ret r /\
  let lat j i := nth (Z.to_nat (i + j * nlon)) (tp_lats (snd r)) 0 in
  let lon j i := nth (Z.to_nat (i + j * nlon)) (tp_lons (snd r)) 0 in
  let rim := -90 + 180 * IZR cap / IZR (nlat - 1) in
  (forall i, (0 <= i < nlon)%Z -> lat cap i = rim) /\
  (forall i, (0 < i < nlon - 1)%Z -> (2 * i <> nlon - 1)%Z -> lon cap i = -180 + 360 * IZR i / IZR (nlon - 1)) /\
  (forall j i, (cap <= j < nlat)%Z -> (0 <= i < nlon)%Z -> rim <= lat j i <= 90).
Proof.
  intros nlat nlon cap H0 HM HC. assert (P := PI_RGT_0). destruct (cap_nodes nlat nlon cap H0 HM HC) as (s0 & r & E0 & E1 & HL & V). exists s0, r. split; auto. split; auto. cbv zeta in *.
  assert (Q1 : 1 <= IZR (nlat - 1)) by (apply IZR_le; lia). assert (Q0 : 1 <= IZR (nlon - 1)) by (apply IZR_le; lia).
  assert (RIM : (PI / 2 - (PI - IZR cap * (PI / IZR (nlat - 1)))) * (180 / PI) = -90 + 180 * IZR cap / IZR (nlat - 1)) by (field; lra).
  set (L := PI - IZR cap * (PI / IZR (nlat - 1))) in *.
  assert (Q180 : 0 < 180 / PI) by (apply Rdiv_lt_0_compat; lra). assert (E90 : PI / 2 * (180 / PI) = 90) by (field; lra).
  assert (Z0 : IZR (cap - cap) = 0) by (rewrite Z.sub_diag; reflexivity).
  split; [|split].
  - intros i Hi. specialize (V cap i ltac:(lia) Hi). destruct (cap_angles nlat nlon cap cap i) as [pc elc] eqn:EQ. destruct V as (_ & _ & _ & -> & _). rewrite cap_rim; auto.
    unfold cap_angles in EQ. rewrite Z0 in EQ.
    destruct (i <? nlon ÷ 2)%Z; injection EQ as _ <-; rewrite ?Rmult_0_r, Rmult_0_l; [rewrite Rminus_0_r; apply cos_PI2|]. rewrite Rplus_0_r, cos_neg. apply cos_PI2.
  - intros i Hi NM. specialize (V cap i ltac:(lia) ltac:(lia)). destruct (cap_angles nlat nlon cap cap i) as [pc elc] eqn:EQ. destruct V as (_ & PC & _ & _ & ->). specialize (PC Hi NM).
    destruct (rim_lon pc PC) as [R1 R2]. unfold cap_angles in EQ. rewrite Z0 in EQ.
    destruct (i <? nlon ÷ 2)%Z; injection EQ as EP <-; rewrite ?Rmult_0_r, Rmult_0_l.
    + rewrite Rminus_0_r, sin_PI2, R1, <- EP. field. lra.
    + rewrite Rplus_0_r, sin_neg, sin_PI2. replace (- (1)) with (-1) by ring. rewrite R2, <- EP.
      replace (IZR (nlon - i - 1)) with (IZR (nlon - 1) - IZR i) by (rewrite <- minus_IZR; f_equal; lia). field. lra.
  - intros j i Hj Hi. specialize (V j i Hj Hi). destruct (cap_angles nlat nlon cap j i) as [pc elc]. destruct V as (PC & _ & EC & -> & _).
    assert (CP : 0 <= cos pc) by (apply cos_ge_0; lra). assert (B := cap_lat L pc elc HL EC CP). rewrite <- RIM. split; [apply Rmult_le_compat_r; lra|].
    rewrite <- E90. apply Rmult_le_compat_r; lra.
Qed.
Print Assumptions C62_cap.

(** ** The fold *)
Lemma MVT_le : forall f f' a b M, a <= b -> (forall x, a <= x <= b -> derivable_pt_lim f x (f' x)) -> (forall x, a <= x <= b -> f' x <= M) -> f b - f a <= M * (b - a).
Proof.
  intros f f' a b M H D B. destruct H as [H| ->]; [|lra].
  destruct (MVT_cor2 f f' a b H D) as (c & E & Hc). rewrite E. apply Rmult_le_compat_r; [lra|]. apply B. lra.
Qed.

Lemma atan_le : forall x y, x <= y -> atan y - atan x <= y - x.
Proof.
  intros x y H. replace (y - x) with (1 * (y - x)) by ring. apply MVT_le with (f' := fun t => / (1 + t ^ 2)); auto.
  - intros t _. apply derivable_pt_lim_atan.
  - intros t _. rewrite <- Rinv_1 at 2. apply Rinv_le_contravar; [lra|]. nra.
Qed.

Lemma tan_le : forall x y, 0 <= x -> x <= y -> y <= PI / 4 -> tan y - tan x <= 2 * (y - x).
Proof.
  intros x y H0 H H4. assert (P := PI_RGT_0). apply MVT_le with (f' := fun t => 1 + (tan t)²); auto.
  - intros t Ht. assert (I : - PI / 2 < t < PI / 2) by lra. assert (E := derive_pt_tan t I). apply derive_pt_eq_1 in E. replace (1 + (tan t)²) with (1 + tan t ^ 2) by (unfold Rsqr; ring). exact E.
  - intros t Ht. assert (T := tan_half_pi2 t ltac:(lra)). unfold Rsqr. nra.
Qed.

(** The sides of a spherical triangle with a right angle. *)
Lemma acos_sides : forall a b, 0 <= a <= PI / 2 -> - (PI / 2) <= b <= PI / 2 -> Rabs b <= acos (cos a * cos b) <= a + Rabs b.
Proof.
  intros a b Ha Hb. assert (P := PI_RGT_0). set (c := Rabs b). assert (Hc : 0 <= c <= PI / 2) by (unfold c, Rabs; destruct Rcase_abs; lra).
  assert (EC : cos b = cos c) by (unfold c, Rabs; destruct Rcase_abs; [rewrite cos_neg|]; reflexivity). rewrite EC.
  assert (A := cos_ge_0 a ltac:(lra) ltac:(lra)). assert (A1 := COS_bound a). assert (C := cos_ge_0 c ltac:(lra) ltac:(lra)). assert (C1 := COS_bound c).
  assert (SA := sin_ge_0 a ltac:(lra) ltac:(lra)). assert (SC := sin_ge_0 c ltac:(lra) ltac:(lra)).
  assert (B := acos_bound (cos a * cos c)).
  assert (X : cos (acos (cos a * cos c)) = cos a * cos c) by (apply cos_acos; nra). split.
  - apply cos_decr_0; try lra. rewrite X. nra.
  - apply cos_decr_0; try lra. rewrite X, cos_plus. nra.
Qed.

(** C65. Exact arithmetic, cap in the northern hemisphere.  The nodes i and nlon - 1 - i of the last row are
    at the same place up to the number 1e-10 of the code: the first is on the meridian of 0 or -180 (no
    claim where the tangent of the code has no value), the latitudes are less than 2e-8 degrees apart, and the
    latitude of the first is that of the point of the meridian that the code calls pc. *)
Theorem C65_fold : forall nlat nlon cap, (2 <= nlon)%Z -> (nlat * nlon <= int_max)%Z -> (1 <= cap <= nlat - 2)%Z -> (nlat - 1 <= 2 * cap)%Z ->
  exists s0 r, tripolar_new (T:=R) nlat nlon cap = Ret s0 /\ tripolar_getGrid s0 = Ret r /\
  let lat i := nth (Z.to_nat (i + (nlat - 1) * nlon)) (tp_lats (snd r)) 0 in
  let lon i := nth (Z.to_nat (i + (nlat - 1) * nlon)) (tp_lons (snd r)) 0 in
  forall i, (0 <= i)%Z -> (2 * i < nlon - 1)%Z ->
    ((0 < i)%Z -> lon i = if (4 * i <? nlon - 1)%Z then -180 else 0) /\
    lat (nlon - 1 - i)%Z <= lat i <= lat (nlon - 1 - i)%Z + 2 / 10 ^ 8 /\
    ((4 * i = nlon - 1)%Z -> lat i = 90).
Proof.
  intros nlat nlon cap H0 HM HC HN. assert (P := PI_RGT_0). destruct (cap_nodes nlat nlon cap H0 HM HC) as (s0 & r & E0 & E1 & HL & V). exists s0, r. split; auto. split; auto. cbv zeta in *.
  assert (Q1 : 1 <= IZR (nlat - 1)) by (apply IZR_le; lia). assert (Q0 : 1 <= IZR (nlon - 1)) by (apply IZR_le; lia). assert (Q2 : 1 <= IZR (nlat - cap - 1)) by (apply IZR_le; lia).
  assert (QN : IZR (nlat - 1) <= 2 * IZR cap) by (rewrite <- mult_IZR; apply IZR_le; lia).
  set (L := PI - IZR cap * (PI / IZR (nlat - 1))) in *.
  assert (HL2 : L <= PI / 2).
  { unfold L. assert (PI / IZR (nlat - 1) * IZR (nlat - 1) = PI) by (field; lra). assert (0 < PI / IZR (nlat - 1)) by (apply Rdiv_lt_0_compat; lra). nra. }
  assert (Q180 : 0 < 180 / PI) by (apply Rdiv_lt_0_compat; lra).
  intros i Hi HI.
  assert (VF := V (nlat - 1)%Z i ltac:(lia) ltac:(lia)). assert (VS := V (nlat - 1)%Z (nlon - 1 - i)%Z ltac:(lia) ltac:(lia)). unfold cap_angles in VF, VS.
  replace (nlat - 1 - cap)%Z with (nlat - cap - 1)%Z in VF, VS by lia.
  assert (D := Z.div_mod nlon 2 ltac:(lia)). assert (M := Z.mod_pos_bound nlon 2 ltac:(lia)). rewrite Z.quot_div_nonneg in VF, VS by lia.
  destruct (Z.ltb_spec i (nlon / 2)); [|lia]. destruct (Z.ltb_spec (nlon - 1 - i) (nlon / 2)); [lia|]. replace (nlon - (nlon - 1 - i) - 1)%Z with i in VS by lia.
  cbv zeta in VF, VS. set (e := PI / 2 / 10000000000).
  replace (PI / 2 - IZR (nlat - cap - 1) * (PI / 2 / IZR (nlat - cap - 1))) with 0 in VF by (field; lra).
  replace (- (PI / 2) + (1 - 1 / IZR (10 ^ 10)) * IZR (nlat - cap - 1) * (PI / 2 / IZR (nlat - cap - 1))) with (- e) in VS by (unfold e; change (IZR (10 ^ 10)) with 10000000000; field; lra).
  set (pc := - (PI / 2) + IZR i * (2 * PI / IZR (nlon - 1))) in *. destruct VF as (PC & PC' & _ & LA & LO). destruct VS as (_ & _ & _ & LA' & LO'). rewrite cos_neg in LA'.
  assert (He : 0 < e <= PI / 2) by (unfold e; lra).
  assert (S0 := acos_sides 0 pc ltac:(lra) PC). assert (S1 := acos_sides e pc ltac:(lra) PC). rewrite Rplus_0_l in S0.
  assert (T1 : cos e * cos pc <= 1 /\ 0 <= cos e * cos pc).
  { assert (A := cos_ge_0 e ltac:(lra) ltac:(lra)). assert (B := cos_ge_0 pc ltac:(lra) ltac:(lra)). assert (A1 := COS_bound e). assert (B1 := COS_bound pc). split; nra. }
  assert (B2 := acos_half (cos e * cos pc) ltac:(lra)).
  set (u := acos (cos 0 * cos pc)) in *. set (v := acos (cos e * cos pc)) in *. assert (AP := Rabs_pos pc).
  assert (Hu : 0 <= 5 / 10 * u) by lra. assert (Huv : 5 / 10 * u <= 5 / 10 * v) by lra. assert (Hv : 5 / 10 * v <= PI / 4) by lra.
  assert (TL := tan_half_pi2 (L / 2) ltac:(lra)). assert (TU := tan_half_pi2 (5 / 10 * u) ltac:(lra)). assert (TV := tan_half_pi2 (5 / 10 * v) ltac:(lra)).
  assert (TD := tan_le _ _ Hu Huv Hv).
  assert (TM : tan (5 / 10 * u) <= tan (5 / 10 * v)).
  { destruct Huv as [HH| ->]; [|lra]. left. apply tan_increasing; lra. }
  set (tl := tan (L / 2)) in *. set (tu := tan (5 / 10 * u)) in *. set (tv := tan (5 / 10 * v)) in *.
  assert (KM : tl * tu <= tl * tv) by nra. assert (AD := atan_le _ _ KM).
  assert (AM : atan (tl * tu) <= atan (tl * tv)) by (destruct KM as [HH| ->]; [left; apply atan_increasing; auto|lra]).
  split; [|split].
  - intros I0. specialize (PC' ltac:(lia) ltac:(lia)). rewrite LO, sin_0.
    assert (EPC : pc * IZR (nlon - 1) = PI / 2 * IZR (4 * i - (nlon - 1))) by (unfold pc; rewrite (minus_IZR (4 * i)), mult_IZR; field; lra).
    unfold Ratan2. destruct (Z.ltb_spec (4 * i) (nlon - 1)) as [I4|I4].
    + assert (IZR (4 * i - (nlon - 1)) < 0) by (apply IZR_lt; lia). assert (pc < 0) by nra. assert (TN : tan pc < 0) by (apply tan_lt_0; lra).
      destruct (Rlt_dec 0 (tan pc)); [lra|]. destruct (Rlt_dec (tan pc) 0); [|lra]. destruct (Rle_dec 0 0); [|lra].
      replace (0 / tan pc) with 0 by (field; lra). rewrite atan_0. field. lra.
    + assert (0 <= IZR (4 * i - (nlon - 1))) by (apply IZR_le; lia). assert (0 <= pc) by nra.
      assert (TN : 0 <= tan pc) by (destruct (Req_dec pc 0) as [-> |]; [rewrite tan_0; lra|left; apply tan_gt_0; lra]).
      destruct (Rlt_dec 0 (tan pc)); [replace (0 / tan pc) with 0 by (field; lra); rewrite atan_0; field; lra|]. destruct (Rlt_dec (tan pc) 0); [lra|]. destruct (Rlt_dec 0 0); [lra|]. field. lra.
  - rewrite LA, LA'. split; [apply Rmult_le_compat_r; lra|].
    assert (X : (PI / 2 - 2 * atan (tl * tu)) * (180 / PI) = (PI / 2 - 2 * atan (tl * tv)) * (180 / PI) + 2 * (atan (tl * tv) - atan (tl * tu)) * (180 / PI)) by ring.
    rewrite X. apply Rplus_le_compat_l.
    assert (Y : 2 * (atan (tl * tv) - atan (tl * tu)) <= 2 * e) by nra.
    apply Rle_trans with (2 * e * (180 / PI)); [apply Rmult_le_compat_r; lra|]. unfold e. replace (2 * (PI / 2 / 10000000000) * (180 / PI)) with (180 / 10000000000) by (field; lra). lra.
  - intros I4. rewrite LA. assert (pc = 0).
    { unfold pc. replace (nlon - 1)%Z with (4 * i)%Z by lia. rewrite mult_IZR. assert (IZR i <> 0) by (apply not_0_IZR; lia). field. auto. }
    assert (U0 : u = 0) by (rewrite H2 in S0; rewrite Rabs_R0 in S0; lra). unfold tu. rewrite U0, Rmult_0_r, tan_0, Rmult_0_r, atan_0. field. lra.
Qed.
Print Assumptions C65_fold.

(** An 11 x 21 grid with the cap starting at row 7, as in the shipped test. *)
Example C62_nonvacuous : (2 <= 21)%Z /\ (11 * 21 <= int_max)%Z /\ (1 <= 7 <= 11 - 2)%Z /\ (11 - 1 <= 2 * 7)%Z.
Proof. unfold int_max. lia. Qed.

(** ** A cap of one row *)
(** Mathematical functions on doubles that give NaN for NaN, with the M_PI of <cmath>. *)
Definition keeps_nan (G : Trig spec_float) : Prop :=
  mpi (T:=spec_float) = lit 884279719003555 (2 ^ 48) /\
  mcos S754_nan = S754_nan /\ msin S754_nan = S754_nan /\ mtan S754_nan = S754_nan /\ macos S754_nan = S754_nan /\ matan S754_nan = S754_nan /\
  forall x, matan2 S754_nan x = S754_nan.

(** C63 is false: with the cap starting at the last latitude, in IEEE arithmetic, all coordinates of
    the last row are NaN, on every grid. *)
Theorem C63_finite_refuted : forall (G : Trig spec_float) nlat nlon, keeps_nan G -> (1 <= nlat)%Z -> (1 <= nlon)%Z -> (nlat * nlon <= int_max)%Z ->
  exists s0 r, tripolar_new nlat nlon (nlat - 1) = Ret s0 /\ tripolar_getGrid s0 = Ret r /\
    forall i d, (0 <= i < nlon)%Z -> nth (Z.to_nat (i + (nlat - 1) * nlon)) (tp_lats (snd r)) d = S754_nan /\ nth (Z.to_nat (i + (nlat - 1) * nlon)) (tp_lons (snd r)) d = S754_nan.
Proof.
  intros G nlat nlon (K0 & KC & KS & KT & KA & KN & K2) H1 H0 HM. unfold tripolar_new. rewrite chk_ok by (unfold int_min in *; nia). cbn [bind].
  destruct (Z.leb_spec (nlat * nlon) 0); [nia|]. set (z := repeat (n0 (T:=spec_float)) (Z.to_nat (nlat * nlon))).
  assert (LZ : Z.of_nat (length z) = (nlat * nlon)%Z) by (unfold z; rewrite repeat_length; lia).
  destruct (tripolar_nodes nlat nlon (nlat - 1) z z ltac:(lia) ltac:(lia) HM ltac:(lia) LZ LZ) as (la & lo & E & L1 & L2 & V). eexists. eexists. split; [reflexivity|]. split; [exact E|].
  cbn [fst snd tp_lats tp_lons]. cbv zeta in *. clear E. intros i d Hi. specialize (V (nlat - 1)%Z i d ltac:(lia) Hi). rewrite Z.ltb_irrefl in V.
  assert (NODE : forall P pc, tp_node P pc S754_nan = (S754_nan, S754_nan)).
  { intros P pc. unfold tp_node. rewrite KS, KC, K2.
    assert (M1 : forall x : spec_float, nmul S754_nan x = S754_nan) by (intros x; destruct x; reflexivity).
    assert (M2 : forall x : spec_float, nmul x S754_nan = S754_nan) by (intros x; destruct x; reflexivity).
    assert (M3 : forall x : spec_float, nsub x S754_nan = S754_nan) by (intros x; destruct x; reflexivity).
    rewrite !M1, KA, M2, KT, M2, KN, M2, !M3, !M1. reflexivity. }
  unfold tp_first, tp_second in V. rewrite Z.sub_diag in V. replace (nlat - (nlat - 1) - 1)%Z with 0%Z in V by lia. rewrite K0 in V.
  replace (nsub (ndiv (lit 884279719003555 (2 ^ 48)) n2) (nmul (nofZ 0) (ndiv (nmul (lit 5 10) (lit 884279719003555 (2 ^ 48))) (nofZ 0)))) with S754_nan in V by (vm_compute; reflexivity).
  replace (nadd (nopp (ndiv (lit 884279719003555 (2 ^ 48)) n2)) (nmul (nmul (nsub n1 (lit 1 (10 ^ 10))) (nofZ 0)) (ndiv (nmul (lit 5 10) (lit 884279719003555 (2 ^ 48))) (nofZ 0)))) with S754_nan in V by (vm_compute; reflexivity).
  rewrite !NODE in V. destruct (i <? nlon ÷ 2)%Z; injection V; auto.
Qed.
Print Assumptions C63_finite_refuted.

(** Such functions exist. *)
Example C63_nonvacuous : exists G : Trig spec_float, keeps_nan G.
Proof.
  exists {| mpi := lit 884279719003555 (2 ^ 48); msin := fun x => x; mcos := fun x => x; mtan := fun x => x; masin := fun x => x; macos := fun x => x; matan := fun x => x; matan2 := fun y _ => y |}.
  repeat split; reflexivity.
Qed.
