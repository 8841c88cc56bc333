(** Property theorems C21-C24: triangulation and convex hull area. *)
From Coq Require Import ZArith List Bool Lia Reals Lra Permutation Floats.SpecFloat.
From Verif Require Import Base Num NumR NumF M_Triangulate S_Geometry L_Polygon L_Triangulate L_HullGen L_Float S_Area L_FloatOps L_TriangulateF.
Import ListNotations.
Open Scope R_scope.

(** C21. Exact arithmetic, any sort, any memory behind the vector: if the points given are
    those of a convex polygon P (in any order, with repetitions, vertices on edges allowed),
    the area is the area of P. *)
Theorem C21_hull_area : forall srt junk n (points P : list point),
  (forall lt l, Permutation (srt lt l) l) -> (n <= length points)%nat ->
  (forall p, In p (firstn n points) <-> In p P) ->
  convex_ccw P -> NoDup P -> not_flat P -> separated (/ 10 ^ 12) P ->
  tr_hullArea (tr_new (T := R) srt junk n points) = polygon_area P.
Proof.
  intros srt junk n points P SRT Hn HP CV ND NF SEP. apply hull_area; auto.
  unfold epsR, tr_eps. rewrite lit_R.
  replace (IZR 1 / IZR 1000000000000) with (/ 10 ^ 12) by lra. exact SEP.
Qed.
Print Assumptions C21_hull_area.

(** The polygon of the example: a square with the middle of one side. *)
Definition ex_poly : list point := [(0, 0); (1, 0); (2, 0); (2, 2); (0, 2)].

Lemma ex_poly_ok : convex_ccw ex_poly /\ NoDup ex_poly /\ not_flat ex_poly /\ separated (/ 10 ^ 12) ex_poly.
Proof.
  assert (T : 0 < / 10 ^ 12 < 1) by lra. set (e := / 10 ^ 12) in *. clearbody e.
  split; [|split; [|split]].
  - intros i j k H Hk. cbn in Hk.
    destruct i as [|[|[|i]]], j as [|[|[|[|j]]]], k as [|[|[|[|[|k]]]]]; try lia;
      unfold cr, nthp, ex_poly; cbn [nth fst snd]; lra.
  - unfold ex_poly. repeat (constructor; [simpl; intros H; repeat (destruct H as [H|H]; [injection H; intros; lra|]); exact H|]).
    constructor.
  - exists 0%nat, 1%nat, 3%nat. cbn. repeat split; try lia. unfold cr; cbn. lra.
  - unfold separated, ex_poly. split.
    + intros a b Ha Hb. simpl in Ha, Hb.
      repeat (destruct Ha as [<-|Ha]; [|]); try contradiction; repeat (destruct Hb as [<-|Hb]; [|]); try contradiction;
        (left; reflexivity) || (right; unfold sqdist; cbn [fst snd]; lra).
    + intros a b c Ha Hb Hc. simpl in Ha, Hb, Hc.
      repeat (destruct Ha as [<-|Ha]; [|]); try contradiction; repeat (destruct Hb as [<-|Hb]; [|]); try contradiction;
        repeat (destruct Hc as [<-|Hc]; [|]); try contradiction; unfold cr; cbn [fst snd];
        (left; lra) || (right; unfold Rabs; destruct (Rcase_abs _); lra).
Qed.

Example C21_example : forall srt junk, (forall lt l, Permutation (srt lt l) l) ->
  tr_hullArea (tr_new (T := R) srt junk 6 [(2, 2); (1, 0); (0, 0); (2, 2); (0, 2); (2, 0)]) = 4.
Proof.
  intros srt junk H. destruct ex_poly_ok as (A & B & C & D).
  rewrite (C21_hull_area srt junk 6 _ ex_poly); auto.
  - unfold polygon_area, shoelace, ex_poly. cbn [app chain_sum]. unfold det2. cbn [fst snd]. lra.
  - intros p. simpl. intuition.
Qed.

(** The same run in IEEE arithmetic. *)
Definition fpt (p : Z * Z) : spec_float * spec_float := (nofZ (fst p), nofZ (snd p)).
Definition no_junk (i : nat) : spec_float * spec_float := (n0, n0).

Example C21_run : tr_hullArea (tr_new isort no_junk 6 (map fpt [(2, 2); (1, 0); (0, 0); (2, 2); (0, 2); (2, 0)]%Z)) = nofZ 4.
Proof. vm_compute. reflexivity. Qed.

(** The same in IEEE arithmetic, for doubles with whole values: [points] have the values [zs], up to 2^25.
    Any sort, any memory: the result is finite and its value is the area of the polygon, without any
    rounding error, when the doubled area is up to 2^53. *)
Theorem C21_hull_area_ieee : forall srt junk n (points : list (spec_float * spec_float)) (zs P : list (Z * Z)),
  (forall lt l, Permutation (srt lt l) l) -> (n <= length points)%nat -> Forall2 wp points zs ->
  (forall q, In q (firstn n zs) <-> In q P) ->
  convex_ccw (map rpt P) -> NoDup P -> not_flat (map rpt P) -> polygon_area (map rpt P) <= 2 ^ 52 ->
  let a := tr_hullArea (tr_new (T := spec_float) srt junk n points) in
  dbl a /\ fval a = polygon_area (map rpt P).
Proof.
  intros srt junk n points zs P SRT Hn F HP CV ND NF AB a.
  destruct (hull_area_F srt junk n points zs P SRT Hn F HP CV ND NF) as (A & B & _); [lra|]. auto.
Qed.
Print Assumptions C21_hull_area_ieee.

(** No condition on the area when no vertex is on the line through two others. *)
Theorem C21_hull_area_ieee_strict : forall srt junk n (points : list (spec_float * spec_float)) (zs P : list (Z * Z)),
  (forall lt l, Permutation (srt lt l) l) -> (n <= length points)%nat -> Forall2 wp points zs ->
  (forall q, In q (firstn n zs) <-> In q P) -> strict_ccw (map rpt P) -> NoDup P -> (3 <= length P)%nat ->
  let a := tr_hullArea (tr_new (T := spec_float) srt junk n points) in
  dbl a /\ fval a = polygon_area (map rpt P).
Proof.
  intros srt junk n points zs P SRT Hn F HP SC ND L3 a.
  destruct (hull_area_F srt junk n points zs P SRT Hn F HP) as (A & B & _); auto.
  - intros i j k L Hk. left. apply SC; auto.
  - exists 0%nat, 1%nat, 2%nat. rewrite map_length. repeat split; try lia. apply Rgt_not_eq. apply SC; rewrite ?map_length; lia.
  - apply whole_box; auto. intros q Hq. apply HP in Hq. clear - F Hq. revert n Hq.
    induction F as [|p z ps zs W F IH]; intros n I; destruct n; cbn [firstn] in I; try contradiction.
    destruct I as [<-|I]; [|eapply IH; eauto]. destruct W as (_ & _ & B1 & B2). auto.
Qed.
Print Assumptions C21_hull_area_ieee_strict.

Lemma wp_fpt : forall zs, (forall q, In q zs -> (Z.abs (fst q) <= 2 ^ 25 /\ Z.abs (snd q) <= 2 ^ 25)%Z) -> Forall2 wp (map fpt zs) zs.
Proof.
  induction zs as [|q zs IH]; intros H; cbn [map]; constructor; [|apply IH; intros; apply H; simpl; auto].
  destruct (H q (or_introl eq_refl)) as [A B]. exact (conj (f_ofZ (fst q) ltac:(lia)) (conj (f_ofZ (snd q) ltac:(lia)) (conj A B))).
Qed.

Definition ex_zpts : list (Z * Z) := [(2, 2); (1, 0); (0, 0); (2, 2); (0, 2); (2, 0)]%Z.
Definition ex_zpoly : list (Z * Z) := [(0, 0); (1, 0); (2, 0); (2, 2); (0, 2)]%Z.

Example C21_ieee_case : forall srt junk, (forall lt l, Permutation (srt lt l) l) ->
  fval (tr_hullArea (tr_new (T := spec_float) srt junk 6 (map fpt ex_zpts))) = 4.
Proof.
  intros srt junk H. destruct ex_poly_ok as (A & B & C & D).
  assert (AR : polygon_area (map rpt ex_zpoly) = 4) by (unfold polygon_area, shoelace, ex_zpoly, rpt; cbn [map app chain_sum]; unfold det2; cbn [fst snd]; lra).
  rewrite <- AR. apply (C21_hull_area_ieee srt junk 6 _ ex_zpts); auto.
  - apply wp_fpt. unfold ex_zpts. intros q Hq. simpl in Hq. repeat (destruct Hq as [<-|Hq]; [cbn; lia|]). contradiction.
  - intros q. simpl. intuition.
  - apply (NoDup_map_inv rpt). exact B.
  - rewrite AR. lra.
Qed.

(** C22 is false: the hull of these six points has area 253/2, IEEE arithmetic gives 221. *)
Definition c22_pts : list (Z * Z) := [(1, 1); (-1, 1); (-1, -1); (1, -1); (10, 10); (-11, 10)]%Z.
Definition c22_hull : list (Z * Z) := [(-1, -1); (1, -1); (10, 10); (-11, 10)]%Z.

Theorem C22_arbitrary_points_refuted :
  is_hull (map rpt c22_hull) (map rpt c22_pts) /\ polygon_area (map rpt c22_hull) = 253 / 2 /\
  tr_hullArea (tr_new isort no_junk 6 (map fpt c22_pts)) = nofZ 221 /\
  tr_oob (tr_new isort no_junk 6 (map fpt c22_pts)) = false.
Proof.
  split; [|split; [|split; vm_compute; reflexivity]].
  - unfold c22_hull, c22_pts. cbn [map]; unfold rpt; cbn [fst snd]. split; [|split; [|split]].
    + intros i j k H Hk. cbn in Hk.
      destruct i as [|[|i]], j as [|[|[|j]]], k as [|[|[|[|k]]]]; try lia;
        unfold cr, nthp; cbn [nth fst snd]; lra.
    + repeat (constructor; [simpl; intros H; repeat (destruct H as [H|H]; [injection H; intros; lra|]); exact H|]).
      constructor.
    + intros p Hp. simpl in *. intuition.
    + intros p Hp i Hi. cbn in Hi. simpl in Hp.
      destruct i as [|[|[|[|i]]]]; try lia; unfold nthp; cbn;
        repeat (destruct Hp as [<-|Hp]; [unfold cr; cbn [fst snd]; lra|]); contradiction.
  - unfold polygon_area, shoelace, c22_hull. cbn [map app chain_sum]; unfold rpt; cbn [fst snd]. unfold det2. cbn [fst snd]. lra.
Qed.
Print Assumptions C22_arbitrary_points_refuted.

(** C22 is already false for five points, no three of them on a line: 55 for a hull of area 45. *)
Definition c22_five : list (Z * Z) := [(9, 4); (-3, -1); (4, 4); (7, 9); (-1, 3)]%Z.
Definition c22_fhull : list (Z * Z) := [(-3, -1); (9, 4); (7, 9); (-1, 3)]%Z.

Lemma c22_fhull_ok : is_hull (map rpt c22_fhull) (map rpt c22_five).
Proof.
  unfold c22_fhull, c22_five. cbn [map]; unfold rpt; cbn [fst snd]. split; [|split; [|split]].
  - intros i j k H Hk. cbn in Hk.
    destruct i as [|[|i]], j as [|[|[|j]]], k as [|[|[|[|k]]]]; try lia;
      unfold cr, nthp; cbn [nth fst snd]; lra.
  - repeat (constructor; [simpl; intros H; repeat (destruct H as [H|H]; [injection H; intros; lra|]); exact H|]).
    constructor.
  - intros p Hp. simpl in *. intuition.
  - intros p Hp i Hi. cbn in Hi. simpl in Hp.
    destruct i as [|[|[|[|i]]]]; try lia; unfold nthp; cbn;
      repeat (destruct Hp as [<-|Hp]; [unfold cr; cbn [fst snd]; lra|]); contradiction.
Qed.

Lemma c22_fhull_area : polygon_area (map rpt c22_fhull) = 45.
Proof. unfold polygon_area, shoelace, c22_fhull. cbn [map app chain_sum]; unfold rpt; cbn [fst snd]. unfold det2. cbn [fst snd]. lra. Qed.

Theorem C22_five_points_refuted :
  is_hull (map rpt c22_fhull) (map rpt c22_five) /\ polygon_area (map rpt c22_fhull) = 45 /\
  (forall a b c, In a c22_five -> In b c22_five -> In c c22_five -> a <> b -> a <> c -> b <> c -> cr (rpt a) (rpt b) (rpt c) <> 0) /\
  tr_hullArea (tr_new isort no_junk 5 (map fpt c22_five)) = nofZ 55 /\
  tr_oob (tr_new isort no_junk 5 (map fpt c22_five)) = false.
Proof.
  split; [apply c22_fhull_ok|]. split; [apply c22_fhull_area|]. split; [|split; vm_compute; reflexivity].
  unfold c22_five. intros a b c Ha Hb Hc. simpl in Ha, Hb, Hc.
  repeat (destruct Ha as [<-|Ha]; [|]); try contradiction; repeat (destruct Hb as [<-|Hb]; [|]); try contradiction;
    repeat (destruct Hc as [<-|Hc]; [|]); try contradiction; intros N1 N2 N3; try (exfalso; congruence);
    unfold cr, rpt; cbn [fst snd]; lra.
Qed.
Print Assumptions C22_five_points_refuted.

(** C22, what holds for different points no three of which are on a line (beyond the tolerance), any sort
    and any memory, in exact arithmetic: the area is never less than that of the hull, and nothing is read
    behind the end of the vector. *)
Definition general_position (eps : R) (l : list point) : Prop :=
  NoDup l /\ (forall a b, In a l -> In b l -> a <> b -> eps < sqdist a b) /\
  forall a b c, In a l -> In b l -> In c l -> a <> b -> a <> c -> b <> c -> eps < Rabs (cr a b c).

Lemma eps_12 : / 10 ^ 12 = epsR.
Proof. unfold epsR, tr_eps. rewrite lit_R. lra. Qed.

Theorem C22_lower_bound_partial : forall srt junk n (points H : list point),
  (forall lt l, Permutation (srt lt l) l) -> (3 <= n <= length points)%nat ->
  general_position (/ 10 ^ 12) (firstn n points) -> (2 <= length H)%nat -> is_hull H (firstn n points) ->
  polygon_area H <= tr_hullArea (tr_new (T := R) srt junk n points).
Proof. intros srt junk n points H SRT Hn (G1 & G2 & G3) LH HU. rewrite eps_12 in *. apply general_hull; auto. Qed.
Print Assumptions C22_lower_bound_partial.

(** Up to four such points the area is that of the hull. *)
Theorem C22_four_points_partial : forall srt junk n (points H : list point),
  (forall lt l, Permutation (srt lt l) l) -> (3 <= n <= length points)%nat -> (n <= 4)%nat ->
  general_position (/ 10 ^ 12) (firstn n points) -> (2 <= length H)%nat -> is_hull H (firstn n points) ->
  tr_hullArea (tr_new (T := R) srt junk n points) = polygon_area H.
Proof. intros srt junk n points H SRT Hn N4 (G1 & G2 & G3) LH HU. rewrite eps_12 in *. apply general_hull; auto. Qed.
Print Assumptions C22_four_points_partial.

Theorem C23_general_position_partial : forall srt junk n (points H : list point),
  (forall lt l, Permutation (srt lt l) l) -> (3 <= n <= length points)%nat ->
  general_position (/ 10 ^ 12) (firstn n points) -> (2 <= length H)%nat -> is_hull H (firstn n points) ->
  tr_oob (tr_new (T := R) srt junk n points) = false.
Proof. intros srt junk n points H SRT Hn (G1 & G2 & G3) LH HU. rewrite eps_12 in *. apply (general_hull srt junk n points H); auto. Qed.
Print Assumptions C23_general_position_partial.

(** The same in IEEE arithmetic for doubles with whole values up to 2^25, without rounding error. *)
Theorem C22_four_points_ieee_partial : forall srt junk n (points : list (spec_float * spec_float)) (zs H : list (Z * Z)),
  (forall lt l, Permutation (srt lt l) l) -> (3 <= n <= length points)%nat -> (n <= 4)%nat -> Forall2 wp points zs -> NoDup (firstn n zs) ->
  (forall a b c, In a (firstn n zs) -> In b (firstn n zs) -> In c (firstn n zs) -> a <> b -> a <> c -> b <> c -> cr (rpt a) (rpt b) (rpt c) <> 0) ->
  (2 <= length H)%nat -> is_hull (map rpt H) (map rpt (firstn n zs)) ->
  let a := tr_hullArea (tr_new (T := spec_float) srt junk n points) in
  dbl a /\ fval a = polygon_area (map rpt H).
Proof.
  intros srt junk n points zs H SRT Hn N4 F ND GEN LH HU a.
  destruct (general_hull_F srt junk n points zs H SRT Hn F ND GEN LH HU) as (_ & B). auto.
Qed.
Print Assumptions C22_four_points_ieee_partial.

Theorem C23_general_position_ieee_partial : forall srt junk n (points : list (spec_float * spec_float)) (zs H : list (Z * Z)),
  (forall lt l, Permutation (srt lt l) l) -> (3 <= n <= length points)%nat -> Forall2 wp points zs -> NoDup (firstn n zs) ->
  (forall a b c, In a (firstn n zs) -> In b (firstn n zs) -> In c (firstn n zs) -> a <> b -> a <> c -> b <> c -> cr (rpt a) (rpt b) (rpt c) <> 0) ->
  (2 <= length H)%nat -> is_hull (map rpt H) (map rpt (firstn n zs)) ->
  tr_oob (tr_new (T := spec_float) srt junk n points) = false.
Proof.
  intros srt junk n points zs H SRT Hn F ND GEN LH HU.
  destruct (general_hull_F srt junk n points zs H SRT Hn F ND GEN LH HU) as (A & _). exact A.
Qed.
Print Assumptions C23_general_position_ieee_partial.

Example C22_four_points_ieee_case : forall srt junk, (forall lt l, Permutation (srt lt l) l) ->
  fval (tr_hullArea (tr_new (T := spec_float) srt junk 4 (map fpt [(1, 2); (6, 0); (0, 6); (0, 0)]%Z))) = 18 /\
  tr_oob (tr_new (T := spec_float) srt junk 4 (map fpt [(1, 2); (6, 0); (0, 6); (0, 0)]%Z)) = false.
Proof.
  intros srt junk SRT. set (zs := [(1, 2); (6, 0); (0, 6); (0, 0)]%Z). set (H := [(0, 0); (6, 0); (0, 6)]%Z).
  assert (AR : polygon_area (map rpt H) = 18) by (unfold polygon_area, shoelace, H, rpt; cbn [map app chain_sum]; unfold det2; cbn [fst snd]; lra).
  rewrite <- AR.
  assert (F : Forall2 wp (map fpt zs) zs).
  { apply wp_fpt. unfold zs. intros q Hq. simpl in Hq. repeat (destruct Hq as [<-|Hq]; [cbn; lia|]). contradiction. }
  assert (ND : NoDup (firstn 4 zs)) by (repeat constructor; simpl; intros Q; repeat (destruct Q as [Q|Q]; [discriminate Q|]); exact Q).
  assert (GEN : forall a b c, In a (firstn 4 zs) -> In b (firstn 4 zs) -> In c (firstn 4 zs) -> a <> b -> a <> c -> b <> c -> cr (rpt a) (rpt b) (rpt c) <> 0).
  { intros a b c Ha Hb Hc. simpl in Ha, Hb, Hc.
    repeat (destruct Ha as [<-|Ha]; [|]); try contradiction; repeat (destruct Hb as [<-|Hb]; [|]); try contradiction;
      repeat (destruct Hc as [<-|Hc]; [|]); try contradiction; intros N1 N2 N3; try (exfalso; congruence);
      unfold cr, rpt; cbn [fst snd]; lra. }
  assert (HU : is_hull (map rpt H) (map rpt (firstn 4 zs))).
  { unfold zs, H. cbn [firstn map]; unfold rpt; cbn [fst snd]. split; [|split; [|split]].
    + intros i j k L Hk. cbn in Hk. destruct i as [|i], j as [|[|j]], k as [|[|[|k]]]; try lia; unfold cr, nthp; cbn [nth fst snd]; lra.
    + repeat (constructor; [simpl; intros Q; repeat (destruct Q as [Q|Q]; [injection Q; intros; lra|]); exact Q|]). constructor.
    + intros p Hp. simpl in *. intuition.
    + intros p Hp i Hi. cbn in Hi. simpl in Hp.
      destruct i as [|[|[|i]]]; try lia; unfold nthp; cbn; repeat (destruct Hp as [<-|Hp]; [unfold cr; cbn [fst snd]; lra|]); contradiction. }
  split.
  - apply (C22_four_points_ieee_partial srt junk 4 _ zs H); auto; cbn; lia.
  - apply (C23_general_position_ieee_partial srt junk 4 _ zs H); auto; cbn; lia.
Qed.

(** Different points with whole coordinates, no three on a line, are in general position. *)
Lemma whole_general : forall l : list (Z * Z), NoDup l ->
  (forall a b c, In a l -> In b l -> In c l -> a <> b -> a <> c -> b <> c ->
    ((fst b - fst a) * (snd c - snd a) - (snd b - snd a) * (fst c - fst a) <> 0)%Z) ->
  general_position (/ 10 ^ 12) (map rpt l).
Proof.
  intros l ND G.
  assert (INJ : forall x y, rpt x = rpt y -> x = y).
  { intros [x1 x2] [y1 y2] E. injection E as E1 E2. apply eq_IZR in E1, E2. subst. reflexivity. }
  assert (T : / 10 ^ 12 < 1) by lra. set (e := / 10 ^ 12) in *. clearbody e. split; [|split].
  - clear G. induction ND as [|x l NI ND IH]; cbn [map]; constructor; auto.
    intros I. apply in_map_iff in I. destruct I as (y & E & I). apply INJ in E. subst. contradiction.
  - intros a b Ha Hb N. apply in_map_iff in Ha, Hb. destruct Ha as ([a1 a2] & <- & _), Hb as ([b1 b2] & <- & _).
    replace (sqdist _ _) with (IZR ((b1 - a1) * (b1 - a1) + (b2 - a2) * (b2 - a2))) by (unfold sqdist, rpt; cbn [fst snd]; rewrite plus_IZR, !mult_IZR, !minus_IZR; ring). apply (Rlt_le_trans _ 1); [auto|]. apply (IZR_le 1).
    assert (D : (b1 - a1 <> 0 \/ b2 - a2 <> 0)%Z).
    { destruct (Z.eq_dec b1 a1) as [->|]; [|lia]. destruct (Z.eq_dec b2 a2) as [->|]; [|lia]. contradiction. }
    generalize dependent (b1 - a1)%Z. generalize (b2 - a2)%Z. intros u v [D|D].
    + assert (1 <= v * v)%Z by (destruct (Z.lt_ge_cases v 0); nia). nia.
    + assert (1 <= u * u)%Z by (destruct (Z.lt_ge_cases u 0); nia). nia.
  - intros a b c Ha Hb Hc N1 N2 N3. apply in_map_iff in Ha, Hb, Hc. destruct Ha as (a' & <- & Ha), Hb as (b' & <- & Hb), Hc as (c' & <- & Hc).
    assert (Q := G a' b' c' Ha Hb Hc ltac:(congruence) ltac:(congruence) ltac:(congruence)).
    unfold cr, rpt. cbn [fst snd]. rewrite <- !minus_IZR, <- !mult_IZR, <- minus_IZR, <- abs_IZR. apply (Rlt_le_trans _ 1); [auto|]. apply (IZR_le 1). lia.
Qed.

(** The five points: the bound holds (with the result 55 of the run above); four points, one inside the
    triangle of the others: the area 18 of the triangle. *)
Example C22_lower_bound_case : forall srt junk, (forall lt l, Permutation (srt lt l) l) ->
  45 <= tr_hullArea (tr_new (T := R) srt junk 5 (map rpt c22_five)) /\ tr_oob (tr_new (T := R) srt junk 5 (map rpt c22_five)) = false.
Proof.
  intros srt junk SRT.
  assert (G : general_position (/ 10 ^ 12) (firstn 5 (map rpt c22_five))).
  { change (firstn 5 (map rpt c22_five)) with (map rpt c22_five). apply whole_general.
    - unfold c22_five. repeat constructor; simpl; intros H; repeat (destruct H as [H|H]; [discriminate H|]); exact H.
    - unfold c22_five. intros a b c Ha Hb Hc. simpl in Ha, Hb, Hc.
      repeat (destruct Ha as [<-|Ha]; [|]); try contradiction; repeat (destruct Hb as [<-|Hb]; [|]); try contradiction;
        repeat (destruct Hc as [<-|Hc]; [|]); try contradiction; intros N1 N2 N3; try (exfalso; congruence); cbn [fst snd]; lia. }
  rewrite <- c22_fhull_area. split.
  - apply C22_lower_bound_partial; auto; try apply c22_fhull_ok; unfold c22_fhull; cbn; lia.
  - apply (C23_general_position_partial srt junk 5 _ (map rpt c22_fhull)); auto; try apply c22_fhull_ok; unfold c22_fhull; cbn; lia.
Qed.

Example C22_four_points_case : forall srt junk, (forall lt l, Permutation (srt lt l) l) ->
  tr_hullArea (tr_new (T := R) srt junk 4 (map rpt [(1, 2); (6, 0); (0, 6); (0, 0)]%Z)) = 18.
Proof.
  intros srt junk SRT.
  rewrite (C22_four_points_partial srt junk 4 _ (map rpt [(0, 0); (6, 0); (0, 6)]%Z)); auto; try (cbn; lia).
  - unfold polygon_area, shoelace. cbn [map app chain_sum]; unfold rpt; cbn [fst snd]. unfold det2. cbn [fst snd]. lra.
  - change (firstn 4 ?l) with l. apply whole_general.
    + repeat constructor; simpl; intros H; repeat (destruct H as [H|H]; [discriminate H|]); exact H.
    + intros a b c Ha Hb Hc. simpl in Ha, Hb, Hc.
      repeat (destruct Ha as [<-|Ha]; [|]); try contradiction; repeat (destruct Hb as [<-|Hb]; [|]); try contradiction;
        repeat (destruct Hc as [<-|Hc]; [|]); try contradiction; intros N1 N2 N3; try (exfalso; congruence); cbn [fst snd]; lia.
  - cbn [firstn map]; unfold rpt; cbn [fst snd]. split; [|split; [|split]].
    + intros i j k H Hk. cbn in Hk. destruct i as [|i], j as [|[|j]], k as [|[|[|k]]]; try lia; unfold cr, nthp; cbn [nth fst snd]; lra.
    + repeat (constructor; [simpl; intros H; repeat (destruct H as [H|H]; [injection H; intros; lra|]); exact H|]). constructor.
    + intros p Hp. simpl in *. intuition.
    + intros p Hp i Hi. cbn in Hi. simpl in Hp.
      destruct i as [|[|[|i]]]; try lia; unfold nthp; cbn; repeat (destruct Hp as [<-|Hp]; [unfold cr; cbn [fst snd]; lra|]); contradiction.
Qed.

(** C23 is false: a repeated point makes the constructor read behind the end of its vector
    (old values there), points on a line make the result depend on the memory behind it. *)
Theorem C23_reads_own_points_refuted :
  tr_oob (tr_new isort no_junk 5 (map fpt [(0, 0); (1, 0); (0, 1); (1, 1); (1, 1)]%Z)) = true /\
  tr_hullArea (tr_new isort (fun _ => fpt (0, 0)%Z) 3 (map fpt [(0, 0); (1, 0); (2, 0)]%Z)) = nofZ 0 /\
  tr_hullArea (tr_new isort (fun _ => fpt (7, 9)%Z) 3 (map fpt [(0, 0); (1, 0); (2, 0)]%Z)) = nofZ 9.
Proof. repeat split; vm_compute; reflexivity. Qed.
Print Assumptions C23_reads_own_points_refuted.

(** C23, what holds: no read outside when the points are different and form a convex polygon. *)
Theorem C23_reads_own_points_partial : forall srt junk n (points P : list point),
  (forall lt l, Permutation (srt lt l) l) -> (n <= length points)%nat ->
  (forall p, In p (firstn n points) <-> In p P) -> NoDup (firstn n points) ->
  convex_ccw P -> NoDup P -> not_flat P -> separated (/ 10 ^ 12) P ->
  tr_oob (tr_new (T := R) srt junk n points) = false.
Proof.
  intros srt junk n points P SRT Hn HP DD CV ND NF SEP. apply (hull_area srt junk n points P); auto.
  unfold epsR, tr_eps. rewrite lit_R.
  replace (IZR 1 / IZR 1000000000000) with (/ 10 ^ 12) by lra. exact SEP.
Qed.
Print Assumptions C23_reads_own_points_partial.

(** The same in IEEE arithmetic for doubles with whole values up to 2^25. *)
Theorem C23_reads_own_points_ieee_partial : forall srt junk n (points : list (spec_float * spec_float)) (zs P : list (Z * Z)),
  (forall lt l, Permutation (srt lt l) l) -> (n <= length points)%nat -> Forall2 wp points zs ->
  (forall q, In q (firstn n zs) <-> In q P) -> NoDup (firstn n zs) ->
  convex_ccw (map rpt P) -> NoDup P -> not_flat (map rpt P) -> polygon_area (map rpt P) <= 2 ^ 52 ->
  tr_oob (tr_new (T := spec_float) srt junk n points) = false.
Proof.
  intros srt junk n points zs P SRT Hn F HP DD CV ND NF AB.
  destruct (hull_area_F srt junk n points zs P SRT Hn F HP CV ND NF) as (_ & _ & C); [lra|]. auto.
Qed.
Print Assumptions C23_reads_own_points_ieee_partial.

Example C23_example : forall srt junk, (forall lt l, Permutation (srt lt l) l) ->
  tr_oob (tr_new (T := R) srt junk 5 [(2, 2); (1, 0); (0, 0); (0, 2); (2, 0)]) = false.
Proof.
  intros srt junk H. destruct ex_poly_ok as (A & B & C & D).
  apply (C23_reads_own_points_partial srt junk 5 _ ex_poly); auto.
  - intros p. simpl. intuition.
  - cbn [firstn].
    repeat (constructor; [simpl; intros E; repeat (destruct E as [E|E]; [injection E; intros; lra|]); exact E|]).
    constructor.
Qed.

(** C24 is false: the first triangle stays clockwise when its doubled area is minus the
    tolerance, and the area is negative. *)
Theorem C24_area_nonnegative_refuted :
  tr_hullArea (tr_new isort no_junk 3 [(nofZ 0, nofZ 0); (nofZ 0, nofZ 1); (lit 1 1000000000000, lit 1 2)])
    = ndiv (nopp (lit 1 1000000000000)) (nofZ 2).
Proof. vm_compute. reflexivity. Qed.
Print Assumptions C24_area_nonnegative_refuted.

(** C24, what holds for any points, any sort and any memory in exact arithmetic: one triangle
    has doubled area at least the tolerance, or minus the tolerance; all others have more than
    the tolerance; so the area is not negative, unless there is one triangle only and its doubled
    area is minus the tolerance. *)
Theorem C24_area_nonnegative_partial : forall srt junk n (points : list point),
  let s := tr_new (T := R) srt junk n points in
  let doubled t := cr (tr_pt s (nth 0 t 0%nat)) (tr_pt s (nth 1 t 0%nat)) (tr_pt s (nth 2 t 0%nat)) in
  (tr_tris s = [] \/
   exists t0 rest, Permutation (tr_tris s) (t0 :: rest) /\
     (/ 10 ^ 12 <= doubled t0 \/ doubled t0 = - / 10 ^ 12) /\ forall t, In t rest -> / 10 ^ 12 < doubled t) /\
  (0 <= tr_hullArea s \/ (tr_hullArea s = - / 10 ^ 12 / 2 /\ length (tr_tris s) = 1%nat)).
Proof.
  intros srt junk n points s doubled.
  replace (/ 10 ^ 12) with epsR by (unfold epsR, tr_eps; rewrite lit_R; lra).
  split; [|apply area_lower].
  destruct (tr_new_oriented srt junk n points) as [[H _]|(t0 & rest & H1 & H2 & H3)]; [left; exact H|].
  right. exists t0, rest. repeat split; auto.
Qed.
Print Assumptions C24_area_nonnegative_partial.

(** A run with four triangles. *)
Example C24_example : length (tr_tris (tr_new isort no_junk 6 (map fpt [(2, 2); (1, 0); (0, 0); (3, 1); (0, 2); (2, 0)]%Z))) = 4%nat.
Proof. vm_compute. reflexivity. Qed.

(** In IEEE arithmetic the claim also fails for good, for points far from the tolerance: three whole
    points close together and one about 10^16 away give an area below zero. *)
Theorem C24_ieee_refuted :
  let ps := map fpt [(-4, 2); (1, -1); (2, -2); (-13267152972728912, 9705553722606614)]%Z in
  nlt (tr_hullArea (tr_new isort no_junk 4 ps)) n0 = true /\ tr_oob (tr_new isort no_junk 4 ps) = false.
Proof. split; vm_compute; reflexivity. Qed.
Print Assumptions C24_ieee_refuted.

(** What holds in IEEE arithmetic, for doubles with whole values up to 2^25, any sort and any memory: if
    the run reads its own points only, every triangle is counter-clockwise with a doubled area of at least
    1, which the code's own area function gives exactly, and the total (of up to 2^53 triangles) is a
    finite double that is not negative. *)
Theorem C24_area_nonnegative_ieee_partial : forall srt junk n (points : list (spec_float * spec_float)) (zs : list (Z * Z)),
  (forall lt l, Permutation (srt lt l) l) -> (n <= length points)%nat -> Forall2 wp points zs ->
  let s := tr_new (T := spec_float) srt junk n points in
  tr_oob s = false ->
  (forall t, In t (tr_tris s) -> let v i := (fval (fst (tr_pt s (nth i t 0%nat))), fval (snd (tr_pt s (nth i t 0%nat)))) in
     1 <= cr (v 0%nat) (v 1%nat) (v 2%nat) /\ fval (tr_area3 s (nth 0 t 0%nat) (nth 1 t 0%nat) (nth 2 t 0%nat)) = cr (v 0%nat) (v 1%nat) (v 2%nat)) /\
  ((Z.of_nat (length (tr_tris s)) <= 2 ^ 53)%Z -> dbl (tr_hullArea s) /\ 0 <= fval (tr_hullArea s)).
Proof. intros srt junk n points zs SRT Hn F s OB. exact (nonnegative_F srt junk n points zs SRT Hn F OB). Qed.
Print Assumptions C24_area_nonnegative_ieee_partial.

Lemma ins_perm : forall lt a l, Permutation (ins lt a l) (a :: l).
Proof.
  intros lt a. induction l as [|b l IH]; cbn; auto. destruct (lt b a); auto. rewrite IH. apply perm_swap.
Qed.
Lemma isort_perm : forall lt l, Permutation (isort lt l) l.
Proof.
  intros lt l. induction l as [|a l IH]; cbn; auto. rewrite ins_perm. constructor. exact IH.
Qed.

(** A run with six points and four triangles. *)
Example C24_ieee_case :
  let s := tr_new isort no_junk 6 (map fpt [(2, 2); (1, 0); (0, 0); (3, 1); (0, 2); (2, 0)]%Z) in
  tr_oob s = false /\ length (tr_tris s) = 4%nat /\ dbl (tr_hullArea s) /\ 0 <= fval (tr_hullArea s).
Proof.
  intros s. assert (O : tr_oob s = false) by (vm_compute; reflexivity). assert (L : length (tr_tris s) = 4%nat) by (vm_compute; reflexivity).
  split; auto. split; auto.
  apply (C24_area_nonnegative_ieee_partial isort no_junk 6 _ [(2, 2); (1, 0); (0, 0); (3, 1); (0, 2); (2, 0)]%Z); auto.
  - apply isort_perm.
  - apply wp_fpt. intros q Hq. simpl in Hq. repeat (destruct Hq as [<-|Hq]; [cbn; lia|]). contradiction.
  - fold s. rewrite L. lia.
Qed.
