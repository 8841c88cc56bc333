(** Property theorems C55: grids with a rotated pole. *)
From Coq Require Import ZArith List Bool Lia Reals Lra.
From Verif Require Import Base Num NumR M_Grids TrigR L_Grids.
Import ListNotations.
Open Scope R_scope.

(** ** Specification *)
(** The point of the unit sphere with a latitude and a longitude in degrees. *)
Definition rad (d : R) : R := PI * d / 180.
Definition on_sphere (lat lon : R) : R * R * R := (cos (rad lat) * cos (rad lon), cos (rad lat) * sin (rad lon), sin (rad lat)).
(** Turn by the angle a about the y axis (x towards -z), by b about the z axis (x towards -y). *)
Definition turn_y (a : R) (p : R * R * R) : R * R * R := let '(x, y, z) := p in (cos a * x + sin a * z, y, - sin a * x + cos a * z).
Definition turn_z (b : R) (p : R * R * R) : R * R * R := let '(x, y, z) := p in (cos b * x + sin b * y, - sin b * x + cos b * y, z).
Definition inner (p q : R * R * R) : R := let '(x, y, z) := p in let '(u, v, w) := q in x * u + y * v + z * w.

(** Latitude and longitude of the node (j, i) before the rotation. *)
Definition lat0 (nj j : Z) : R := -90 + 180 * IZR j / IZR (nj - 1).
Definition lon0 (ni i : Z) : R := -180 + 360 * IZR i / IZR (ni - 1).

(** ** Lemmas *)
Section AnyNum.
Context {T : Type} {N : Num T}.
Local Open Scope num_scope.

Lemma dot_matrix : forall a0 a1 a2 a3 a4 a5 a6 a7 a8 b0 b1 b2 b3 b4 b5 b6 b7 b8 : T,
  matrixDotMatrix [a0; a1; a2; a3; a4; a5; a6; a7; a8] [b0; b1; b2; b3; b4; b5; b6; b7; b8] = Ret
   [n0 + a0 * b0 + a1 * b3 + a2 * b6; n0 + a0 * b1 + a1 * b4 + a2 * b7; n0 + a0 * b2 + a1 * b5 + a2 * b8;
    n0 + a3 * b0 + a4 * b3 + a5 * b6; n0 + a3 * b1 + a4 * b4 + a5 * b7; n0 + a3 * b2 + a4 * b5 + a5 * b8;
    n0 + a6 * b0 + a7 * b3 + a8 * b6; n0 + a6 * b1 + a7 * b4 + a8 * b7; n0 + a6 * b2 + a7 * b5 + a8 * b8].
Proof. reflexivity. Qed.

Lemma dot_vector : forall a0 a1 a2 a3 a4 a5 a6 a7 a8 x y z : T,
  matrixDotVector [a0; a1; a2; a3; a4; a5; a6; a7; a8] [x; y; z] = Ret
   [n0 + a0 * x + a1 * y + a2 * z; n0 + a3 * x + a4 * y + a5 * z; n0 + a6 * x + a7 * y + a8 * z].
Proof. reflexivity. Qed.
End AnyNum.

(** The coordinates computed from a point of the sphere describe that point. *)
Lemma angles_of_point : forall x y z, x * x + y * y + z * z = 1 ->
  on_sphere (180 * asin z / PI) (180 * Ratan2 y x / PI) = (x, y, z).
Proof.
  intros x y z H. assert (P := PI_RGT_0). unfold on_sphere, rad.
  replace (PI * (180 * asin z / PI) / 180) with (asin z) by (field; lra). replace (PI * (180 * Ratan2 y x / PI) / 180) with (Ratan2 y x) by (field; lra).
  assert (Hz : -1 <= z <= 1) by nra. rewrite sin_asin, cos_asin by auto.
  replace (1 - z²) with (x * x + y * y) by (unfold Rsqr; lra).
  destruct (Req_dec (x * x + y * y) 0) as [E|E].
  - assert (x = 0) by nra. assert (y = 0) by nra. subst. replace (0 * 0 + 0 * 0) with 0 by ring. rewrite sqrt_0. repeat f_equal; ring.
  - destruct (atan2_polar y x E) as [A B]. rewrite <- A, <- B. reflexivity.
Qed.

Lemma sphere_norm : forall lat lon, inner (on_sphere lat lon) (on_sphere lat lon) = 1.
Proof.
  intros lat lon. unfold inner, on_sphere. assert (A := sin2_cos2 (rad lat)). assert (B := sin2_cos2 (rad lon)). unfold Rsqr in *.
  set (c := cos (rad lat)) in *. set (s := sin (rad lat)) in *. set (c' := cos (rad lon)) in *. set (s' := sin (rad lon)) in *.
  transitivity (c * c * (s' * s' + c' * c') + s * s); [ring|]. rewrite B. lra.
Qed.

Lemma turn_y_inner : forall a p q, inner (turn_y a p) (turn_y a q) = inner p q.
Proof.
  intros a [[x y] z] [[u v] w]. unfold inner, turn_y. assert (A := sin2_cos2 a). unfold Rsqr in A. set (c := cos a) in *. set (s := sin a) in *.
  transitivity ((s * s + c * c) * (x * u + z * w) + y * v); [ring|]. rewrite A. ring.
Qed.
Lemma turn_z_inner : forall a p q, inner (turn_z a p) (turn_z a q) = inner p q.
Proof.
  intros a [[x y] z] [[u v] w]. unfold inner, turn_z. assert (A := sin2_cos2 a). unfold Rsqr in A. set (c := cos a) in *. set (s := sin a) in *.
  transitivity ((s * s + c * c) * (x * u + y * v) + z * w); [ring|]. rewrite A. ring.
Qed.

(** One node. *)
Lemma rotated_node_ok : forall da db nj ni j i, exists m, rotation da db = Ret m /\ exists lat lon,
  rotated_node m (nj - 1) (ni - 1) j i = Ret (lat, lon) /\
  on_sphere lat lon = turn_z (rad db) (turn_y (rad da) (on_sphere (lat0 nj j) (lon0 ni i))) /\ -90 <= lat <= 90 /\ -180 < lon <= 180 /\
  exists x y z, turn_z (rad db) (turn_y (rad da) (on_sphere (lat0 nj j) (lon0 ni i))) = (x, y, z) /\ lat = 180 * asin z / PI /\ lon = 180 * Ratan2 y x / PI.
Proof.
  intros da db nj ni j i. unfold rotation. rewrite dot_matrix. eexists. split; [reflexivity|].
  unfold rotated_node. rewrite dot_vector. cbn [bind]. rewrite (vget_nth _ 0 0) by (cbn; lia). rewrite (vget_nth _ 1 0) by (cbn; lia). rewrite (vget_nth _ 2 0) by (cbn; lia).
  change (Z.to_nat 0) with 0%nat. change (Z.to_nat 1) with 1%nat. change (Z.to_nat 2) with 2%nat. cbn [bind nth].
  change (mcos (T:=R)) with cos. change (msin (T:=R)) with sin. change (masin (T:=R)) with asin. change (matan2 (T:=R)) with Ratan2. change (mpi (T:=R)) with PI.
  unfold n0, n1. cbn [nadd nsub nmul ndiv nopp nofZ NumR].
  change (PI * da / 180) with (rad da). change (PI * db / 180) with (rad db).
  replace (- IZR 90) with (-90) by lra. replace (- IZR 180) with (-180) by lra.
  change (-90 + 180 * IZR j / IZR (nj - 1)) with (lat0 nj j). change (-180 + 360 * IZR i / IZR (ni - 1)) with (lon0 ni i).
  change (PI * lat0 nj j / 180) with (rad (lat0 nj j)). change (PI * lon0 ni i / 180) with (rad (lon0 ni i)).
  match goal with |- context [Ret (180 * asin ?z' / PI, 180 * Ratan2 ?y' ?x' / PI)] => set (z := z'); set (y := y'); set (x := x') end.
  assert (E : turn_z (rad db) (turn_y (rad da) (on_sphere (lat0 nj j) (lon0 ni i))) = (x, y, z)) by (unfold turn_z, turn_y, on_sphere, x, y, z; f_equal; [f_equal|]; ring).
  assert (NM : x * x + y * y + z * z = 1).
  { change (inner (x, y, z) (x, y, z) = 1). rewrite <- E, turn_z_inner, turn_y_inner. apply sphere_norm. }
  exists (180 * asin z / PI), (180 * Ratan2 y x / PI). split; [reflexivity|]. rewrite E. assert (P := PI_RGT_0).
  split; [apply angles_of_point; auto|]. assert (B1 := asin_bound z). assert (B2 := atan2_bound y x).
  assert (Q : forall t, 180 * t / PI = 180 / PI * t) by (intros; unfold Rdiv; ring). assert (Q1 : 180 / PI * PI = 180) by (field; lra).
  assert (Q2 : 0 < 180 / PI) by (apply Rdiv_lt_0_compat; lra). rewrite !Q.
  split; [split; nra|]. split; [split; nra|]. exists x, y, z. rewrite !Q. auto.
Qed.

Lemma rotated_nodes : forall nj ni da db (c : arrays R), (2 <= nj < 2 ^ 31)%Z -> (2 <= ni < 2 ^ 31)%Z ->
  (nj * ni <= Z.of_nat (length (fst c)))%Z -> (nj * ni <= Z.of_nat (length (snd c)))%Z ->
  exists m c', rotation da db = Ret m /\ createRotatedPoleGrid nj ni da db c = Ret c' /\ length (fst c') = length (fst c) /\ length (snd c') = length (snd c) /\
    (forall j i d, (0 <= j < nj)%Z -> (0 <= i < ni)%Z -> rotated_node m (nj - 1) (ni - 1) j i = Ret (at_ c' (j * ni + i) d)) /\
    (forall k d, (nj * ni <= k)%Z -> at_ c' k d = at_ c k d).
Proof.
  intros nj ni da db c H0 H1 L0 L1. destruct (rotated_node_ok da db nj ni 0 0) as (m & Em & _).
  set (f := fun j i => match rotated_node m (nj - 1) (ni - 1) j i with Ret p => p | Undef _ => (0, 0) end).
  assert (F : forall j i, rotated_node m (nj - 1) (ni - 1) j i = Ret (f j i)).
  { intros j i. destruct (rotated_node_ok da db nj ni j i) as (m' & Em' & lat & lon & E & _). rewrite Em in Em'. injection Em' as <-. unfold f. rewrite E. reflexivity. }
  destruct (fill_ok nj ni f c) as (c' & E & A1 & A2 & A3 & A4); [lia|lia|split; auto|]. exists m, c'. split; auto. split.
  - unfold createRotatedPoleGrid. rewrite Em. cbn [bind]. rewrite !chk_ok by (unfold int_min, int_max; lia). cbn [bind].
    unfold fill in E. rewrite <- E. f_equal. apply foldM_ext. intros st j _. apply foldM_ext. intros st' i _. rewrite F. reflexivity.
  - split; auto. split; auto. split; auto. intros j i d Hj Hi. rewrite (A3 j i d Hj Hi). apply F.
Qed.

(** C55. Exact arithmetic: coords[0] are latitudes, coords[1] longitudes of points on the sphere that
    are the nodes of the ordinary grid after the two turns. *)
Theorem C55_rotated : forall nj ni da db (c : arrays R), (2 <= nj < 2 ^ 31)%Z -> (2 <= ni < 2 ^ 31)%Z ->
  (nj * ni <= Z.of_nat (length (fst c)))%Z -> (nj * ni <= Z.of_nat (length (snd c)))%Z ->
  exists c', createRotatedPoleGrid nj ni da db c = Ret c' /\
    (forall k d, (nj * ni <= k)%Z -> nth (Z.to_nat k) (fst c') d = nth (Z.to_nat k) (fst c) d /\ nth (Z.to_nat k) (snd c') d = nth (Z.to_nat k) (snd c) d) /\
    forall j i d, (0 <= j < nj)%Z -> (0 <= i < ni)%Z -> let lat := nth (Z.to_nat (j * ni + i)) (fst c') d in let lon := nth (Z.to_nat (j * ni + i)) (snd c') d in
      -90 <= lat <= 90 /\ -180 < lon <= 180 /\ on_sphere lat lon = turn_z (rad db) (turn_y (rad da) (on_sphere (lat0 nj j) (lon0 ni i))).
Proof.
  intros nj ni da db c H0 H1 L0 L1. destruct (rotated_nodes nj ni da db c H0 H1 L0 L1) as (m & c' & Em & E & A1 & A2 & A3 & A4).
  exists c'. split; auto. split.
  - intros k d Hk. specialize (A4 k d Hk). unfold at_ in A4. injection A4. auto.
  - intros j i d Hj Hi. cbv zeta. destruct (rotated_node_ok da db nj ni j i) as (m' & Em' & lat & lon & E' & B1 & B2 & B3 & _). rewrite Em in Em'. injection Em' as <-.
    rewrite (A3 j i d Hj Hi) in E'. unfold at_ in E'. injection E' as X Y. rewrite X, Y. auto.
Qed.
Print Assumptions C55_rotated.

(** The turns keep angles between points: distances on the sphere are those of the ordinary grid. *)
Theorem C55_distances : forall nj ni da db (c : arrays R), (2 <= nj < 2 ^ 31)%Z -> (2 <= ni < 2 ^ 31)%Z ->
  (nj * ni <= Z.of_nat (length (fst c)))%Z -> (nj * ni <= Z.of_nat (length (snd c)))%Z ->
  exists c', createRotatedPoleGrid nj ni da db c = Ret c' /\
    let at_node j i := on_sphere (nth (Z.to_nat (j * ni + i)) (fst c') 0) (nth (Z.to_nat (j * ni + i)) (snd c') 0) in
    forall j i j' i', (0 <= j < nj)%Z -> (0 <= i < ni)%Z -> (0 <= j' < nj)%Z -> (0 <= i' < ni)%Z ->
      inner (at_node j i) (at_node j' i') = inner (on_sphere (lat0 nj j) (lon0 ni i)) (on_sphere (lat0 nj j') (lon0 ni i')).
Proof.
  intros nj ni da db c H0 H1 L0 L1. destruct (C55_rotated nj ni da db c H0 H1 L0 L1) as (c' & E & _ & V). exists c'. split; auto. cbv zeta.
  intros j i j' i' Hj Hi Hj' Hi'. destruct (V j i 0 Hj Hi) as (_ & _ & ->). destruct (V j' i' 0 Hj' Hi') as (_ & _ & ->). rewrite turn_z_inner, turn_y_inner. reflexivity.
Qed.
Print Assumptions C55_distances.

(** Without displacement the latitudes are those of the ordinary grid, and so are the longitudes
    except at the poles and at -180 degrees (the same meridian is given as 180). *)
Theorem C55_no_displacement : forall nj ni (c : arrays R), (2 <= nj < 2 ^ 31)%Z -> (2 <= ni < 2 ^ 31)%Z ->
  (nj * ni <= Z.of_nat (length (fst c)))%Z -> (nj * ni <= Z.of_nat (length (snd c)))%Z ->
  exists c', createRotatedPoleGrid nj ni 0 0 c = Ret c' /\
    forall j i d, (0 <= j < nj)%Z -> (0 <= i < ni)%Z ->
      nth (Z.to_nat (j * ni + i)) (fst c') d = lat0 nj j /\
      ((0 < j < nj - 1)%Z -> nth (Z.to_nat (j * ni + i)) (snd c') d = if (i =? 0)%Z then 180 else lon0 ni i).
Proof.
  intros nj ni c H0 H1 L0 L1. destruct (rotated_nodes nj ni 0 0 c H0 H1 L0 L1) as (m & c' & Em & E & A1 & A2 & A3 & A4).
  exists c'. split; auto. intros j i d Hj Hi. assert (P := PI_RGT_0).
  destruct (rotated_node_ok 0 0 nj ni j i) as (m' & Em' & lat & lon & E' & _ & _ & _ & x & y & z & T & -> & ->). rewrite Em in Em'. injection Em' as <-.
  rewrite (A3 j i d Hj Hi) in E'. unfold at_ in E'. injection E' as X Y. rewrite X, Y. clear X Y.
  assert (R0 : rad 0 = 0) by (unfold rad; field). rewrite R0 in T. unfold turn_z, turn_y, on_sphere in T. rewrite cos_0, sin_0 in T. injection T as TX TY TZ.
  assert (P0 : 1 <= IZR (nj - 1)) by (apply IZR_le; lia). assert (P1 : 1 <= IZR (ni - 1)) by (apply IZR_le; lia).
  assert (Q : forall n k, 1 <= IZR (n - 1) -> (0 <= k < n)%Z -> 0 <= IZR k / IZR (n - 1) <= 1).
  { intros n k Hn Hk. assert (0 <= IZR k) by (apply IZR_le; lia). assert (IZR k <= IZR (n - 1)) by (apply IZR_le; lia).
    split; [apply Rmult_le_pos; [lra|left; apply Rinv_0_lt_compat; lra]|]. apply (Rmult_le_reg_r (IZR (n - 1))); [lra|]. unfold Rdiv. rewrite Rmult_assoc, Rinv_l by lra. lra. }
  assert (Q' : forall n k, 1 <= IZR (n - 1) -> (0 < k)%Z -> 0 < IZR k / IZR (n - 1)).
  { intros n k Hn Hk. apply Rdiv_lt_0_compat; [apply IZR_lt; lia|lra]. }
  assert (Q'' : forall n k, 1 <= IZR (n - 1) -> (k < n - 1)%Z -> IZR k / IZR (n - 1) < 1).
  { intros n k Hn Hk. assert (IZR k < IZR (n - 1)) by (apply IZR_lt; lia). apply (Rmult_lt_reg_r (IZR (n - 1))); [lra|]. unfold Rdiv. rewrite Rmult_assoc, Rinv_l by lra. lra. }
  assert (BJ := Q nj j P0 Hj). assert (BI := Q ni i P1 Hi).
  assert (RL : rad (lat0 nj j) = PI * (IZR j / IZR (nj - 1)) - PI / 2) by (unfold rad, lat0; field; lra).
  assert (RM : rad (lon0 ni i) = 2 * PI * (IZR i / IZR (ni - 1)) - PI) by (unfold rad, lon0; field; lra).
  assert (BL : - (PI / 2) <= rad (lat0 nj j) <= PI / 2) by (rewrite RL; split; nra).
  split.
  - rewrite <- TZ. replace (- 0 * _ + 1 * _) with (sin (rad (lat0 nj j))) by ring. rewrite asin_sin by auto. unfold rad. field. lra.
  - intros HJ. assert (C0 : 0 < cos (rad (lat0 nj j))).
    { apply cos_gt_0; rewrite RL; [assert (Z := Q' nj j P0 ltac:(lia))|assert (Z := Q'' nj j P0 ltac:(lia))]; nra. }
    assert (TX' : x = cos (rad (lat0 nj j)) * cos (rad (lon0 ni i))) by (rewrite <- TX; ring). assert (TY' : y = cos (rad (lat0 nj j)) * sin (rad (lon0 ni i))) by (rewrite <- TY; ring). rewrite TX', TY'.
    destruct (Z.eqb_spec i 0) as [-> | NI].
    + replace (cos (rad (lon0 ni 0))) with (cos PI) by (rewrite RM; replace (2 * PI * (0 / IZR (ni - 1)) - PI) with (- PI) by (field; lra); rewrite cos_neg; auto).
      replace (sin (rad (lon0 ni 0))) with (sin PI) by (rewrite RM; replace (2 * PI * (0 / IZR (ni - 1)) - PI) with (- PI) by (field; lra); rewrite sin_neg, sin_PI; lra).
      rewrite atan2_angle by (auto; lra). field. lra.
    + assert (Z := Q' ni i P1 ltac:(lia)). rewrite atan2_angle; [unfold rad; field; lra|auto|]. rewrite RM. split; nra.
Qed.
Print Assumptions C55_no_displacement.

(** The pole of the grid (last row) is at latitude 90 - delta_lat and longitude - delta_lon (note the
    sign) for displacements in (0, 180) and (-180, 180). *)
Theorem C55_pole : forall nj ni da db (c : arrays R), (2 <= nj < 2 ^ 31)%Z -> (2 <= ni < 2 ^ 31)%Z ->
  (nj * ni <= Z.of_nat (length (fst c)))%Z -> (nj * ni <= Z.of_nat (length (snd c)))%Z -> 0 < da < 180 -> -180 < db < 180 ->
  exists c', createRotatedPoleGrid nj ni da db c = Ret c' /\
    forall i d, (0 <= i < ni)%Z -> nth (Z.to_nat ((nj - 1) * ni + i)) (fst c') d = 90 - da /\ nth (Z.to_nat ((nj - 1) * ni + i)) (snd c') d = - db.
Proof.
  intros nj ni da db c H0 H1 L0 L1 HA HB. destruct (rotated_nodes nj ni da db c H0 H1 L0 L1) as (m & c' & Em & E & A1 & A2 & A3 & A4).
  exists c'. split; auto. intros i d Hi. assert (P := PI_RGT_0).
  destruct (rotated_node_ok da db nj ni (nj - 1) i) as (m' & Em' & lat & lon & E' & _ & _ & _ & x & y & z & T & -> & ->). rewrite Em in Em'. injection Em' as <-.
  rewrite (A3 (nj - 1)%Z i d ltac:(lia) Hi) in E'. unfold at_ in E'. injection E' as X Y. rewrite X, Y. clear X Y.
  assert (P0 : 1 <= IZR (nj - 1)) by (apply IZR_le; lia).
  assert (RL : rad (lat0 nj (nj - 1)) = PI / 2) by (unfold rad, lat0; field; lra).
  unfold on_sphere in T. rewrite RL, cos_PI2, sin_PI2 in T. unfold turn_z, turn_y in T. injection T as TX TY TZ.
  assert (RA : 0 < rad da < PI) by (unfold rad; split; nra). assert (RB : - PI < - rad db < PI) by (unfold rad; split; nra).
  assert (SA := sin_gt_0 (rad da) ltac:(lra) ltac:(lra)). split.
  - rewrite <- TZ. replace (- _ * _ + cos (rad da) * 1) with (sin (PI / 2 - rad da)) by (rewrite sin_shift; ring). rewrite asin_sin by lra. unfold rad. field. lra.
  - rewrite <- TX, <- TY. replace (cos (rad db) * _ + _) with (sin (rad da) * cos (- rad db)) by (rewrite cos_neg; ring). replace (- sin (rad db) * _ + _) with (sin (rad da) * sin (- rad db)) by (rewrite sin_neg; ring).
    rewrite atan2_angle by lra. unfold rad. field. lra.
Qed.
Print Assumptions C55_pole.

(** The pole of a 3 x 4 grid displaced by 30 degrees in latitude and 20 in longitude. *)
Example C55_nonvacuous : exists c', createRotatedPoleGrid 3 4 30 20 (repeat 0 12, repeat 0 12) = Ret c' /\ nth 9 (fst c') 0 = 60 /\ nth 9 (snd c') 0 = -20.
Proof.
  destruct (C55_pole 3 4 30 20 (repeat 0 12, repeat 0 12)) as (c' & E & V); [lia|lia|cbn; lia|cbn; lia|lra|lra|]. exists c'. split; auto.
  destruct (V 1%Z 0 ltac:(lia)) as [A B]. change (Z.to_nat ((3 - 1) * 4 + 1)) with 9%nat in *. lra.
Qed.
