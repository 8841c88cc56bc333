(** Property theorems C80, C81: the octree of points in IEEE double arithmetic. *)
From Coq Require Import ZArith List Bool Reals Lra Lia Floats.SpecFloat.
From Flocq Require Import Core BinarySingleNaN.
From Verif Require Import Base Num NumR NumF M_Octree L_Octree L_Float L_FloatOps L_OctreeF P_Octree.
Import ListNotations.
Open Scope R_scope.

(** C80. Whatever the doubles given as points (NaN, infinities, all the same, too few
    of them), the constructor is defined, and so is the key of every target; its digits
    name a child. [fok] is being a double. *)
Theorem C80_octree_defined : forall nlevs ndims (points : list spec_float), (0 < ndims)%nat -> List.Forall fok points ->
  exists o, oc_new nlevs ndims points = Ret o /\
    forall pt lev, length pt = ndims -> List.Forall fok pt ->
      exists key, oc_getKey o pt lev = Ret key /\ length key = lev /\ forall d, In d key -> (0 <= d < 2 ^ Z.of_nat ndims)%Z.
Proof.
  intros nlevs ndims points Hn F. destruct (octree_defined nlevs ndims points Hn F) as (o & H & _ & _ & K). exists o. auto.
Qed.
Print Assumptions C80_octree_defined.

(** Without a dimension the constructor divides by zero. *)
Theorem C80_no_dimension_refuted : exists (points : list spec_float), List.Forall fok points /\ forall o, oc_new 3 0 points <> Ret o.
Proof.
  exists [F_ofZ 0]. split; [repeat constructor|]. intros o. vm_compute. discriminate.
Qed.
Print Assumptions C80_no_dimension_refuted.

(** NaN, an infinity and equal points in two dimensions. *)
Definition odd_points : list spec_float := [S754_nan; S754_infinity true; F_ofZ 2; F_ofZ 3; F_ofZ 2; F_ofZ 3; F_ofZ 2].

Example C80_nonvacuous : List.Forall fok odd_points /\
  exists o, oc_new 3 2 odd_points = Ret o /\ oc_node2Key o = [[0; 0; 0]; [0; 0; 0]; [0; 0; 0]]%Z /\
    oc_getKey o [S754_infinity true; F_ofZ 7] 4 = Ret [0; 0; 0; 0]%Z /\ oc_getKey o [F_ofZ 7; S754_nan] 4 = Ret [2; 2; 2; 2]%Z.
Proof.
  split; [repeat constructor|]. eexists. split; [vm_compute; reflexivity|].
  split; [vm_compute; reflexivity|]. split; vm_compute; reflexivity.
Qed.

(** C81. In double arithmetic, for at most 53 levels and coordinates up to 2^990, a point
    of the domain is in the box of its key up to (|lo|+|hi|) 2^-50 + 2^-1070 on each axis,
    at every level. *)
Theorem C81_point_in_box_ieee : forall nlevs ndims (points : list spec_float) o,
  oc_new nlevs ndims points = Ret o -> (nlevs <= 53)%nat ->
  forall pt, length pt = ndims ->
  (forall j, (j < ndims)%nat -> modest (nth j pt n0) /\ modest (nth j (oc_getLo o []) n0) /\ modest (nth j (oc_getHi o []) n0) /\
     fval (nth j (oc_getLo o []) n0) <= fval (nth j pt n0) <= fval (nth j (oc_getHi o []) n0)) ->
  forall lev, (1 <= lev <= nlevs)%nat ->
  exists key, oc_getKey o pt lev = Ret key /\ length key = lev /\ (forall d, In d key -> (0 <= d < 2 ^ Z.of_nat ndims)%Z) /\
    forall j, (j < ndims)%nat ->
      let tol := (Rabs (fval (nth j (oc_getLo o []) n0)) + Rabs (fval (nth j (oc_getHi o []) n0))) * / 1125899906842624 + bpow radix2 (-1070) in
      dbl (nth j (oc_getLo o key) n0) /\ dbl (nth j (oc_getHi o key) n0) /\
      fval (nth j (oc_getLo o key) n0) - tol <= fval (nth j pt n0) <= fval (nth j (oc_getHi o key) n0) + tol.
Proof. exact octree_point_F. Qed.
Print Assumptions C81_point_in_box_ieee.

(** So is every point of the set in the box of the key stored for it. *)
Theorem C81_stored_keys_ieee : forall nlevs ndims (points : list spec_float) o,
  oc_new nlevs ndims points = Ret o -> (1 <= nlevs <= 53)%nat -> List.Forall modest points ->
  length (oc_node2Key o) = (length points / ndims)%nat /\
  forall i, (i < length points / ndims)%nat -> length (nth i (oc_node2Key o) []) = nlevs /\
    forall j, (j < ndims)%nat -> let key := nth i (oc_node2Key o) [] in
      let tol := (Rabs (fval (nth j (oc_getLo o []) n0)) + Rabs (fval (nth j (oc_getHi o []) n0))) * / 1125899906842624 + bpow radix2 (-1070) in
      fval (nth j (oc_getLo o key) n0) - tol <= fval (nth (i * ndims + j) points n0) <= fval (nth j (oc_getHi o key) n0) + tol.
Proof. exact octree_stored_F. Qed.
Print Assumptions C81_stored_keys_ieee.

(** Exactly, in double comparison, when on each axis the coordinates are whole numbers
    of a step 2^e and the width of the domain is a power of two of them. *)
Theorem C81_point_in_box_exact_ieee : forall nlevs ndims (points : list spec_float) o,
  oc_new nlevs ndims points = Ret o -> (nlevs <= 53)%nat ->
  forall pt, length pt = ndims ->
  (forall j, (j < ndims)%nat -> exists e a b c k, (-900 <= e <= 900)%Z /\ steps e (nth j (oc_getLo o []) n0) a /\ steps e (nth j (oc_getHi o []) n0) b /\
     steps e (nth j pt n0) c /\ (a <= c <= b)%Z /\ (b - a = 2 ^ Z.of_nat k)%Z) ->
  forall lev, (1 <= lev <= nlevs)%nat ->
  exists key, oc_getKey o pt lev = Ret key /\ length key = lev /\ (forall d, In d key -> (0 <= d < 2 ^ Z.of_nat ndims)%Z) /\
    forall j, (j < ndims)%nat -> nle (nth j (oc_getLo o key) n0) (nth j pt n0) = true /\ nle (nth j pt n0) (nth j (oc_getHi o key) n0) = true.
Proof. exact octree_point_exact_F. Qed.
Print Assumptions C81_point_in_box_exact_ieee.

(** Not for every domain: of the points -1 and 2^-60 the second is above the box of its
    own key, and in no box of the first level. *)
Definition thin : spec_float := S754_finite false 4503599627370496 (-112).

Theorem C81_exact_containment_refuted :
  exists o, oc_new 1 1 [F_ofZ (-1); thin] = Ret o /\ modest (F_ofZ (-1)) /\ modest thin /\ nth 1 (oc_node2Key o) [] = [1%Z] /\
    oc_getHi o [] = [thin] /\ forall q, (0 <= q < 2)%Z -> nlt (nth 0 (oc_getHi o [q]) n0) thin = true.
Proof.
  eexists. split; [vm_compute; reflexivity|].
  split; [split; [split; vm_compute; reflexivity|]|].
  { unfold fval. assert (E : F_ofZ (-1) = S754_finite true 4503599627370496 (-52)) by (vm_compute; reflexivity). rewrite E. cbn [SF2R cond_Zopp].
    change (-4503599627370496)%Z with (- 2 ^ 52)%Z. rewrite F2R_Zopp, Rabs_Ropp. unfold F2R. simpl Fnum. simpl Fexp. rewrite Rabs_pos_eq.
    - change 4503599627370496 with (bpow radix2 52). rewrite <- bpow_plus. apply bpow_le. lia.
    - apply Rmult_le_pos; [lra|apply bpow_ge_0]. }
  split; [split; [split; vm_compute; reflexivity|]|].
  { unfold fval, thin. cbn [SF2R cond_Zopp]. unfold F2R. simpl Fnum. simpl Fexp. rewrite Rabs_pos_eq.
    - change 4503599627370496 with (bpow radix2 52). rewrite <- bpow_plus. apply bpow_le. lia.
    - apply Rmult_le_pos; [lra|apply bpow_ge_0]. }
  split; [vm_compute; reflexivity|]. split; [vm_compute; reflexivity|].
  intros q Hq. assert (q = 0 \/ q = 1)%Z as [-> | ->] by lia; vm_compute; reflexivity.
Qed.
Print Assumptions C81_exact_containment_refuted.

(** Below the first level children tile their parent to the last bit. *)
Theorem C81_children_tile_ieee : forall nlevs ndims (points : list spec_float) o,
  oc_new nlevs ndims points = Ret o -> (nlevs <= 53)%nat ->
  (forall j, (j < ndims)%nat -> modest (nth j (oc_getLo o []) n0) /\ modest (nth j (oc_getHi o []) n0) /\
     nle (nth j (oc_getLo o []) n0) (nth j (oc_getHi o []) n0) = true) ->
  forall key, (1 <= length key < nlevs)%nat -> (forall d, In d key -> (0 <= d < 2 ^ Z.of_nat ndims)%Z) ->
  (forall pt, (forall j, (j < ndims)%nat -> dbl (nth j pt n0) /\
      nle (nth j (oc_getLo o key) n0) (nth j pt n0) = true /\ nle (nth j pt n0) (nth j (oc_getHi o key) n0) = true) ->
    exists q, (0 <= q < 2 ^ Z.of_nat ndims)%Z /\ forall j, (j < ndims)%nat ->
      nle (nth j (oc_getLo o (key ++ [q])) n0) (nth j pt n0) = true /\ nle (nth j pt n0) (nth j (oc_getHi o (key ++ [q])) n0) = true) /\
  (forall q j, (0 <= q < 2 ^ Z.of_nat ndims)%Z -> (j < ndims)%nat ->
      nle (nth j (oc_getLo o key) n0) (nth j (oc_getLo o (key ++ [q])) n0) = true /\
      nle (nth j (oc_getLo o (key ++ [q])) n0) (nth j (oc_getHi o (key ++ [q])) n0) = true /\
      nle (nth j (oc_getHi o (key ++ [q])) n0) (nth j (oc_getHi o key) n0) = true) /\
  (forall p q pt, (0 <= p < 2 ^ Z.of_nat ndims)%Z -> (0 <= q < 2 ^ Z.of_nat ndims)%Z -> p <> q ->
     (forall j, (j < ndims)%nat -> dbl (nth j pt n0) /\
        nlt (nth j (oc_getLo o (key ++ [p])) n0) (nth j pt n0) = true /\ nlt (nth j pt n0) (nth j (oc_getHi o (key ++ [p])) n0) = true) ->
     (forall j, (j < ndims)%nat ->
        nlt (nth j (oc_getLo o (key ++ [q])) n0) (nth j pt n0) = true /\ nlt (nth j pt n0) (nth j (oc_getHi o (key ++ [q])) n0) = true) -> False).
Proof. exact octree_children_F. Qed.
Print Assumptions C81_children_tile_ieee.

(** The four points of the unit square of C46 are whole numbers of quarters. *)
Lemma quarter : forall k m e, dbl (S754_finite false m e) -> (0 < k <= 4)%Z -> (Z.pos m = k * 2 ^ (-2 - e))%Z -> (e <= -2)%Z -> steps (-2) (S754_finite false m e) k.
Proof.
  intros k m e D Hk E He. split; auto. split; [lia|]. unfold fval. cbn [SF2R cond_Zopp]. unfold F2R. simpl Fnum. simpl Fexp. rewrite E, mult_IZR.
  change (2 ^ (-2 - e))%Z with (radix2 ^ (-2 - e))%Z. rewrite IZR_Zpower by lia. rewrite Rmult_assoc, <- bpow_plus. do 2 f_equal. lia.
Qed.

Example C81_nonvacuous : exists o, oc_new 3 2 oct_points = Ret o /\
  forall j, (j < 2)%nat -> exists a b c k, steps (-2) (nth j (oc_getLo o []) n0) a /\ steps (-2) (nth j (oc_getHi o []) n0) b /\
     steps (-2) (nth j [lit 1 4; lit 3 4] n0) c /\ (a <= c <= b)%Z /\ (b - a = 2 ^ Z.of_nat k)%Z.
Proof.
  eexists. split; [vm_compute; reflexivity|].
  assert (Z0 : steps (-2) (S754_zero false) 0) by (split; [split; vm_compute; reflexivity|split; [vm_compute; discriminate|unfold fval; cbn [SF2R]; rewrite Rmult_0_l; reflexivity]]).
  assert (Z1 : steps (-2) (S754_finite false 4503599627370496 (-52)) 4) by (apply quarter; [split; vm_compute; reflexivity|lia|vm_compute; reflexivity|lia]).
  intros [|[|j]] Hj; [| |lia].
  - exists 0%Z, 4%Z, 1%Z, 2%nat. split; [exact Z0|]. split; [exact Z1|]. split; [|lia].
    assert (E : lit 1 4 = S754_finite false 4503599627370496 (-54)) by (vm_compute; reflexivity). cbn [nth]. rewrite E.
    apply quarter; [split; vm_compute; reflexivity|lia|vm_compute; reflexivity|lia].
  - exists 0%Z, 4%Z, 3%Z, 2%nat. split; [exact Z0|]. split; [exact Z1|]. split; [|lia].
    assert (E : lit 3 4 = S754_finite false 6755399441055744 (-53)) by (vm_compute; reflexivity). cbn [nth]. rewrite E.
    apply quarter; [split; vm_compute; reflexivity|lia|vm_compute; reflexivity|lia].
Qed.
