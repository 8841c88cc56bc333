(** Property theorems C46-C48: octree of points. *)
From Coq Require Import ZArith List Reals Floats.SpecFloat Lra.
From Verif Require Import Base Num NumR NumF M_Octree L_Octree.
Import ListNotations.
Open Scope Z_scope.

(** C46. For any arithmetic: the tree holds exactly the keys of every level, an
    unknown key stands for the whole domain, every point has a key of full length,
    and the key at a coarser level is a prefix of the key at the next level. *)
Theorem C46_octree_keys : forall (T : Type) (N : Num T) nlevs ndims (points : list T) o,
  oc_new nlevs ndims points = Ret o ->
  (forall key, (exists box, oc_find (oc_tree o) key = Some box) <->
     ((1 <= length key <= Nat.max 1 nlevs)%nat /\
      forall d, In d key -> 0 <= d < 2 ^ Z.of_nat ndims)) /\
  (forall key, oc_find (oc_tree o) key = None ->
     oc_getLo o key = oc_xmins o /\ oc_getHi o key = oc_xmaxs o) /\
  (length (oc_node2Key o) = length points / ndims)%nat /\
  (forall i, (i < length points / ndims)%nat -> length (nth i (oc_node2Key o) []) = nlevs) /\
  (forall pt l key, oc_getKey o pt (S l) = Ret key -> oc_getKey o pt l = Ret (firstn l key)).
Proof.
  intros T N nlevs ndims points o H. split; [|split; [|split; [|split]]].
  - intros key. split.
    + intros [box Hb]. apply (oc_tree_find _ _ _ _ H) in Hb. destruct Hb as [V _]. exact V.
    + intros V. eexists. apply (oc_tree_find _ _ _ _ H). split; [exact V|reflexivity].
  - intros key Hk. unfold oc_getLo, oc_getHi. rewrite Hk. auto.
  - apply oc_new_inv in H. destruct H as (_ & _ & _ & _ & _ & _ & H).
    apply oc_attach_spec in H. apply H.
  - intros i Hi. apply oc_new_inv in H. destruct H as (_ & _ & H2 & _ & _ & _ & H).
    apply oc_attach_spec in H. destruct H as [_ H]. specialize (H i Hi). rewrite H2 in H.
    eapply oc_keyloop_length. exact H.
  - intros pt l key. apply oc_getKey_prefix.
Qed.
Print Assumptions C46_octree_keys.

(** Four points of the unit square in binary64, three levels. *)
Definition oct_points : list spec_float :=
  [F_ofZ 0; F_ofZ 0; F_ofZ 1; F_ofZ 0; lit 1 4; lit 3 4; F_ofZ 1; F_ofZ 1].

Example C46_nonvacuous :
  exists o, oc_new 3 2 oct_points = Ret o /\ length (oc_tree o) = 84%nat /\
    oc_node2Key o = [[0; 0; 0]; [2; 2; 2]; [1; 3; 0]; [3; 3; 3]].
Proof.
  eexists. split; [vm_compute; reflexivity|]. split; vm_compute; reflexivity.
Qed.

Open Scope R_scope.

(** C47. In exact arithmetic, the box of the key of a point contains the point
    (half-open, except at the high end of the domain) at every level, and box
    sizes are halved at every level; the key stored for each input point too. *)
Theorem C47_octree_point_in_box : forall nlevs ndims (points : list R) o,
  oc_new nlevs ndims points = Ret o ->
  (forall j, (j < ndims)%nat -> nth j (oc_getLo o []) 0 < nth j (oc_getHi o []) 0) ->
  forall pt, length pt = ndims ->
  (forall j, (j < ndims)%nat -> nth j (oc_getLo o []) 0 <= nth j pt 0 <= nth j (oc_getHi o []) 0) ->
  forall lev, (lev <= nlevs)%nat ->
  exists key, oc_getKey o pt lev = Ret key /\ length key = lev /\
    (forall d, In d key -> (0 <= d < 2 ^ Z.of_nat ndims)%Z) /\
    forall j, (j < ndims)%nat ->
      nth j (oc_getLo o key) 0 <= nth j pt 0 /\
      (nth j pt 0 < nth j (oc_getHi o key) 0 \/
       (nth j pt 0 = nth j (oc_getHi o key) 0 /\ nth j pt 0 = nth j (oc_getHi o []) 0)) /\
      nth j (oc_getHi o key) 0 - nth j (oc_getLo o key) 0 =
        (nth j (oc_getHi o []) 0 - nth j (oc_getLo o []) 0) / 2 ^ lev.
Proof. exact octree_point_in_box. Qed.
Print Assumptions C47_octree_point_in_box.

Theorem C47_octree_stored_keys : forall nlevs ndims (points : list R) o,
  oc_new nlevs ndims points = Ret o ->
  (forall j, (j < ndims)%nat -> nth j (oc_getLo o []) 0 < nth j (oc_getHi o []) 0) ->
  length (oc_node2Key o) = (length points / ndims)%nat /\
  forall i, (i < length points / ndims)%nat ->
    let key := nth i (oc_node2Key o) [] in
    length key = nlevs /\
    forall j, (j < ndims)%nat ->
      nth j (oc_getLo o key) 0 <= nth (i * ndims + j) points 0 <= nth j (oc_getHi o key) 0.
Proof. exact octree_stored_keys. Qed.
Print Assumptions C47_octree_stored_keys.

(** The octree of two points in one dimension, exactly; its domain is [0,1]. *)
Example C47_nonvacuous :
  exists o, oc_new 2 1 [0; 1] = Ret o /\
    nth 0 (oc_getLo o []) 0 = 0 /\ nth 0 (oc_getHi o []) 0 = 1.
Proof.
  assert (M : 1 <= nmax (T := R)).
  { unfold nmax. cbn [nofZ NumR]. apply IZR_le. vm_compute. discriminate. }
  assert (N : nopp (nmax (T := R)) <= 0) by (cbn [nopp NumR]; lra).
  assert (S : foldM (oc_minmax_step 1) [0; 1] (0%Z, (repeat nmax 1, repeat (nopp nmax) 1))
              = Ret (2%Z, ([0], [1]))).
  { cbn [foldM repeat]. unfold oc_minmax_step at 1.
    change ((0 mod Z.of_nat 1)%Z) with 0%Z. unfold vget, vset. simpl.
    cbn [nlt NumR]. repeat rcase; try lra; simpl; try (cbn in *; lra);
    repeat rcase; try lra; try reflexivity; exfalso; cbn [nopp NumR] in *; lra. }
  unfold oc_new. rewrite S. cbn [bind].
  assert (D : forall p, 0 <= p <= 1 -> exists k,
     oc_getKey (mkOct (oc_refine (oc_computeLoHi 1 (oc_prods 1) [0] [1]) 1 2 2 [] []) []
       (oc_prods 1) [0] [1] 1 2) [p] 2 = Ret k).
  { intros p Hp. unfold oc_getKey. cbn [oc_prodDims oc_xmins oc_xmaxs oc_ndims].
    destruct (oc_normalize_spec [p] [0] [1] eq_refl eq_refl) as [N1 N2].
    { intros [|j] Hj; [simpl; lra|simpl in Hj; exfalso; apply (Nat.nlt_0_r j); apply Nat.succ_lt_mono; exact Hj]. }
    destruct (oc_keyloop_spec 1 (oc_normalize [p] [0] [1]) 2 0 [0] N1) as (ks & bs & K & _).
    - split; [exact N1|]. intros j Hj. rewrite N1 in Hj. rewrite N2 by exact Hj.
      destruct j; [|simpl in Hj; exfalso; apply (Nat.nlt_0_r j); apply Nat.succ_lt_mono; exact Hj].
      simpl. rewrite Rinv_1. split; [lra|intros; lra].
    - exists ks. exact K. }
  destruct (D 0 ltac:(lra)) as (k0 & K0). destruct (D 1 ltac:(lra)) as (k1 & K1).
  eexists. split.
  - cbn [length Nat.div Nat.divmod fst Nat.sub oc_attach oc_ndims oc_nlevs firstn skipn].
    rewrite K0. cbn [bind]. rewrite K1. cbn [bind]. reflexivity.
  - unfold oc_getLo, oc_getHi. cbn [oc_tree oc_xmins oc_xmaxs].
    split; reflexivity.
Qed.

(** C48. Children boxes tile the parent box. *)
Theorem C48_octree_children_tile : forall nlevs ndims (points : list R) o,
  oc_new nlevs ndims points = Ret o ->
  (forall j, (j < ndims)%nat -> nth j (oc_getLo o []) 0 < nth j (oc_getHi o []) 0) ->
  forall key, (length key < nlevs)%nat -> (forall d, In d key -> (0 <= d < 2 ^ Z.of_nat ndims)%Z) ->
  (forall pt, (forall j, (j < ndims)%nat ->
      nth j (oc_getLo o key) 0 <= nth j pt 0 <= nth j (oc_getHi o key) 0) ->
    exists q, (0 <= q < 2 ^ Z.of_nat ndims)%Z /\ forall j, (j < ndims)%nat ->
      nth j (oc_getLo o (key ++ [q])) 0 <= nth j pt 0 <= nth j (oc_getHi o (key ++ [q])) 0) /\
  (forall q j, (0 <= q < 2 ^ Z.of_nat ndims)%Z -> (j < ndims)%nat ->
      nth j (oc_getLo o key) 0 <= nth j (oc_getLo o (key ++ [q])) 0 /\
      nth j (oc_getLo o (key ++ [q])) 0 < nth j (oc_getHi o (key ++ [q])) 0 /\
      nth j (oc_getHi o (key ++ [q])) 0 <= nth j (oc_getHi o key) 0) /\
  (forall p q pt, (0 <= p < 2 ^ Z.of_nat ndims)%Z -> (0 <= q < 2 ^ Z.of_nat ndims)%Z -> p <> q ->
     (forall j, (j < ndims)%nat ->
        nth j (oc_getLo o (key ++ [p])) 0 < nth j pt 0 < nth j (oc_getHi o (key ++ [p])) 0) ->
     (forall j, (j < ndims)%nat ->
        nth j (oc_getLo o (key ++ [q])) 0 < nth j pt 0 < nth j (oc_getHi o (key ++ [q])) 0) -> False).
Proof. exact octree_children_tile. Qed.
Print Assumptions C48_octree_children_tile.
