(** Proofs about the box iterator. *)
From Coq Require Import ZArith List Bool Lia.
From Verif Require Import Base M_BoxIterator S_Box.
Import ListNotations.
Open Scope Z_scope.

Fixpoint prodZ (ds : list Z) : Z :=
  match ds with [] => 1 | d :: tl => d * prodZ tl end.

(** Suffix products. *)
Fixpoint sprods (ds : list Z) : list Z :=
  match ds with [] => [] | _ :: tl => prodZ tl :: sprods tl end.

Fixpoint diffs (beg en : list Z) : list Z :=
  match beg, en with
  | b :: beg', e :: en' => (e - b) :: diffs beg' en'
  | _, _ => []
  end.

Lemma diffs_volume : forall beg en, prodZ (diffs beg en) = volume beg en.
Proof. induction beg; destruct en; simpl; auto. rewrite IHbeg. reflexivity. Qed.

Lemma diffs_length : forall beg en, length beg = length en -> length (diffs beg en) = length beg.
Proof. induction beg; destruct en; simpl; intros; try lia; auto. Qed.

Definition allpos (ds : list Z) : Prop := Forall (fun d => 0 < d) ds.

Lemma prodZ_pos : forall ds, allpos ds -> 0 < prodZ ds.
Proof. induction 1; cbn [prodZ]; [lia|]. cbv beta in *. nia. Qed.

Lemma prodZ_app : forall a b, prodZ (a ++ b) = prodZ a * prodZ b.
Proof. induction a; simpl; intros; [lia|]. rewrite IHa. lia. Qed.

Lemma dimProd_ok : forall ds, allpos ds -> prodZ ds <= int_max ->
  box_dimProd ds = Ret (sprods ds).
Proof.
  induction ds as [|d ds IH]; intros Hp Hm; auto.
  inversion Hp; subst. simpl in Hm.
  assert (0 < prodZ ds) by (apply prodZ_pos; auto).
  simpl. rewrite IH; auto; [|nia]. simpl.
  destruct ds as [|d1 ds']; simpl; auto.
  inversion H2; subst. simpl in *.
  assert (0 < prodZ ds') by (apply prodZ_pos; auto).
  rewrite chk_ok; [|unfold int_min; nia].
  simpl. f_equal. f_equal. ring.
Qed.

Lemma numElems_ok : forall ds n, allpos ds -> 0 < n -> n * prodZ ds <= int_max ->
  foldM (fun n d => chk (n * d)) ds n = Ret (n * prodZ ds).
Proof.
  induction ds as [|d ds IH]; intros n Hp Hn Hm; simpl.
  - f_equal; lia.
  - inversion Hp; subst. simpl in Hm.
    assert (0 < prodZ ds) by (apply prodZ_pos; auto).
    rewrite chk_ok; [|unfold int_min; nia].
    simpl. rewrite IH; auto; try nia. f_equal. ring.
Qed.

(** Positive extents, in terms of the box bounds. *)
Definition pos_box (beg en : list Z) : Prop :=
  length beg = length en /\
  forall i, (i < length beg)%nat -> nth i beg 0 < nth i en 0.

Lemma pos_box_cons : forall b beg e en,
  pos_box (b :: beg) (e :: en) <-> b < e /\ pos_box beg en.
Proof.
  intros. unfold pos_box. simpl. split.
  - intros [H1 H2]. split; [apply (H2 0%nat); lia|]. split; [lia|].
    intros i Hi. apply (H2 (S i)). lia.
  - intros [H0 [H1 H2]]. split; [lia|]. intros [|i] Hi; simpl; auto. apply H2; lia.
Qed.

Lemma pos_box_diffs : forall beg en, pos_box beg en -> allpos (diffs beg en).
Proof.
  induction beg as [|b beg IH]; destruct en as [|e en]; intros H; simpl; try constructor.
  - apply pos_box_cons in H. lia.
  - apply IH. apply pos_box_cons in H. tauto.
Qed.

Lemma dims_ok : forall beg en, pos_box beg en -> volume beg en <= int_max ->
  box_dims beg en = Ret (diffs beg en).
Proof.
  induction beg as [|b beg IH]; destruct en as [|e en]; intros H Hm; simpl; auto.
  - destruct H as [H _]. simpl in H. lia.
  - destruct H as [H _]. simpl in H. lia.
  - apply pos_box_cons in H. destruct H as [H1 H2].
    simpl in Hm.
    assert (0 < volume beg en).
    { rewrite <- diffs_volume. apply prodZ_pos, pos_box_diffs; auto. }
    rewrite chk_ok; [|unfold int_min; nia]. simpl.
    rewrite IH; auto; nia.
Qed.

Theorem box_new_ok : forall beg en, pos_box beg en -> volume beg en <= int_max ->
  box_new beg en = Ret (mkBox beg (diffs beg en) (sprods (diffs beg en)) (volume beg en)).
Proof.
  intros beg en H Hm. unfold box_new. rewrite dims_ok; auto. simpl.
  assert (Hd := pos_box_diffs _ _ H).
  unfold box_numElems. rewrite numElems_ok; auto; rewrite ?diffs_volume; try lia.
  simpl bind. rewrite dimProd_ok; auto; rewrite ?diffs_volume; try lia.
  simpl. f_equal. f_equal. lia.
Qed.

(** Pure versions. *)
Fixpoint elem (low ds : list Z) (k : Z) : list Z :=
  match low, ds with
  | l :: low', d :: ds' => (l + (k / prodZ ds') mod d) :: elem low' ds' k
  | _, _ => []
  end.

Fixpoint idx (low ds v : list Z) : Z :=
  match low, ds, v with
  | l :: low', d :: ds', x :: v' => (x - l) * prodZ ds' + idx low' ds' v'
  | _, _, _ => 0
  end.

(** Bounds of [int] needed for [l + r] not to overflow. *)
Definition low_ok (low ds : list Z) : Prop :=
  Forall2 (fun l d => int_min <= l /\ l + d <= int_max + 1) low ds.

Lemma box_elem_ok : forall low ds k, low_ok low ds -> allpos ds -> 0 <= k <= int_max ->
  box_elem low ds (sprods ds) k = Ret (elem low ds k).
Proof.
  intros low ds k H. induction H as [|l d low ds [Hl Hd] HF IH]; intros Hp Hk; auto.
  inversion Hp; subst.
  assert (P : 0 < prodZ ds) by (apply prodZ_pos; auto).
  simpl. unfold idiv.
  destruct (prodZ ds =? 0) eqn:E; [apply Z.eqb_eq in E; lia|].
  rewrite Z.quot_div_nonneg by lia.
  assert (Q : 0 <= k / prodZ ds <= k).
  { split. apply Z.div_pos; lia. apply Z.div_le_upper_bound; nia. }
  rewrite chk_ok by (unfold int_min; lia). simpl. unfold imod.
  destruct (d =? 0) eqn:E2; [apply Z.eqb_eq in E2; lia|].
  rewrite Z.quot_div_nonneg by lia.
  assert (Q2 : 0 <= k / prodZ ds / d <= k / prodZ ds).
  { split. apply Z.div_pos; lia. apply Z.div_le_upper_bound; nia. }
  rewrite chk_ok by (unfold int_min; lia). simpl.
  rewrite Z.rem_mod_nonneg by lia.
  assert (M := Z.mod_pos_bound (k / prodZ ds) d H1).
  rewrite chk_ok by lia. simpl. rewrite IH; auto.
Qed.

Lemma elem_idx_mod : forall low ds k, length low = length ds -> allpos ds -> 0 <= k ->
  idx low ds (elem low ds k) = k mod prodZ ds.
Proof.
  induction low as [|l low IH]; destruct ds as [|d ds]; intros k HL Hp Hk; simpl in *; try lia.
  - rewrite Z.mod_1_r. reflexivity.
  - inversion Hp; subst. rewrite IH; auto.
    assert (P : 0 < prodZ ds) by (apply prodZ_pos; auto).
    rewrite (Z.mul_comm d). rewrite Z.rem_mul_r by lia. lia.
Qed.

(** Membership in the box, over (low, dims). *)
Definition inb (low ds v : list Z) : Prop :=
  length v = length low /\
  forall i, (i < length low)%nat -> nth i low 0 <= nth i v 0 < nth i low 0 + nth i ds 0.

Lemma inb_cons : forall l low d ds x v,
  inb (l :: low) (d :: ds) (x :: v) <-> l <= x < l + d /\ inb low ds v.
Proof.
  intros. unfold inb. simpl. split.
  - intros [H1 H2]. split; [apply (H2 0%nat); lia|]. split; [lia|].
    intros i Hi. apply (H2 (S i)). lia.
  - intros [H0 [H1 H2]]. split; [lia|]. intros [|i] Hi; simpl; auto. apply H2; lia.
Qed.

Lemma elem_inb : forall low ds k, length low = length ds -> allpos ds -> 0 <= k ->
  inb low ds (elem low ds k).
Proof.
  induction low as [|l low IH]; destruct ds as [|d ds]; intros k HL Hp Hk; simpl in *; try lia.
  - split; simpl; intros; auto; lia.
  - inversion Hp; subst. apply inb_cons. split; [|apply IH; auto].
    assert (M := Z.mod_pos_bound (k / prodZ ds) d H1). lia.
Qed.

Lemma idx_bounds : forall low ds v, length low = length ds -> allpos ds -> inb low ds v ->
  0 <= idx low ds v < prodZ ds.
Proof.
  induction low as [|l low IH]; destruct ds as [|d ds]; intros v HL Hp Hb; simpl in *; try lia.
  inversion Hp; subst. destruct v as [|x v]; [destruct Hb as [Hb _]; simpl in Hb; lia|].
  apply inb_cons in Hb. destruct Hb as [H3 H4].
  specialize (IH ds v ltac:(lia) H2 H4).
  assert (P : 0 < prodZ ds) by (apply prodZ_pos; auto).
  nia.
Qed.

Lemma idx_elem : forall low ds v m, length low = length ds -> allpos ds -> inb low ds v ->
  0 <= m -> elem low ds (idx low ds v + m * prodZ ds) = v.
Proof.
  induction low as [|l low IH]; destruct ds as [|d ds]; intros v m HL Hp Hb Hm; simpl in *; try lia.
  - destruct Hb as [Hb _]. destruct v; simpl in Hb; [auto|lia].
  - inversion Hp; subst. destruct v as [|x v]; [destruct Hb as [Hb _]; simpl in Hb; lia|].
    apply inb_cons in Hb. destruct Hb as [H3 H4].
    assert (P : 0 < prodZ ds) by (apply prodZ_pos; auto).
    assert (B := idx_bounds low ds v ltac:(lia) H2 H4).
    replace ((x - l) * prodZ ds + idx low ds v + m * (d * prodZ ds))
      with (idx low ds v + ((x - l) + m * d) * prodZ ds) by ring.
    f_equal.
    + rewrite Z.div_add by lia. rewrite (Z.div_small (idx low ds v)) by lia.
      rewrite Z.add_0_l, Z.mod_add by lia. rewrite Z.mod_small by lia. lia.
    + apply IH; auto; nia.
Qed.

Lemma box_index_ok : forall low ds v acc, low_ok low ds -> allpos ds -> inb low ds v ->
  0 <= acc -> acc + prodZ ds <= int_max + 1 ->
  box_index low (sprods ds) v acc = Ret (acc + idx low ds v).
Proof.
  intros low ds v acc H. revert v acc.
  induction H as [|l d low ds [Hl Hd] HF IH]; intros v acc Hp Hb Ha Hm.
  - simpl. f_equal. lia.
  - inversion Hp; subst. destruct v as [|x v]; [destruct Hb as [Hb _]; simpl in Hb; lia|].
    apply inb_cons in Hb. destruct Hb as [H3 H4].
    assert (P : 0 < prodZ ds) by (apply prodZ_pos; auto).
    simpl in Hm |- *.
    assert (x - l <= d - 1) by lia.
    assert ((x - l) * prodZ ds <= (d - 1) * prodZ ds) by nia.
    rewrite chk_ok by (unfold int_min, int_max in *; nia). simpl.
    rewrite chk_ok by (unfold int_min in *; nia). simpl.
    rewrite chk_ok by (unfold int_min in *; nia). simpl.
    rewrite IH; auto; try nia. f_equal. lia.
Qed.

(** Link with the specification. *)
Lemma inb_in_box : forall beg en v, length beg = length en ->
  (inb beg (diffs beg en) v <-> in_box beg en v).
Proof.
  induction beg as [|b beg IH]; destruct en as [|e en]; intros v HL; simpl in HL; try lia.
  - unfold inb, in_box. simpl. intuition; lia.
  - destruct v as [|x v].
    + unfold inb, in_box. simpl. intuition; lia.
    + simpl diffs. rewrite inb_cons.
      assert (in_box (b :: beg) (e :: en) (x :: v) <-> b <= x < e /\ in_box beg en v).
      { unfold in_box. simpl. split.
        - intros [H1 H2]. split; [apply (H2 0%nat); lia|]. split; [lia|].
          intros i Hi. apply (H2 (S i)). lia.
        - intros [H0 [H1 H2]]. split; [lia|]. intros [|i] Hi; simpl; auto. apply H2; lia. }
      rewrite H. rewrite IH by lia. intuition; lia.
Qed.

Definition int_box (beg en : list Z) : Prop :=
  forall i, (i < length beg)%nat -> int_min <= nth i beg 0 /\ nth i en 0 <= int_max.

Lemma low_ok_box : forall beg en, length beg = length en -> int_box beg en ->
  low_ok beg (diffs beg en).
Proof.
  induction beg as [|b beg IH]; destruct en as [|e en]; intros HL Hb; simpl in HL; try lia.
  - constructor.
  - constructor.
    + assert (H := Hb 0%nat ltac:(simpl; lia)). simpl in H. lia.
    + apply IH; [lia|]. intros i Hi. apply (Hb (S i)). simpl. lia.
Qed.

(** ** Main results *)
Theorem box_bijection : forall beg en,
  length beg = length en ->
  (forall i, (i < length beg)%nat -> int_min <= nth i beg 0 < nth i en 0 /\ nth i en 0 <= int_max) ->
  volume beg en <= int_max ->
  exists b, box_new beg en = Ret b /\
    box_getNumberOfElements b = volume beg en /\
    (forall k, 0 <= k < volume beg en ->
       exists v, box_getElement b k = Ret v /\ in_box beg en v /\ box_getIndex b v = Ret k) /\
    (forall v, in_box beg en v ->
       exists k, 0 <= k < volume beg en /\ box_getIndex b v = Ret k /\ box_getElement b k = Ret v).
Proof.
  intros beg en HL Hb Hm.
  assert (PB : pos_box beg en) by (split; auto; intros i Hi; specialize (Hb i Hi); lia).
  assert (AP := pos_box_diffs _ _ PB).
  assert (LO : low_ok beg (diffs beg en)).
  { apply low_ok_box; auto. intros i Hi; specialize (Hb i Hi); lia. }
  assert (HL2 : length beg = length (diffs beg en)) by (rewrite diffs_length; auto).
  eexists. split; [apply box_new_ok; auto|].
  split; [reflexivity|].
  unfold box_getElement, box_getIndex. simpl.
  split.
  - intros k Hk. exists (elem beg (diffs beg en) k).
    rewrite box_elem_ok by (auto; lia). split; auto.
    assert (IB : inb beg (diffs beg en) (elem beg (diffs beg en) k)) by (apply elem_inb; auto; lia).
    split; [apply inb_in_box; auto|].
    rewrite box_index_ok; auto; try lia.
    + rewrite elem_idx_mod; auto; try lia. rewrite diffs_volume, Z.mod_small by lia.
      f_equal; lia.
    + rewrite diffs_volume. lia.
  - intros v Hv. apply inb_in_box in Hv; auto.
    exists (idx beg (diffs beg en) v).
    assert (B := idx_bounds beg (diffs beg en) v HL2 AP Hv). rewrite diffs_volume in B.
    split; auto. split.
    + rewrite box_index_ok by (auto; rewrite ?diffs_volume; lia). f_equal.
    + rewrite box_elem_ok by (auto; lia). f_equal.
      assert (E := idx_elem beg (diffs beg en) v 0 HL2 AP Hv ltac:(lia)).
      rewrite Z.mul_0_l, Z.add_0_r in E. exact E.
Qed.

Lemma lex_idx : forall low ds v w, length low = length ds -> allpos ds ->
  inb low ds v -> inb low ds w -> lex_lt v w -> idx low ds v < idx low ds w.
Proof.
  induction low as [|l low IH]; destruct ds as [|d ds]; intros v w HL Hp Hv Hw Hlt; simpl in *; try lia.
  - destruct Hv as [Hv _]. destruct v; simpl in Hv; [|lia]. inversion Hlt.
  - inversion Hp; subst.
    assert (P : 0 < prodZ ds) by (apply prodZ_pos; auto).
    destruct v as [|x v]; [inversion Hlt|]. destruct w as [|y w]; [inversion Hlt|].
    apply inb_cons in Hv. apply inb_cons in Hw. destruct Hv as [Hx Hv]. destruct Hw as [Hy Hw].
    assert (Bv := idx_bounds low ds v ltac:(lia) H2 Hv).
    assert (Bw := idx_bounds low ds w ltac:(lia) H2 Hw).
    inversion Hlt; subst.
    + nia.
    + specialize (IH ds v w ltac:(lia) H2 Hv Hw H0). lia.
Qed.

Lemma lex_trichotomy : forall v w, length v = length w -> lex_lt v w \/ v = w \/ lex_lt w v.
Proof.
  induction v as [|x v IH]; destruct w as [|y w]; simpl; intros H; try lia; auto.
  destruct (Z.lt_trichotomy x y) as [L|[E|G]].
  - left; constructor; auto.
  - subst. destruct (IH w ltac:(lia)) as [L|[E|G]].
    + left. apply lex_next; auto.
    + subst; auto.
    + right; right. apply lex_next; auto.
  - right; right. constructor; auto.
Qed.

Theorem box_lexicographic : forall beg en,
  length beg = length en ->
  (forall i, (i < length beg)%nat -> int_min <= nth i beg 0 < nth i en 0 /\ nth i en 0 <= int_max) ->
  volume beg en <= int_max ->
  exists b, box_new beg en = Ret b /\
    forall k k' v v', 0 <= k < volume beg en -> 0 <= k' < volume beg en ->
      box_getElement b k = Ret v -> box_getElement b k' = Ret v' ->
      (k < k' <-> lex_lt v v').
Proof.
  intros beg en HL Hb Hm.
  assert (PB : pos_box beg en) by (split; auto; intros i Hi; specialize (Hb i Hi); lia).
  assert (AP := pos_box_diffs _ _ PB).
  assert (LO : low_ok beg (diffs beg en)).
  { apply low_ok_box; auto. intros i Hi; specialize (Hb i Hi); lia. }
  assert (HL2 : length beg = length (diffs beg en)) by (rewrite diffs_length; auto).
  eexists. split; [apply box_new_ok; auto|].
  intros k k' v v' Hk Hk' Hv Hv'.
  unfold box_getElement in *. simpl in *.
  rewrite box_elem_ok in Hv by (auto; lia). rewrite box_elem_ok in Hv' by (auto; lia).
  injection Hv as <-. injection Hv' as <-.
  assert (I : forall q, 0 <= q < volume beg en ->
            inb beg (diffs beg en) (elem beg (diffs beg en) q) /\
            idx beg (diffs beg en) (elem beg (diffs beg en) q) = q).
  { intros q Hq. split; [apply elem_inb; auto; lia|].
    rewrite elem_idx_mod; auto; try lia. rewrite diffs_volume, Z.mod_small by lia. auto. }
  destruct (I k Hk) as [I1 E1]. destruct (I k' Hk') as [I2 E2].
  assert (F : forall a b, inb beg (diffs beg en) a -> inb beg (diffs beg en) b ->
    lex_lt a b -> idx beg (diffs beg en) a < idx beg (diffs beg en) b)
    by (intros; apply lex_idx; auto).
  split; intros Hlt.
  - destruct (lex_trichotomy (elem beg (diffs beg en) k) (elem beg (diffs beg en) k')) as [L|[E|G]]; auto.
    + destruct I1 as [L1 _]. destruct I2 as [L2 _]. congruence.
    + exfalso. rewrite E in E1. lia.
    + exfalso. apply F in G; auto. lia.
  - apply F in Hlt; auto. lia.
Qed.

(** Degenerate boxes. *)
Lemma box_empty_count : forall beg en b, length beg = length en ->
  (exists i, (i < length beg)%nat /\ nth i beg 0 = nth i en 0) ->
  box_new beg en = Ret b -> box_getNumberOfElements b = 0.
Proof.
  intros beg en b HL (i & Hi & He) H. unfold box_new in H.
  apply bind_ret_inv in H. destruct H as (ds & Hds & H).
  apply bind_ret_inv in H. destruct H as (n & Hn & H).
  apply bind_ret_inv in H. destruct H as (ps & Hps & H).
  inversion H; subst. simpl. clear H Hps.
  assert (In 0 ds).
  { clear Hn. revert en ds i HL Hi He Hds. induction beg as [|x beg IH]; destruct en as [|e en];
      simpl; intros ds i HL Hi He Hds; try lia.
    apply bind_ret_inv in Hds. destruct Hds as (d & Hd & Hds). apply chk_inv in Hd.
    apply bind_ret_inv in Hds. destruct Hds as (ds' & Hds' & E). inversion E; subst.
    destruct i as [|i]; simpl in *.
    - left. lia.
    - right. apply (IH en ds' i); auto; lia. }
  assert (Z0 : forall l n, foldM (fun n d => chk (n * d)) l 0 = Ret n -> n = 0).
  { induction l as [|d l IH]; simpl; intros m Hm; [congruence|].
    rewrite Z.mul_0_l in Hm. auto. }
  clear Hds. unfold box_numElems in Hn. revert Hn. generalize 1. induction ds as [|d ds IH]; intros m Hn; [easy|].
  simpl in Hn. apply bind_ret_inv in Hn. destruct Hn as (m' & Hm' & Hn). apply chk_inv in Hm'.
  destruct H as [->|H].
  - destruct Hm' as [-> _]. rewrite Z.mul_0_r in Hn. eauto.
  - eauto.
Qed.
