(** Two-dimensional box iterators from zero and arrays stored row by row. *)
From Coq Require Import ZArith List Bool Lia.
From Verif Require Import Base M_BoxIterator S_Array.
Import ListNotations.
Open Scope Z_scope.

Definition box2 (a b : Z) : box_it := mkBox [0; 0] [a; b] [b; 1] (a * b).

Lemma box2_new : forall a b, 0 <= a -> 0 <= b -> a <= int_max -> b <= int_max -> a * b <= int_max ->
  box_new [0; 0] [a; b] = Ret (box2 a b).
Proof.
  intros a b Ha Hb Ha' Hb' H. unfold int_max in *. unfold box_new. cbn [box_dims].
  rewrite !Z.sub_0_r. repeat (rewrite chk_ok by (unfold int_min, int_max; lia); cbn [bind]).
  unfold box_numElems. cbn [foldM]. rewrite !Z.mul_1_l.
  repeat (rewrite chk_ok by (unfold int_min, int_max; nia); cbn [bind]). cbn [box_dimProd bind]. rewrite Z.mul_1_l.
  rewrite chk_ok by (unfold int_min, int_max; lia). reflexivity.
Qed.

Lemma cell_div : forall b i j, 0 <= j < b -> (i * b + j) / b = i /\ (i * b + j) mod b = j.
Proof.
  intros b i j H. replace (i * b + j) with (j + i * b) by lia.
  rewrite Z.div_add, Z.mod_add by lia. rewrite Z.div_small, Z.mod_small by lia. lia.
Qed.

Lemma cell_range : forall a b k, 0 < b -> 0 <= k < a * b -> 0 <= k / b < a /\ 0 <= k mod b < b /\ k = k / b * b + k mod b.
Proof.
  intros a b k Hb H. assert (E := Z.div_mod k b ltac:(lia)). assert (M := Z.mod_pos_bound k b Hb).
  split; [|lia]. split; [apply Z.div_pos; lia|apply Z.div_lt_upper_bound; lia].
Qed.

Lemma box2_elem : forall a b i j, 0 <= i < a -> 0 <= j < b -> a * b <= int_max ->
  box_getElement (box2 a b) (i * b + j) = Ret [i; j].
Proof.
  intros a b i j Hi Hj H. unfold int_max in *. unfold box_getElement, box2. cbn [bx_lowEnd bx_dims bx_dimProd box_elem].
  destruct (cell_div b i j Hj) as [D M]. unfold idiv, imod.
  replace (b =? 0) with false by (symmetry; apply Z.eqb_neq; lia).
  replace (a =? 0) with false by (symmetry; apply Z.eqb_neq; lia). cbn [Z.eqb].
  assert (IJ : i * b + j < a * b) by nia. assert (A : a < 2 ^ 31) by nia. assert (B : b < 2 ^ 31) by nia.
  rewrite Z.quot_div_nonneg, D by nia.
  rewrite chk_ok by (unfold int_min, int_max; lia). cbn [bind].
  rewrite Z.quot_div_nonneg, (Z.div_small i a), Z.rem_mod_nonneg, (Z.mod_small i a) by lia.
  rewrite chk_ok by (unfold int_min, int_max; lia). cbn [bind]. rewrite Z.add_0_l.
  rewrite chk_ok by (unfold int_min, int_max; lia). cbn [bind].
  rewrite Z.quot_1_r. rewrite chk_ok by (unfold int_min, int_max; nia). cbn [bind].
  rewrite Z.quot_div_nonneg, D, Z.rem_mod_nonneg, M by nia.
  rewrite chk_ok by (unfold int_min, int_max; lia). cbn [bind]. rewrite Z.add_0_l.
  rewrite chk_ok by (unfold int_min, int_max; lia). reflexivity.
Qed.

Lemma box2_index : forall a b i j, 0 <= i < a -> 0 <= j < b -> a * b <= int_max ->
  box_getIndex (box2 a b) [i; j] = Ret (i * b + j).
Proof.
  intros a b i j Hi Hj H. unfold int_max in *. unfold box_getIndex, box2. cbn [bx_lowEnd bx_dimProd box_index].
  assert (IJ : i * b + j < a * b) by nia. assert (A : a < 2 ^ 31) by nia. assert (B : b < 2 ^ 31) by nia.
  rewrite !Z.sub_0_r.
  repeat (rewrite chk_ok by (unfold int_min, int_max; nia); cbn [bind]; rewrite ?Z.add_0_l, ?Z.mul_1_r). reflexivity.
Qed.

Lemma stores_get : forall {A} n0 n1 (f : Z -> Z -> A) a i j, stores n0 n1 f a -> 0 <= i < n0 -> 0 <= j < n1 ->
  vget a (i * n1 + j) = Ret (f i j).
Proof.
  intros A n0 n1 f a i j [_ H] Hi Hj. unfold vget.
  replace (i * n1 + j <? 0) with false by (symmetry; apply Z.ltb_ge; nia). rewrite H by auto. reflexivity.
Qed.

(** An array that stores given values. *)
Definition array2 {A} (n0 n1 : Z) (f : Z -> Z -> A) : list A := map (fun k => f (k / n1) (k mod n1)) (range (n0 * n1)).

Lemma range_length : forall n, length (range n) = Z.to_nat n.
Proof. intros. unfold range. apply zseq_length. Qed.

Lemma range_nth : forall n k, 0 <= k < n -> nth_error (range n) (Z.to_nat k) = Some k.
Proof.
  intros n k H. unfold range, zseq. rewrite nth_error_map.
  rewrite (nth_error_nth' _ 0%nat) by (rewrite seq_length; lia).
  rewrite seq_nth by lia. cbn [option_map]. f_equal. lia.
Qed.

Lemma array2_stores : forall {A} n0 n1 (f : Z -> Z -> A), 0 <= n0 -> 0 <= n1 -> stores n0 n1 f (array2 n0 n1 f).
Proof.
  intros A n0 n1 f H0 H1. split.
  - unfold array2. rewrite map_length, range_length. lia.
  - intros i j Hi Hj. unfold array2. rewrite nth_error_map, range_nth by nia.
    cbn [option_map]. destruct (cell_div n1 i j Hj) as [-> ->]. reflexivity.
Qed.
