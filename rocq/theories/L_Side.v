(** Proofs about the side iterator. *)
From Coq Require Import ZArith List Bool Lia.
From Verif Require Import Base M_SideIterator.
Import ListNotations.
Open Scope Z_scope.

(** State after [k] calls to next on a fresh iterator, and the codes returned. *)
Fixpoint side_run (k : nat) (s : side_it) : list Z * side_it :=
  match k with
  | O => ([], s)
  | S k' => let '(c, s1) := side_next s in
            let '(cs, s2) := side_run k' s1 in (c :: cs, s2)
  end.

Lemma side_num_ok : forall n, 3 ^ Z.of_nat n < 2 ^ 64 -> side_num n = 3 ^ Z.of_nat n.
Proof.
  induction n; intros H; auto.
  rewrite Nat2Z.inj_succ, Z.pow_succ_r in H |- * by lia.
  assert (0 < 3 ^ Z.of_nat n) by (apply Z.pow_pos_nonneg; lia).
  simpl side_num. rewrite IHn by lia. unfold wrap64. rewrite Z.mod_small by lia. lia.
Qed.

Fixpoint pow3s (n : nat) : list Z :=
  match n with O => [] | S n' => 3 ^ Z.of_nat n' :: pow3s n' end.

Lemma side_prods_ok : forall n, 3 ^ Z.of_nat n < 2 ^ 64 -> side_prods n = pow3s n.
Proof.
  induction n; intros H; auto.
  rewrite Nat2Z.inj_succ, Z.pow_succ_r in H by lia.
  assert (0 < 3 ^ Z.of_nat n) by (apply Z.pow_pos_nonneg; lia).
  simpl side_prods. rewrite IHn by lia.
  destruct n; [reflexivity|]. cbn [pow3s].
  f_equal. rewrite Nat2Z.inj_succ, Z.pow_succ_r in H |- * by lia.
  unfold wrap64. rewrite Z.mod_small; [lia|].
  assert (0 < 3 ^ Z.of_nat n) by (apply Z.pow_pos_nonneg; lia). lia.
Qed.

(** The digits of k in base 3, shifted by -1. *)
Fixpoint sides (n : nat) (k : Z) : list Z :=
  match n with O => [] | S n' => (k / 3 ^ Z.of_nat n' mod 3 - 1) :: sides n' k end.

Lemma side_get_ok : forall n m k, 0 <= k ->
  side_get (mkSide k m (pow3s n)) = Ret (sides n k).
Proof.
  intros n m k Hk. unfold side_get. simpl sd_prodDims. simpl sd_index.
  induction n; auto.
  cbn [pow3s mapM sides].
  assert (0 < 3 ^ Z.of_nat n) by (apply Z.pow_pos_nonneg; lia).
  destruct (3 ^ Z.of_nat n =? 0) eqn:E; [apply Z.eqb_eq in E; lia|].
  cbn [bind]. rewrite IHn. cbn [bind]. f_equal. f_equal.
  set (q := (k / 3 ^ Z.of_nat n) mod 3).
  assert (0 <= q < 3) by (apply Z.mod_pos_bound; lia).
  assert (C : q = 0 \/ q = 1 \/ q = 2) by lia.
  destruct C as [->|[->| ->]]; vm_compute; reflexivity.
Qed.

Fixpoint side_val (v : list Z) : Z :=
  match v with [] => 0 | x :: v' => (x + 1) * 3 ^ Z.of_nat (length v') + side_val v' end.

Lemma sides_length : forall n k, length (sides n k) = n.
Proof. induction n; simpl; auto. Qed.

Lemma sides_range : forall n k x, In x (sides n k) -> x = -1 \/ x = 0 \/ x = 1.
Proof.
  induction n; simpl; intros k x H; [tauto|]. destruct H as [<-|H]; eauto.
  assert (H := Z.mod_pos_bound (k / 3 ^ Z.of_nat n) 3 ltac:(lia)). lia.
Qed.

Lemma sides_val : forall n k, 0 <= k -> side_val (sides n k) = k mod 3 ^ Z.of_nat n.
Proof.
  induction n; intros k Hk.
  - simpl. rewrite Z.mod_1_r. reflexivity.
  - cbn [sides side_val]. rewrite sides_length, IHn by auto.
    rewrite Nat2Z.inj_succ, Z.pow_succ_r by lia.
    assert (0 < 3 ^ Z.of_nat n) by (apply Z.pow_pos_nonneg; lia).
    rewrite (Z.mul_comm 3). rewrite Z.rem_mul_r by lia. lia.
Qed.

Lemma side_val_bounds : forall v, (forall x, In x v -> x = -1 \/ x = 0 \/ x = 1) ->
  0 <= side_val v < 3 ^ Z.of_nat (length v).
Proof.
  induction v as [|x v IH]; intros H; simpl length.
  - simpl. lia.
  - cbn [side_val]. rewrite Nat2Z.inj_succ, Z.pow_succ_r by lia.
    assert (B := IH (fun y Hy => H y (or_intror Hy))).
    assert (C := H x (or_introl eq_refl)). nia.
Qed.

Lemma val_sides : forall v m, (forall x, In x v -> x = -1 \/ x = 0 \/ x = 1) -> 0 <= m ->
  sides (length v) (side_val v + m * 3 ^ Z.of_nat (length v)) = v.
Proof.
  induction v as [|x v IH]; intros m H Hm; auto.
  cbn [length sides side_val].
  assert (B := side_val_bounds v (fun y Hy => H y (or_intror Hy))).
  assert (C := H x (or_introl eq_refl)).
  rewrite Nat2Z.inj_succ, Z.pow_succ_r by lia.
  replace ((x + 1) * 3 ^ Z.of_nat (length v) + side_val v + m * (3 * 3 ^ Z.of_nat (length v)))
    with (side_val v + ((x + 1) + m * 3) * 3 ^ Z.of_nat (length v)) by ring.
  f_equal.
  - rewrite Z.div_add by lia. rewrite Z.div_small by lia.
    rewrite Z.add_0_l, Z.mod_add by lia. rewrite Z.mod_small by lia. lia.
  - apply IH; [intros y Hy; apply H; right; exact Hy | lia].
Qed.

Lemma side_run_ok : forall k i m ps, 0 <= i -> i + Z.of_nat k < 2 ^ 64 ->
  snd (side_run k (mkSide i m ps)) = mkSide (i + Z.of_nat k) m ps /\
  length (fst (side_run k (mkSide i m ps))) = k /\
  (forall j, (j < k)%nat -> nth j (fst (side_run k (mkSide i m ps))) 9 =
      if i + Z.of_nat j + 1 <? m then 0 else 1).
Proof.
  induction k as [|k IH]; intros i m ps Hi Hb.
  - simpl. split; [f_equal; lia|]. split; auto. intros; lia.
  - cbn [side_run side_next sd_index sd_numElems sd_prodDims].
    unfold wrap64. rewrite Z.mod_small by lia.
    specialize (IH (i + 1) m ps ltac:(lia) ltac:(lia)).
    destruct (side_run k (mkSide (i + 1) m ps)) as [cs s2]. simpl in IH |- *.
    destruct IH as (-> & L & C). split; [f_equal; lia|]. split; [lia|].
    intros [|j] Hj.
    + replace (i + Z.of_nat 0 + 1) with (i + 1) by lia. reflexivity.
    + rewrite C by lia. replace (i + 1 + Z.of_nat j + 1) with (i + Z.of_nat (S j) + 1) by lia. reflexivity.
Qed.

Theorem side_enumeration : forall n : nat, (0 < n)%nat -> 3 ^ Z.of_nat n < 2 ^ 64 ->
  exists s0, side_new n = Ret s0 /\
    side_getNumberOfElements s0 = 3 ^ Z.of_nat n /\
    (* return codes: 0 for the first 3^n - 1 calls, 1 at the last *)
    (forall k, (k <= Z.to_nat (3 ^ Z.of_nat n))%nat ->
       forall j, (j < k)%nat ->
       nth j (fst (side_run k s0)) 9 = if Z.of_nat j + 1 <? 3 ^ Z.of_nat n then 0 else 1) /\
    (* every visited side is a vector over {-1,0,1} *)
    (forall k, (k < Z.to_nat (3 ^ Z.of_nat n))%nat ->
       exists v, side_get (snd (side_run k s0)) = Ret v /\ length v = n /\
                 (forall x, In x v -> x = -1 \/ x = 0 \/ x = 1)) /\
    (* each such vector is visited exactly once *)
    (forall v, length v = n -> (forall x, In x v -> x = -1 \/ x = 0 \/ x = 1) ->
       exists! k, (k < Z.to_nat (3 ^ Z.of_nat n))%nat /\ side_get (snd (side_run k s0)) = Ret v) /\
    (* reset brings back the initial state *)
    (forall k, (k <= Z.to_nat (3 ^ Z.of_nat n))%nat -> side_reset (snd (side_run k s0)) = s0).
Proof.
  intros n Hn Hb.
  assert (P : 0 < 3 ^ Z.of_nat n) by (apply Z.pow_pos_nonneg; lia).
  exists (mkSide 0 (3 ^ Z.of_nat n) (pow3s n)).
  split.
  { unfold side_new. destruct n; [lia|]. rewrite side_num_ok, side_prods_ok by auto. reflexivity. }
  split; [reflexivity|].
  assert (R : forall k, (k <= Z.to_nat (3 ^ Z.of_nat n))%nat ->
     snd (side_run k (mkSide 0 (3 ^ Z.of_nat n) (pow3s n))) = mkSide (Z.of_nat k) (3 ^ Z.of_nat n) (pow3s n)).
  { intros k Hk. destruct (side_run_ok k 0 (3 ^ Z.of_nat n) (pow3s n)) as (E & _ & _); try lia. exact E. }
  split.
  { intros k Hk j Hj. destruct (side_run_ok k 0 (3 ^ Z.of_nat n) (pow3s n)) as (_ & _ & C); try lia.
    rewrite C by auto. rewrite Z.add_0_l. reflexivity. }
  split.
  { intros k Hk. rewrite R by lia. rewrite side_get_ok by lia.
    eexists; split; [reflexivity|]. split; [apply sides_length|]. apply sides_range. }
  split.
  { intros v Hl Hv.
    assert (B := side_val_bounds v Hv). rewrite Hl in B.
    exists (Z.to_nat (side_val v)). split.
    - split; [lia|]. rewrite R by lia. rewrite side_get_ok by lia. f_equal.
      assert (E := val_sides v 0 Hv ltac:(lia)). rewrite Hl in E.
      rewrite Z2Nat.id by lia. rewrite Z.mul_0_l, Z.add_0_r in E. exact E.
    - intros k [Hk Hg]. rewrite R in Hg by lia. rewrite side_get_ok in Hg by lia.
      injection Hg as Hg. assert (E := sides_val n (Z.of_nat k) ltac:(lia)).
      rewrite Hg in E. rewrite Z.mod_small in E by lia. lia. }
  intros k Hk. rewrite R by auto. reflexivity.
Qed.
