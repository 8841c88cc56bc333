(** What [gels_spec] asks of dgels can be met for all sizes: a concrete solver over
    the reals (orthogonalisation of the columns), with a proof. *)
From Coq Require Import ZArith List Reals Lra Lia.
From Verif Require Import Base Num NumR M_LinearSolve S_LinAlg.
Import ListNotations.
Open Scope R_scope.

Lemma rs_ext : forall n f g, (forall i, (i < n)%nat -> f i = g i) -> rsum n f = rsum n g.
Proof. induction n; intros f g H; cbn [rsum]; [reflexivity|]. rewrite (IHn f g), (H n); auto. Qed.

Lemma rs_add : forall n f g, rsum n (fun i => f i + g i) = rsum n f + rsum n g.
Proof. induction n; intros; cbn [rsum]; [lra|]. rewrite IHn. lra. Qed.

Lemma rs_scal : forall n c f, rsum n (fun i => c * f i) = c * rsum n f.
Proof. induction n; intros; cbn [rsum]; [lra|]. rewrite IHn. lra. Qed.

Lemma rs_zero : forall n f, (forall i, (i < n)%nat -> f i = 0) -> rsum n f = 0.
Proof. induction n; intros f H; cbn [rsum]; [reflexivity|]. rewrite IHn, (H n); auto; lra. Qed.

Lemma rs_swap : forall m n f, rsum m (fun i => rsum n (fun j => f i j)) = rsum n (fun j => rsum m (fun i => f i j)).
Proof.
  induction m; intros n f; cbn [rsum]; [symmetry; apply rs_zero; auto|].
  rewrite IHm, <- rs_add. apply rs_ext. intros. reflexivity.
Qed.

Lemma rs_pos0 : forall n f, (forall i, (i < n)%nat -> 0 <= f i) -> 0 <= rsum n f.
Proof. induction n; intros f H; cbn [rsum]; [lra|]. assert (0 <= rsum n f) by (apply IHn; auto). assert (0 <= f n) by auto. lra. Qed.

Lemma rs_pos : forall n f, (forall i, (i < n)%nat -> 0 <= f i) -> rsum n f = 0 -> forall i, (i < n)%nat -> f i = 0.
Proof.
  induction n; intros f H E i Hi; [lia|]. cbn [rsum] in E.
  assert (0 <= rsum n f) by (apply rs_pos0; auto). assert (0 <= f n) by auto.
  destruct (Nat.eq_dec i n) as [->|]; [lra|]. apply IHn; auto; [lra|lia].
Qed.

Section Solve.
(** Length of the vectors; the columns; the right-hand side. *)
Variable m : nat.
Variable a : nat -> nat -> R.
Variable b : nat -> R.

Definition dot (u v : nat -> R) : R := rsum m (fun i => u i * v i).

(** What is left of [v] once the first [k] columns are projected out. *)
Fixpoint orth (k : nat) (v : nat -> R) : nat -> R :=
  match k with
  | O => v
  | S k => let q := orth k (a k) in let w := orth k v in fun i => w i + (- (dot w q / dot q q)) * q i
  end.

(** The vector of the span of the first [k] columns whose products with them are [b]. *)
Fixpoint sol (k : nat) : nat -> R :=
  match k with
  | O => fun _ => 0
  | S k => let q := orth k (a k) in let x := sol k in fun i => x i + ((b k - dot (a k) x) / dot q q) * q i
  end.

Definition span (k : nat) (v : nat -> R) : Prop :=
  exists z, forall i, (i < m)%nat -> v i = rsum k (fun j => a j i * z j).

Definition indep (k : nat) : Prop :=
  forall z, (forall i, (i < m)%nat -> rsum k (fun j => a j i * z j) = 0) -> forall j, (j < k)%nat -> z j = 0.

Lemma dot_sym : forall u v, dot u v = dot v u.
Proof. intros. apply rs_ext. intros. ring. Qed.

Lemma dot_lin : forall u v w c, dot u (fun i => v i + c * w i) = dot u v + c * dot u w.
Proof.
  intros. unfold dot. rewrite <- rs_scal, <- rs_add. apply rs_ext. intros. ring.
Qed.

Lemma dot_ext : forall u v w, (forall i, (i < m)%nat -> v i = w i) -> dot u v = dot u w.
Proof. intros u v w H. apply rs_ext. intros i Hi. rewrite H; auto. Qed.

Lemma dot_pos : forall u, dot u u = 0 -> forall i, (i < m)%nat -> u i = 0.
Proof.
  intros u H i Hi. assert (Q : u i * u i = 0).
  { apply (rs_pos m (fun i => u i * u i)); auto. intros. nra. }
  nra.
Qed.

Lemma span_perp : forall k v u, span k v -> (forall j, (j < k)%nat -> dot u (a j) = 0) -> dot u v = 0.
Proof.
  intros k v u (z & Hz) H. rewrite (dot_ext u v (fun i => rsum k (fun j => a j i * z j)) Hz).
  unfold dot. rewrite (rs_ext m _ (fun i => rsum k (fun j => u i * (a j i * z j)))) by (intros; rewrite rs_scal; reflexivity).
  rewrite rs_swap. apply rs_zero. intros j Hj.
  rewrite (rs_ext m _ (fun i => z j * (u i * a j i))) by (intros; ring). rewrite rs_scal.
  specialize (H j Hj). unfold dot in H. rewrite H. ring.
Qed.

Lemma span_lin : forall k v w c, span k v -> span k w -> span k (fun i => v i + c * w i).
Proof.
  intros k v w c (z1 & H1) (z2 & H2). exists (fun j => z1 j + c * z2 j). intros i Hi.
  rewrite H1, H2 by auto. rewrite <- rs_scal, <- rs_add. apply rs_ext. intros. ring.
Qed.

Lemma span_ext : forall k v w, span k v -> (forall i, (i < m)%nat -> v i = w i) -> span k w.
Proof. intros k v w (z & H) E. exists z. intros i Hi. rewrite <- E; auto. Qed.

Lemma span_S : forall k v, span k v -> span (S k) v.
Proof.
  intros k v (z & H). exists (fun j => if (j <? k)%nat then z j else 0). intros i Hi. cbn [rsum].
  rewrite Nat.ltb_irrefl. rewrite H by auto. rewrite (rs_ext k _ (fun j => a j i * (if (j <? k)%nat then z j else 0))); [lra|].
  intros j Hj. apply Nat.ltb_lt in Hj. rewrite Hj. reflexivity.
Qed.

Lemma span_col : forall k, span (S k) (a k).
Proof.
  intros k. exists (fun j => if (j =? k)%nat then 1 else 0). intros i Hi. cbn [rsum]. rewrite Nat.eqb_refl.
  rewrite rs_zero; [lra|]. intros j Hj. assert (E : (j =? k)%nat = false) by (apply Nat.eqb_neq; lia). rewrite E. ring.
Qed.

(** Projecting out changes a vector by a combination of the columns. *)
Lemma orth_span : forall k v, span k (fun i => orth k v i + (-1) * v i).
Proof.
  induction k; intros v.
  - exists (fun _ => 0). intros i _. cbn. ring.
  - cbn [orth]. set (q := orth k (a k)). set (w := orth k v). set (c := - (dot w q / dot q q)).
    assert (Q : span (S k) q).
    { apply (span_ext _ (fun i => a k i + 1 * (q i + (-1) * a k i))); [|intros; ring].
      apply span_lin; [apply span_col|apply span_S, IHk]. }
    apply (span_ext _ (fun i => (w i + (-1) * v i) + c * q i)); [|intros; ring].
    apply span_lin; auto. apply span_S, IHk.
Qed.

Lemma orth_self : forall k, span (S k) (orth k (a k)).
Proof.
  intros k. apply (span_ext _ (fun i => a k i + 1 * (orth k (a k) i + (-1) * a k i))); [|intros; ring].
  apply span_lin; [apply span_col|apply span_S, orth_span].
Qed.

(** [v] and its rest have the same product with what is orthogonal to the columns. *)
Lemma orth_dot : forall k v u, (forall j, (j < k)%nat -> dot u (a j) = 0) -> dot u (orth k v) = dot u v.
Proof.
  intros k v u H. assert (D := span_perp k _ u (orth_span k v) H). rewrite dot_lin in D. lra.
Qed.

Lemma orth_perp : forall k, (forall j, (j < k)%nat -> dot (orth j (a j)) (orth j (a j)) <> 0) ->
  forall v j, (j < k)%nat -> dot (orth k v) (a j) = 0.
Proof.
  induction k; intros NZ v j Hj; [lia|].
  assert (IH := IHk (fun j H => NZ j (Nat.lt_lt_succ_r _ _ H))). assert (N := NZ k (Nat.lt_succ_diag_r k)).
  cbn [orth]. set (q := orth k (a k)) in *. set (w := orth k v).
  rewrite dot_sym, dot_lin. destruct (Nat.eq_dec j k) as [->|Hne].
  - assert (E1 : dot (a k) w = dot w q).
    { rewrite dot_sym. unfold q. rewrite orth_dot; auto. intros. apply IH; auto. }
    assert (E2 : dot (a k) q = dot q q).
    { rewrite dot_sym. transitivity (dot q (orth k (a k))); [|reflexivity]. symmetry. apply orth_dot. intros. apply IH; auto. }
    rewrite E1, E2. field. exact N.
  - rewrite (dot_sym (a j) w), (dot_sym (a j) q). assert (W0 : dot w (a j) = 0) by (apply IH; lia). assert (Q0 : dot q (a j) = 0) by (apply IH; lia). rewrite W0, Q0. ring.
Qed.

Lemma sol_span : forall k, span k (sol k).
Proof.
  induction k; [exists (fun _ => 0); intros; cbn; ring|]. cbn [sol].
  apply span_lin; [apply span_S; auto|apply orth_self].
Qed.

Lemma sol_correct : forall k, (forall j, (j < k)%nat -> dot (orth j (a j)) (orth j (a j)) <> 0) ->
  forall j, (j < k)%nat -> dot (a j) (sol k) = b j.
Proof.
  induction k; intros NZ j Hj; [lia|].
  assert (NZ' := fun j H => NZ j (Nat.lt_lt_succ_r _ _ H)). assert (N := NZ k (Nat.lt_succ_diag_r k)).
  cbn [sol]. set (q := orth k (a k)) in *. rewrite dot_lin. destruct (Nat.eq_dec j k) as [->|Hne].
  - assert (E2 : dot (a k) q = dot q q).
    { rewrite dot_sym. transitivity (dot q (orth k (a k))); [|reflexivity]. symmetry. apply orth_dot. intros. apply orth_perp; auto. }
    rewrite E2. field. exact N.
  - rewrite IHk by (auto; lia). rewrite (dot_sym (a j) q). assert (Q0 : dot q (a j) = 0) by (apply orth_perp; auto; lia). rewrite Q0. ring.
Qed.

(** The rests vanish exactly when the columns are dependent. *)
Lemma indep_rest : forall n, indep n -> forall k, (k < n)%nat -> dot (orth k (a k)) (orth k (a k)) <> 0.
Proof.
  intros n I k Hk E. assert (Z0 := dot_pos _ E). destruct (orth_span k (a k)) as (z & Hz).
  assert (C := I (fun j => if (j <? k)%nat then z j else if (j =? k)%nat then 1 else 0)).
  assert (H : (if (k <? k)%nat then z k else if (k =? k)%nat then 1 else 0) = 0).
  { apply C; auto. intros i Hi.
    assert (K : forall n, (k < n)%nat -> rsum n (fun j => a j i * (if (j <? k)%nat then z j else if (j =? k)%nat then 1 else 0)) = rsum k (fun j => a j i * z j) + a k i).
    { induction n0 as [|n0 IH]; intros Hn; [lia|]. cbn [rsum]. destruct (Nat.eq_dec n0 k) as [->|Hne].
      - rewrite Nat.ltb_irrefl, Nat.eqb_refl. rewrite (rs_ext k _ (fun j => a j i * z j)); [ring|].
        intros j Hj. apply Nat.ltb_lt in Hj. rewrite Hj. reflexivity.
      - rewrite IH by lia. assert (E1 : (n0 <? k)%nat = false) by (apply Nat.ltb_ge; lia). assert (E2 : (n0 =? k)%nat = false) by (apply Nat.eqb_neq; lia).
        rewrite E1, E2. ring. }
    rewrite K by auto. rewrite <- Hz by auto. rewrite Z0 by auto. ring. }
  rewrite Nat.ltb_irrefl, Nat.eqb_refl in H. lra.
Qed.

Lemma rest_indep : forall n, (forall k, (k < n)%nat -> dot (orth k (a k)) (orth k (a k)) <> 0) -> indep n.
Proof.
  induction n; intros NZ z Hz j Hj; [lia|].
  assert (NZ' := fun j H => NZ j (Nat.lt_lt_succ_r _ _ H)). assert (N := NZ n (Nat.lt_succ_diag_r n)).
  set (q := orth n (a n)) in *.
  assert (Zn : z n = 0).
  { assert (S1 : span n (fun i => (-1) * (z n * a n i))).
    { exists z. intros i Hi. specialize (Hz i Hi). cbn [rsum] in Hz. lra. }
    assert (D := span_perp n _ q S1 (fun j H => orth_perp n NZ' (a n) j H)).
    assert (E2 : dot q (a n) = dot q q).
    { transitivity (dot q (orth n (a n))); [|reflexivity]. symmetry. apply orth_dot. intros. apply orth_perp; auto. }
    assert (D2 : dot q (fun i => (-1) * (z n * a n i)) = - z n * dot q (a n)).
    { unfold dot. rewrite <- rs_scal. apply rs_ext. intros. ring. }
    rewrite D2, E2 in D. apply Rmult_integral in D. destruct D; [lra|contradiction]. }
  destruct (Nat.eq_dec j n) as [->|]; auto. apply (IHn NZ'); [|lia].
  intros i Hi. specialize (Hz i Hi). cbn [rsum] in Hz. rewrite Zn in Hz. lra.
Qed.

(** Some rest among the first [n] vanishes. *)
Fixpoint defective (n : nat) : bool :=
  match n with
  | O => false
  | S k => if Req_EM_T (dot (orth k (a k)) (orth k (a k))) 0 then true else defective k
  end.

Lemma defective_false : forall n, defective n = false <-> forall k, (k < n)%nat -> dot (orth k (a k)) (orth k (a k)) <> 0.
Proof.
  induction n; cbn [defective].
  - split; [intros; lia|auto].
  - destruct (Req_EM_T (dot (orth n (a n)) (orth n (a n))) 0) as [E|E].
    + split; [discriminate|]. intros H. exfalso. apply (H n); auto.
    + rewrite IHn. split; intros H k Hk; [|auto]. destruct (Nat.eq_dec k n) as [->|]; auto. apply H. lia.
Qed.


Lemma sol_zero : forall k, (forall j i, (j < k)%nat -> (i < m)%nat -> a j i = 0) -> forall i, (i < m)%nat -> sol k i = 0.
Proof.
  intros k H i Hi. destruct (sol_span k) as (z & Hz). rewrite Hz by auto. apply rs_zero. intros j Hj. rewrite H by auto. ring.
Qed.
End Solve.

(** All entries vanish. *)
Definition all_zero (m n : nat) (A : nat -> nat -> R) : bool :=
  if Req_EM_T (rsum m (fun i => rsum n (fun j => A i j * A i j))) 0 then true else false.

Lemma all_zero_spec : forall m n A, all_zero m n A = true <-> forall i j, (i < m)%nat -> (j < n)%nat -> A i j = 0.
Proof.
  intros m n A. unfold all_zero. destruct (Req_EM_T _ _) as [E|E]; split; intros H; auto; try discriminate.
  - intros i j Hi Hj.
    assert (Q := rs_pos m _ (fun i _ => rs_pos0 n (fun j => A i j * A i j) (fun j _ => Rle_0_sqr (A i j))) E i Hi).
    assert (P := rs_pos n _ (fun j _ => Rle_0_sqr (A i j)) Q j Hj). unfold Rsqr in P. nra.
  - exfalso. apply E. apply rs_zero. intros i Hi. apply rs_zero. intros j Hj. rewrite H by auto. ring.
Qed.

(** The solver. *)
Definition gelsR : gels R := fun mz nz mem lda b ldb lwork =>
  let m := Z.to_nat mz in let n := Z.to_nat nz in
  let A := fortran lda mem in
  let chk := gels_args_ok mz nz lda ldb lwork in
  if (chk =? 0)%Z then
    let a := fun j i => A i j in
    mkGels (if all_zero m n A then 0%Z else if defective m a n then 1%Z else 0%Z) (fun k => nth k mem 0) (sol m a (fun j => nth j b 0) n)
  else mkGels chk (fun k => nth k mem 0) (fun i => nth i b 0).

Theorem gelsR_spec : forall m n, gels_spec gelsR m n.
Proof.
  intros m n mem lda b ldb lwork. unfold gelsR. rewrite !Nat2Z.id. set (A := fortran lda mem).
  cbv zeta. set (a := fun j i => A i j). destruct (Z.eqb_spec (gels_args_ok (Z.of_nat m) (Z.of_nat n) lda ldb lwork) 0) as [E|E].
  - split; [contradiction|]. intros _ Hnm Hn. cbn [g_info g_rhs].
    assert (AZ := all_zero_spec m n A). split; [|split].
    + intros F. assert (NZ := indep_rest m a n F). assert (D := proj2 (defective_false m a n) NZ).
      split; [destruct (all_zero m n A); rewrite ?D; reflexivity|]. split.
      * intros j Hj. exact (sol_correct m a (fun j => nth j b 0) n NZ j Hj).
      * exact (sol_span m a _ n).
    + intros Zr. rewrite (proj2 AZ Zr). split; auto. intros i Hi. apply (sol_zero m a (fun j => nth j b 0) n); auto. intros j k Hj Hk. exact (Zr k j Hk Hj).
    + intros NF NZr. destruct (all_zero m n A) eqn:EZ; [exfalso; apply NZr, AZ; reflexivity|].
      destruct (defective m a n) eqn:ED; [lia|]. exfalso. apply NF. intros z Hz. exact (rest_indep m a n (proj1 (defective_false m a n) ED) z Hz).
  - split; [|contradiction]. intros _. cbn. auto.
Qed.
