(** Proofs about the linear solver. *)
From Coq Require Import ZArith List Bool Reals Lra Lia.
From Verif Require Import Base Num NumR M_LinearSolve S_LinAlg.
Import ListNotations.
Open Scope Z_scope.

(** ** Copy loops *)
Lemma zseq_S : forall n, zseq (S n) = zseq n ++ [Z.of_nat n].
Proof. intros. unfold zseq. rewrite seq_S, map_app. reflexivity. Qed.

Lemma pairs_flat : forall n m,
  map (fun ij => fst ij * Z.of_nat m + snd ij) (pairs n m) = zseq (n * m).
Proof.
  induction n as [|n IH]; intros m; [reflexivity|].
  unfold pairs. rewrite zseq_S, flat_map_app, map_app. fold (pairs n m). rewrite IH.
  simpl flat_map. rewrite app_nil_r, map_map. simpl.
  unfold zseq. rewrite map_map. rewrite Nat.add_comm, seq_app, map_app. f_equal.
  assert (H : forall l k q, seq (k + l) q = map (fun j => (k + j)%nat) (seq l q)).
  { intros l k q. revert l. induction q as [|q IHq]; intros; simpl; auto. f_equal.
    rewrite <- (IHq (S l)). f_equal. lia. }
  assert (H0 := H 0%nat (n * m)%nat m). rewrite Nat.add_0_r in H0. cbn [plus] in *.
  rewrite H0, map_map. apply map_ext. intros; lia.
Qed.

Lemma foldM_map : forall {A B S} (h : A -> B) (f : S -> B -> exec S) l s,
  foldM f (map h l) s = foldM (fun s x => f s (h x)) l s.
Proof. induction l; simpl; intros; auto. destruct (f s (h a)); simpl; auto. Qed.

Lemma upd_app_r : forall {A} (l1 l2 : list A) n a, (length l1 <= n)%nat ->
  upd (l1 ++ l2) n a = l1 ++ upd l2 (n - length l1) a.
Proof.
  induction l1; intros; simpl; [rewrite Nat.sub_0_r; auto|].
  destruct n; simpl in *; [lia|]. f_equal. apply IHl1. lia.
Qed.

Lemma vset_ok : forall {A} (l : list A) i a, 0 <= i < Z.of_nat (length l) ->
  vset l i a = Ret (upd l (Z.to_nat i) a).
Proof.
  intros. unfold vset. destruct ((0 <=? i) && (i <? Z.of_nat (length l))) eqn:E; auto.
  apply andb_false_iff in E. rewrite Z.leb_gt, Z.ltb_ge in E. lia.
Qed.

Lemma firstn_S_nth : forall {A} (l : list A) n d, (n < length l)%nat ->
  firstn (S n) l = firstn n l ++ [nth n l d].
Proof. induction l; intros n d H; simpl in *; [lia|]. destruct n; simpl; auto. f_equal. apply IHl. lia. Qed.

Lemma skipn_S_nth : forall {A} (l : list A) n d, (n < length l)%nat ->
  skipn n l = nth n l d :: skipn (S n) l.
Proof.
  induction l; intros n d H; simpl in *; [lia|]. destruct n; auto.
  apply (IHl n d). lia.
Qed.

Lemma copy2_loop : forall {A} (a l1 l2 : list A) n, (n <= length a)%nat ->
  (n <= length l1)%nat -> (n <= length l2)%nat ->
  foldM (fun (mm : list A * list A) k =>
      let! v := vget a k in
      let! m1 := vset (fst mm) k v in
      let! m2 := vset (snd mm) k v in
      Ret (m1, m2)) (zseq n) (l1, l2) =
  Ret (firstn n a ++ skipn n l1, firstn n a ++ skipn n l2).
Proof.
  intros A a l1 l2. induction n as [|n IH]; intros Ha H1 H2; [reflexivity|].
  rewrite zseq_S, foldM_app, IH by lia. cbn [foldM bind fst snd].
  destruct a as [|d a'] eqn:Ea; [simpl in Ha; lia|]. rewrite <- Ea in *. clear Ea.
  rewrite (vget_nth a (Z.of_nat n) d) by lia. cbn [foldM bind fst snd].
  assert (L : length (firstn n a) = n) by (rewrite firstn_length; lia).
  rewrite vset_ok by (rewrite app_length, skipn_length, L; lia). cbn [foldM bind fst snd].
  rewrite vset_ok by (rewrite app_length, skipn_length, L; lia). cbn [foldM bind fst snd].
  rewrite Nat2Z.id, !upd_app_r by lia. rewrite L, Nat.sub_diag.
  rewrite (skipn_S_nth l1 n d), (skipn_S_nth l2 n d) by lia.
  rewrite (firstn_S_nth a n d) by lia. rewrite <- !app_assoc. reflexivity.
Qed.

Section Generic.
Context {T : Type} {N : Num T}.

(** Shape of a solver for [nrow] x [ncol]: what every sequence of calls keeps. *)
Definition ls_wf (nrow ncol : nat) (s : ls (T:=T)) : Prop :=
  ls_nrow s = nrow /\ ls_ncol s = ncol /\
  length (ls_mat s) = (nrow * ncol)%nat /\ length (ls_matOri s) = (nrow * ncol)%nat /\
  length (ls_b s) = nrow /\ length (ls_x s) = Nat.max nrow ncol /\
  ls_lwork s = ls_lwork (ls_new (T:=T) nrow ncol).

Lemma ls_new_wf : forall nrow ncol, ls_wf nrow ncol (ls_new nrow ncol).
Proof.
  intros. unfold ls_wf, ls_new. simpl. rewrite !repeat_length.
  destruct (ncol <? nrow)%nat eqn:E; [apply Nat.ltb_lt in E|apply Nat.ltb_ge in E];
    repeat split; auto; lia.
Qed.

Lemma ls_setMatrix_ok : forall nrow ncol s a, ls_wf nrow ncol s -> length a = (nrow * ncol)%nat ->
  ls_setMatrix s a = Ret (mkLs nrow ncol a a (ls_b s) (ls_x s) (ls_lwork s)).
Proof.
  intros nrow ncol s a (H1 & H2 & H3 & H4 & H5 & H6 & H7) Ha.
  unfold ls_setMatrix. rewrite H1, H2.
  rewrite <- (foldM_map (fun ij => fst ij * Z.of_nat ncol + snd ij)
    (fun (mm : list T * list T) k =>
      let! v := vget a k in
      let! m1 := vset (fst mm) k v in
      let! m2 := vset (snd mm) k v in
      Ret (m1, m2))).
  rewrite pairs_flat, copy2_loop by lia. simpl.
  rewrite !skipn_all2 by lia. rewrite app_nil_r, <- Ha, firstn_all. reflexivity.
Qed.

Lemma ls_setRHS_ok : forall nrow ncol s b, ls_wf nrow ncol s -> length b = nrow ->
  ls_setRHS s b = Ret (mkLs nrow ncol (ls_mat s) (ls_matOri s) b
                        (b ++ skipn nrow (ls_x s)) (ls_lwork s)).
Proof.
  intros nrow ncol s b (H1 & H2 & H3 & H4 & H5 & H6 & H7) Hb.
  unfold ls_setRHS. rewrite H1, H2, copy2_loop by lia. simpl.
  rewrite (skipn_all2 (ls_b s)) by lia. rewrite app_nil_r, <- Hb, firstn_all. reflexivity.
Qed.

Lemma ls_solve_ok : forall g (s : ls (T:=T)), ls_mat s <> [] -> ls_x s <> [] ->
  let r := g (Z.of_nat (ls_nrow s)) (Z.of_nat (ls_ncol s)) (ls_mat s) (Z.of_nat (ls_nrow s))
               (ls_x s) (Z.of_nat (length (ls_b s))) (ls_lwork s) in
  ls_solve g s = Ret (g_info r,
         mkLs (ls_nrow s) (ls_ncol s) (map (g_mat r) (seq 0 (length (ls_mat s)))) (ls_matOri s)
           (ls_b s) (map (g_rhs r) (seq 0 (length (ls_x s)))) (ls_lwork s)).
Proof.
  intros g s H1 H2. unfold ls_solve. destruct (ls_mat s); [congruence|].
  destruct (ls_x s); [congruence|]. reflexivity.
Qed.

Lemma ls_run_square : forall n s a b g, ls_wf n n s -> length a = (n * n)%nat -> length b = n ->
  (0 < n)%nat ->
  let r := g (Z.of_nat n) (Z.of_nat n) a (Z.of_nat n) b (Z.of_nat n) (Z.max 1 (Z.of_nat n + Z.max (Z.of_nat n) 1 * 1)) in
  ls_run g s a b = Ret (g_info r,
    mkLs n n (map (g_mat r) (seq 0 (n * n))) a b (map (g_rhs r) (seq 0 n))
      (Z.max 1 (Z.of_nat n + Z.max (Z.of_nat n) 1 * 1))).
Proof.
  intros n s a b g W Ha Hb Hn r. unfold ls_run. assert (W' := W).
  rewrite (ls_setMatrix_ok n n s a) by auto. simpl.
  destruct W as (H1 & H2 & H3 & H4 & H5 & H6 & H7).
  rewrite (ls_setRHS_ok n n) by (auto; unfold ls_wf; simpl; auto 10). simpl.
  assert (SK : skipn n (ls_x s) = []) by (apply skipn_all2; lia).
  rewrite SK, app_nil_r.
  rewrite ls_solve_ok by (intros E; simpl in E; subst; simpl in *; nia).
  cbn [ls_nrow ls_ncol ls_mat ls_matOri ls_b ls_x ls_lwork].
  assert (LW : ls_lwork s = Z.max 1 (Z.of_nat n + Z.max (Z.of_nat n) 1 * 1)).
  { rewrite H7. unfold ls_new. simpl. rewrite Nat.ltb_irrefl. reflexivity. }
  rewrite LW, Ha, Hb. reflexivity.
Qed.

Lemma ls_run_wf : forall n s a b g info s', ls_wf n n s -> length a = (n * n)%nat -> length b = n ->
  (0 < n)%nat -> ls_run g s a b = Ret (info, s') -> ls_wf n n s'.
Proof.
  intros n s a b g info s' W Ha Hb Hn H. rewrite (ls_run_square n) in H by auto.
  injection H as _ <-. unfold ls_wf. simpl. rewrite !map_length, !seq_length.
  rewrite Nat.max_id. repeat split; auto. unfold ls_new. simpl. rewrite Nat.ltb_irrefl. reflexivity.
Qed.

(** History independence, any arithmetic, any dgels. *)
Theorem ls_run_history : forall n g s s' a b, ls_wf n n s -> ls_wf n n s' ->
  length a = (n * n)%nat -> length b = n -> (0 < n)%nat ->
  ls_run g s a b = ls_run g s' a b /\ is_ret (ls_run g s a b).
Proof.
  intros n g s s' a b W W' Ha Hb Hn.
  rewrite (ls_run_square n s), (ls_run_square n s') by auto. split; auto. eexists; reflexivity.
Qed.

(** Under-determined systems: dgels is called with ldb = nrow. *)
Lemma ls_run_under : forall nrow ncol s a b g, ls_wf nrow ncol s -> (0 < nrow < ncol)%nat ->
  length a = (nrow * ncol)%nat -> length b = nrow ->
  exists x, length x = ncol /\
  let r := g (Z.of_nat nrow) (Z.of_nat ncol) a (Z.of_nat nrow) x (Z.of_nat nrow) (ls_lwork s) in
  exists s', ls_run g s a b = Ret (g_info r, s') /\ firstn nrow x = b /\
    ls_x s' = map (g_rhs r) (seq 0 ncol).
Proof.
  intros nrow ncol s a b g W Hn Ha Hb. unfold ls_run. assert (W' := W).
  rewrite (ls_setMatrix_ok nrow ncol s a) by auto. simpl.
  destruct W as (H1 & H2 & H3 & H4 & H5 & H6 & H7).
  rewrite (ls_setRHS_ok nrow ncol) by (auto; unfold ls_wf; simpl; auto 10). simpl.
  exists (b ++ skipn nrow (ls_x s)).
  assert (L : length (b ++ skipn nrow (ls_x s)) = ncol)
    by (rewrite app_length, skipn_length; lia).
  split; [exact L|].
  rewrite ls_solve_ok;
    [|intros E; simpl in E; subst; simpl in *; nia
     |intros E; cbn [ls_x] in E; rewrite E in L; simpl in L; lia].
  cbn [ls_nrow ls_ncol ls_mat ls_matOri ls_b ls_x ls_lwork].
  rewrite Hb. eexists. split; [reflexivity|]. split.
  - rewrite firstn_app, <- Hb, firstn_all, Nat.sub_diag, firstn_O, app_nil_r. reflexivity.
  - simpl ls_x. rewrite L. reflexivity.
Qed.

(** Over-determined systems. *)
Lemma ls_run_over : forall nrow ncol s a b g, ls_wf nrow ncol s -> (0 < ncol < nrow)%nat ->
  length a = (nrow * ncol)%nat -> length b = nrow ->
  let r := g (Z.of_nat nrow) (Z.of_nat ncol) a (Z.of_nat nrow) b (Z.of_nat nrow) (ls_lwork s) in
  exists s', ls_run g s a b = Ret (g_info r, s') /\ ls_x s' = map (g_rhs r) (seq 0 nrow).
Proof.
  intros nrow ncol s a b g W Hn Ha Hb. unfold ls_run. assert (W' := W).
  rewrite (ls_setMatrix_ok nrow ncol s a) by auto. simpl.
  destruct W as (H1 & H2 & H3 & H4 & H5 & H6 & H7).
  rewrite (ls_setRHS_ok nrow ncol) by (auto; unfold ls_wf; simpl; auto 10). simpl.
  assert (SK : skipn nrow (ls_x s) = []) by (apply skipn_all2; lia).
  rewrite SK, app_nil_r.
  rewrite ls_solve_ok by (intros E; simpl in E; subst; simpl in *; nia).
  cbn [ls_nrow ls_ncol ls_mat ls_matOri ls_b ls_x ls_lwork].
  rewrite Hb. eexists. split; [reflexivity|]. reflexivity.
Qed.
End Generic.

(** ** Over the reals *)
Open Scope R_scope.

Lemma rsum_ext : forall n f g, (forall i, (i < n)%nat -> f i = g i) -> rsum n f = rsum n g.
Proof. induction n; simpl; intros f g H; auto. rewrite (IHn f g), H by auto with arith. reflexivity. Qed.

Lemma foldM_zseq_sum : forall n (f : nat -> R) (m : R -> Z -> exec R) acc,
  (forall s i, (i < n)%nat -> m s (Z.of_nat i) = Ret (s + f i)) ->
  foldM m (zseq n) acc = Ret (acc + rsum n f).
Proof.
  induction n as [|n IH]; intros f m acc H; cbn [rsum].
  - unfold zseq. simpl. rewrite Rplus_0_r. reflexivity.
  - rewrite zseq_S, foldM_app, (IH f) by auto. cbn [foldM bind]. rewrite H by lia. cbn [bind].
    rewrite Rplus_assoc. reflexivity.
Qed.

Lemma ls_residual_R : forall n m s, ls_wf n m s -> (m <= length (ls_x s))%nat ->
  ls_getResidual s = Ret (rsum n (fun i =>
    Rabs (mat_vec m (ls_matOri s) (fun j => nth j (ls_x s) 0) i - nth i (ls_b s) 0))).
Proof.
  intros n m s (H1 & H2 & H3 & H4 & H5 & H6 & H7) Hx. unfold ls_getResidual. rewrite H1, H2.
  rewrite (foldM_zseq_sum n (fun i =>
    Rabs (mat_vec m (ls_matOri s) (fun j => nth j (ls_x s) 0) i - nth i (ls_b s) 0))).
  - cbn. f_equal. unfold n0. cbn. lra.
  - intros r i Hi.
    rewrite (foldM_zseq_sum m (fun j => nth (i * m + j) (ls_matOri s) 0 * nth j (ls_x s) 0)).
    + simpl. rewrite (vget_nth (ls_b s) _ 0) by lia. simpl. rewrite Nat2Z.id.
      unfold mat_vec, n0. cbn. rewrite Rplus_0_l. reflexivity.
    + intros r' j Hj. rewrite (vget_nth (ls_matOri s) _ 0) by nia. simpl.
      rewrite (vget_nth (ls_x s) _ 0) by lia. simpl.
      replace (Z.to_nat (Z.of_nat i * Z.of_nat m + Z.of_nat j)) with (i * m + j)%nat by lia.
      rewrite Nat2Z.id. reflexivity.
Qed.

Lemma rsum_nonneg : forall n f, (forall i, (i < n)%nat -> 0 <= f i) -> 0 <= rsum n f.
Proof. induction n; simpl; intros f H; [lra|]. assert (H1 := IHn f). assert (H2 := H n).
  apply Rplus_le_le_0_compat; auto with arith. Qed.

Lemma rsum_zero : forall n f, (forall i, (i < n)%nat -> 0 <= f i) ->
  (rsum n f = 0 <-> forall i, (i < n)%nat -> f i = 0).
Proof.
  induction n; simpl; intros f H; split; intros H1; auto.
  - intros i Hi. lia.
  - assert (H2 : 0 <= rsum n f) by (apply rsum_nonneg; auto with arith).
    assert (H3 : 0 <= f n) by auto with arith.
    intros i Hi. destruct (Nat.eq_dec i n) as [->|Hne]; [lra|].
    apply (IHn f); auto with arith; try lra. lia.
  - rewrite (proj2 (IHn f (fun i Hi => H i (Nat.lt_lt_succ_r _ _ Hi)))) by auto with arith.
    rewrite H1 by lia. lra.
Qed.

Lemma gels_args_square : forall n, (0 < n)%nat ->
  gels_args_ok (Z.of_nat n) (Z.of_nat n) (Z.of_nat n) (Z.of_nat n)
    (Z.max 1 (Z.of_nat n + Z.max (Z.of_nat n) 1 * 1)) = 0%Z.
Proof.
  intros n Hn. unfold gels_args_ok.
  destruct (Z.of_nat n <? Z.max 1 (Z.of_nat n))%Z eqn:E1; [apply Z.ltb_lt in E1; lia|].
  destruct (Z.of_nat n <? Z.max 1 (Z.max (Z.of_nat n) (Z.of_nat n)))%Z eqn:E2; [apply Z.ltb_lt in E2; lia|].
  match goal with |- context [if ?c then _ else _] => destruct c eqn:E3 end; auto.
  apply Z.ltb_lt in E3. lia.
Qed.

Lemma seq_map_nth : forall (f : nat -> R) n i, (i < n)%nat -> nth i (map f (seq 0 n)) 0 = f i.
Proof.
  intros. rewrite (nth_indep _ 0 (f 0%nat)) by (rewrite map_length, seq_length; auto).
  rewrite map_nth, seq_nth by auto. reflexivity.
Qed.

(** Main theorem for square systems. *)
Theorem ls_square_correct : forall g n, gels_spec g n n -> (0 < n)%nat ->
  forall s a b, ls_wf n n s -> length a = (n * n)%nat -> length b = n ->
  exists info s', ls_run g s a b = Ret (info, s') /\ ls_wf n n s' /\
    (forall x, x = (fun j => nth j (ls_getSolution s') 0) ->
    (info = 0%Z -> (exists k, (k < n * n)%nat /\ nth k a 0 <> 0) ->
       forall i, (i < n)%nat -> mat_vec n a x i = nth i b 0) /\
    (rows_independent n a -> info = 0%Z) /\
    (~ rows_independent n a -> (exists k, (k < n * n)%nat /\ nth k a 0 <> 0) -> (0 < info)%Z) /\
    ((forall k, (k < n * n)%nat -> nth k a 0 = 0) ->
       info = 0%Z /\ forall i, (i < n)%nat -> x i = 0) /\
    exists res, ls_getResidual s' = Ret res /\
      (res = 0 <-> forall i, (i < n)%nat -> mat_vec n a x i = nth i b 0)).
Proof.
  intros g n Hg Hn s a b W Ha Hb.
  assert (R := ls_run_square n s a b g W Ha Hb Hn). cbv zeta in R.
  set (r := g (Z.of_nat n) (Z.of_nat n) a (Z.of_nat n) b (Z.of_nat n)
    (Z.max 1 (Z.of_nat n + Z.max (Z.of_nat n) 1 * 1))) in *.
  eexists _, _. split; [exact R|]. assert (W' := ls_run_wf n s a b g _ _ W Ha Hb Hn R).
  split; [exact W'|].
  intros x Hx.
  assert (X : forall j, (j < n)%nat -> x j = g_rhs r j).
  { intros j Hj. rewrite Hx. unfold ls_getSolution. simpl. apply seq_map_nth. auto. }
  destruct (Hg a (Z.of_nat n) b (Z.of_nat n) (Z.max 1 (Z.of_nat n + Z.max (Z.of_nat n) 1 * 1))) as [_ H].
  fold r in H.
  specialize (H (gels_args_square n Hn) (Nat.le_refl n) Hn). cbv zeta in H.
  destruct H as (Hfull & Hzero & Hsing).
  assert (FA : forall i j, fortran (Z.of_nat n) a i j = nth (j * n + i) a 0).
  { intros. unfold fortran. rewrite Nat2Z.id. f_equal. lia. }
  assert (EF : (forall z, (forall i, (i < n)%nat -> rsum n (fun j => fortran (Z.of_nat n) a i j * z j) = 0) ->
              forall j, (j < n)%nat -> z j = 0) <-> rows_independent n a).
  { assert (E : forall z i, rsum n (fun j => fortran (Z.of_nat n) a i j * z j) =
                             rsum n (fun j => z j * nth (j * n + i) a 0)).
    { intros z i. apply rsum_ext. intros j Hj. rewrite FA. ring. }
    unfold rows_independent. split; intros H z Hz; apply H; intros i Hi.
    - rewrite E. auto.
    - rewrite <- E. auto. }
  rewrite EF in Hfull, Hsing.
  assert (EZ : (forall i j, (i < n)%nat -> (j < n)%nat -> fortran (Z.of_nat n) a i j = 0) <->
               (forall k, (k < n * n)%nat -> nth k a 0 = 0)).
  { split; intros H.
    - intros k Hk. specialize (H (k mod n) (k / n))%nat.
      rewrite FA in H. rewrite Nat.mul_comm in H. rewrite <- Nat.div_mod in H by lia.
      apply H; [apply Nat.mod_upper_bound; lia|apply Nat.div_lt_upper_bound; lia].
    - intros i j Hi Hj. rewrite FA. apply H. nia. }
  rewrite EZ in Hzero, Hsing.
  assert (SOL : rows_independent n a -> forall i, (i < n)%nat -> mat_vec n a x i = nth i b 0).
  { intros RI i Hi. destruct (Hfull RI) as (_ & HH & _). rewrite <- (HH i Hi).
    unfold mat_vec. apply rsum_ext. intros j Hj. rewrite FA, X by auto. reflexivity. }
  split; [|split; [|split; [|split]]].
  - intros I0 (k & Hk & Hne) i Hi.
    destruct (Classical_Prop.classic (rows_independent n a)) as [RI|NRI]; [apply SOL; auto|].
    assert (0 < g_info r)%Z; [|lia]. apply Hsing; auto.
  - intros RI. apply Hfull. exact RI.
  - intros NRI (k & Hk & Hne). apply Hsing; auto.
  - intros Z0. destruct (Hzero Z0) as [Z1 Z2]. split; auto. intros i Hi. rewrite X by auto. auto.
  - rewrite (ls_residual_R n n) by (auto; simpl; rewrite map_length, seq_length; lia).
    eexists. split; [reflexivity|]. rewrite rsum_zero by (intros; apply Rabs_pos).
    simpl ls_matOri. simpl ls_b. rewrite Hx. unfold ls_getSolution. simpl ls_x.
    split; intros H i Hi; specialize (H i Hi).
    + destruct (Req_dec (mat_vec n a (fun j => nth j (map (g_rhs r) (seq 0 n)) 0) i - nth i b 0) 0) as [E|E]; [lra|].
      apply Rabs_no_R0 in E. contradiction.
    + rewrite H, Rminus_diag_eq by auto. apply Rabs_R0.
Qed.

(** ** Instances of the dgels specification, for 2 x 2 and 2 x 1 *)
Definition gels2 : gels R := fun m n mem lda b ldb lwork =>
  let c := gels_args_ok m n lda ldb lwork in
  if negb (c =? 0)%Z then mkGels c (fun i => nth i mem 0) (fun i => nth i b 0)
  else
    let A := fortran lda mem in
    if (n =? 1)%Z then
      let d := A 0%nat 0%nat * A 0%nat 0%nat + A 1%nat 0%nat * A 1%nat 0%nat in
      if Req_EM_T d 0 then mkGels 0 (fun i => nth i mem 0) (fun _ => 0)
      else mkGels 0 (fun i => nth i mem 0) (fun i => A i 0%nat * nth 0 b 0 / d)
    else
      let d := A 0%nat 0%nat * A 1%nat 1%nat - A 1%nat 0%nat * A 0%nat 1%nat in
      if Req_EM_T d 0 then
        if Req_EM_T (Rabs (A 0%nat 0%nat) + Rabs (A 0%nat 1%nat) + Rabs (A 1%nat 0%nat) + Rabs (A 1%nat 1%nat)) 0
        then mkGels 0 (fun i => nth i mem 0) (fun _ => 0)
        else mkGels 1 (fun i => nth i mem 0) (fun i => nth i b 0)
      else mkGels 0 (fun i => nth i mem 0) (fun i =>
        match i with
        | O => (nth 0 b 0 * A 1%nat 1%nat - nth 1 b 0 * A 1%nat 0%nat) / d
        | _ => (nth 1 b 0 * A 0%nat 0%nat - nth 0 b 0 * A 0%nat 1%nat) / d
        end).

Ltac lt2 := match goal with
  | H : (?i < 2)%nat |- _ => destruct i as [|[|i]]; [| |lia]
  | H : (?i < 1)%nat |- _ => destruct i as [|i]; [|lia] end.

Lemma sum_sq_zero : forall x y, x * x + y * y = 0 -> x = 0 /\ y = 0.
Proof. intros. split; nra. Qed.

Theorem gels2_spec22 : gels_spec gels2 2 2.
Proof.
  intros mem lda b ldb lwork r A full zero. unfold r, gels2.
  set (c := gels_args_ok (Z.of_nat 2) (Z.of_nat 2) lda ldb lwork).
  change (Z.of_nat 2 =? 1)%Z with false. fold A.
  split.
  - intros Hc. apply Z.eqb_neq in Hc. rewrite Hc. simpl. auto.
  - intros Hc _ _. rewrite Hc. cbn [Z.eqb negb].
    set (d := A 0%nat 0%nat * A 1%nat 1%nat - A 1%nat 0%nat * A 0%nat 1%nat).
    assert (FD : full -> d <> 0).
    { intros HF Hd.
      assert (H1 : A 0%nat 1%nat = 0 /\ A 1%nat 1%nat = 0).
      { split.
        - specialize (HF (fun j => match j with O => A 0%nat 1%nat | _ => - A 0%nat 0%nat end)).
          apply (fun H => HF H 0%nat ltac:(lia)). intros i Hi. simpl.
          lt2; unfold d in Hd; lra.
        - specialize (HF (fun j => match j with O => A 1%nat 1%nat | _ => - A 1%nat 0%nat end)).
          apply (fun H => HF H 0%nat ltac:(lia)). intros i Hi. simpl.
          lt2; unfold d in Hd; lra. }
      specialize (HF (fun j => match j with O => 0 | _ => 1 end)).
      assert (1 = 0); [|lra]. apply (fun H => HF H 1%nat ltac:(lia)). intros i Hi. simpl.
      destruct H1. lt2; lra. }
    assert (DF : d <> 0 -> full).
    { intros Hd z Hz. assert (H0 := Hz 0%nat ltac:(lia)). assert (H1 := Hz 1%nat ltac:(lia)).
      simpl in H0, H1.
      assert (E0 : d * z 0%nat = 0).
      { unfold d. transitivity (A 1%nat 1%nat * (0 + A 0%nat 0%nat * z 0%nat + A 0%nat 1%nat * z 1%nat)
          - A 0%nat 1%nat * (0 + A 1%nat 0%nat * z 0%nat + A 1%nat 1%nat * z 1%nat)); [ring|].
        rewrite H0, H1. ring. }
      assert (E1 : d * z 1%nat = 0).
      { unfold d. transitivity (A 0%nat 0%nat * (0 + A 1%nat 0%nat * z 0%nat + A 1%nat 1%nat * z 1%nat)
          - A 1%nat 0%nat * (0 + A 0%nat 0%nat * z 0%nat + A 0%nat 1%nat * z 1%nat)); [ring|].
        rewrite H0, H1. ring. }
      intros j Hj. apply Rmult_integral in E0. apply Rmult_integral in E1.
      lt2; tauto. }
    assert (ZZ : Rabs (A 0%nat 0%nat) + Rabs (A 0%nat 1%nat) + Rabs (A 1%nat 0%nat) + Rabs (A 1%nat 1%nat) = 0 <-> zero).
    { assert (P1 := Rabs_pos (A 0%nat 0%nat)). assert (P2 := Rabs_pos (A 0%nat 1%nat)).
      assert (P3 := Rabs_pos (A 1%nat 0%nat)). assert (P4 := Rabs_pos (A 1%nat 1%nat)). split; intros H.
      - intros i j Hi Hj.
        assert (Q : forall x, Rabs x = 0 -> x = 0).
        { intros x Hx. destruct (Req_dec x 0); auto. apply Rabs_no_R0 in H0. tauto. }
        apply Q. lt2; lt2; lra.
      - rewrite !H by lia. rewrite Rabs_R0. lra. }
    destruct (Req_EM_T d 0) as [Hd|Hd].
    + split; [|split].
      * intros HF. exfalso. exact (FD HF Hd).
      * intros HZ. apply ZZ in HZ. destruct (Req_EM_T _ 0) as [_|HH]; [|tauto]. simpl. auto.
      * intros _ HZ. destruct (Req_EM_T _ 0) as [HH|_]; [apply ZZ in HH; tauto|]. simpl. lia.
    + split; [|split].
      * intros _. cbn [g_info g_rhs]. split; auto. split.
        -- intros j Hj. simpl. unfold d in *. lt2; field; exact Hd.
        -- set (x0 := (nth 0 b 0 * A 1%nat 1%nat - nth 1 b 0 * A 1%nat 0%nat) / d).
           set (x1 := (nth 1 b 0 * A 0%nat 0%nat - nth 0 b 0 * A 0%nat 1%nat) / d).
           exists (fun j => match j with O => (A 1%nat 1%nat * x0 - A 0%nat 1%nat * x1) / d
                             | _ => (A 0%nat 0%nat * x1 - A 1%nat 0%nat * x0) / d end).
           intros i Hi. simpl. lt2; unfold d in *; field; exact Hd.
      * intros HZ. exfalso. apply Hd. unfold d. rewrite !HZ by lia. ring.
      * intros HF. exfalso. apply HF. apply DF. exact Hd.
Qed.

Theorem gels2_spec21 : gels_spec gels2 2 1.
Proof.
  intros mem lda b ldb lwork r A full zero. unfold r, gels2.
  set (c := gels_args_ok (Z.of_nat 2) (Z.of_nat 1) lda ldb lwork).
  change (Z.of_nat 1 =? 1)%Z with true. fold A.
  split.
  - intros Hc. apply Z.eqb_neq in Hc. rewrite Hc. simpl. auto.
  - intros Hc _ _. rewrite Hc. cbn [Z.eqb negb].
    destruct (Req_EM_T (A 0%nat 0%nat * A 0%nat 0%nat + A 1%nat 0%nat * A 1%nat 0%nat) 0) as [Hd|Hd].
    + apply sum_sq_zero in Hd. destruct Hd as [H0 H1].
      assert (HZ : zero) by (intros i j Hi Hj; lt2; lt2; auto).
      split; [|split]; intros; try contradiction; simpl; auto.
      exfalso. assert (1 = 0); [|lra]. apply (H (fun _ => 1)) with (j := 0%nat); [|lia].
      intros i Hi. simpl. lt2; lra.
    + split; [|split].
      * intros _. cbn [g_info g_rhs]. split; auto. split.
        -- intros j Hj. simpl. lt2. field. exact Hd.
        -- exists (fun _ => nth 0 b 0 / (A 0%nat 0%nat * A 0%nat 0%nat + A 1%nat 0%nat * A 1%nat 0%nat)).
           intros i Hi. simpl. lt2; field; exact Hd.
      * intros HZ. exfalso. apply Hd. rewrite !HZ by lia. ring.
      * intros HF. exfalso. apply HF. intros z Hz j Hj. assert (H0 := Hz 0%nat ltac:(lia)).
        assert (H1 := Hz 1%nat ltac:(lia)). simpl in H0, H1. lt2.
        destruct (Req_dec (z 0%nat) 0) as [|Hz0]; auto. exfalso. apply Hd.
        rewrite Rplus_0_l in H0, H1. apply Rmult_integral in H0. apply Rmult_integral in H1.
        destruct H0 as [H0|]; [|tauto]. destruct H1 as [H1|]; [|tauto]. rewrite H0, H1. ring.
Qed.

Lemma ls_reach_wf : forall {T} {N : Num T} n g calls (s : ls (T:=T)),
  (0 < n)%nat ->
  (forall ab, In ab calls -> length (fst ab) = (n * n)%nat /\ length (snd ab) = n) ->
  foldM (fun s ab => let! r := ls_run g s (fst ab) (snd ab) in Ret (snd r)) calls (ls_new n n) = Ret s ->
  ls_wf n n s.
Proof.
  intros T N n g calls s Hn HC. apply foldM_inv.
  - apply ls_new_wf.
  - intros s0 ab s1 W Hab H. apply bind_ret_inv in H. destruct H as ([info s'] & H & E).
    injection E as <-. simpl. destruct (HC ab Hab).
    exact (ls_run_wf n s0 _ _ g info s' W H0 H1 Hn H).
Qed.

Lemma firstn_map_seq : forall {A} (f : nat -> A) n m, (n <= m)%nat -> firstn n (map f (seq 0 m)) = map f (seq 0 n).
Proof.
  intros. replace m with (n + (m - n))%nat by lia. rewrite seq_app, map_app, firstn_app.
  rewrite map_length, seq_length, Nat.sub_diag. simpl. rewrite app_nil_r.
  rewrite <- (seq_length n 0) at 1. rewrite <- (map_length f (seq 0 n)) at 1. apply firstn_all.
Qed.

Lemma list_map_nth : forall (l : list R) n, length l = n -> map (fun i => nth i l 0) (seq 0 n) = l.
Proof.
  intros l n <-. apply (nth_ext _ _ 0 0).
  - rewrite map_length, seq_length. reflexivity.
  - intros i Hi. rewrite map_length, seq_length in Hi. apply seq_map_nth. auto.
Qed.

Lemma ls_under_rejected : forall g nrow ncol, gels_spec g nrow ncol ->
  (0 < nrow < ncol)%nat ->
  forall s a b, ls_wf nrow ncol s -> length a = (nrow * ncol)%nat -> length b = nrow ->
  exists s', ls_run g s a b = Ret ((-8)%Z, s') /\ firstn nrow (ls_getSolution s') = b.
Proof.
  intros g nrow ncol Hg Hn s a b W Ha Hb.
  destruct (ls_run_under nrow ncol s a b g W Hn Ha Hb) as (x & Hx & s' & R & Fx & Xs).
  destruct (Hg a (Z.of_nat nrow) x (Z.of_nat nrow) (ls_lwork s)) as [H _].
  assert (C : gels_args_ok (Z.of_nat nrow) (Z.of_nat ncol) (Z.of_nat nrow) (Z.of_nat nrow) (ls_lwork s) = (-8)%Z).
  { unfold gels_args_ok.
    destruct (Z.of_nat nrow <? Z.max 1 (Z.of_nat nrow))%Z eqn:E1; [apply Z.ltb_lt in E1; lia|].
    destruct (Z.of_nat nrow <? Z.max 1 (Z.max (Z.of_nat nrow) (Z.of_nat ncol)))%Z eqn:E2; auto.
    apply Z.ltb_ge in E2. lia. }
  rewrite C in H. destruct H as [H1 H2]; [lia|].
  exists s'. rewrite R, H1. split; auto. unfold ls_getSolution. rewrite Xs.
  rewrite firstn_map_seq by lia. rewrite <- Fx.
  rewrite <- (list_map_nth (firstn nrow x) nrow) by (rewrite firstn_length; lia).
  apply map_ext_in. intros i Hi. apply in_seq in Hi. rewrite H2.
  rewrite <- (firstn_skipn nrow x) at 1. rewrite app_nth1 by (rewrite firstn_length; lia). reflexivity.
Qed.

Lemma ls_over_wrong : forall g, gels_spec g 2 1 ->
  exists s', ls_run g (ls_new 2 1) [1; 1] [1; 3] = Ret (0%Z, s') /\
    nth 0 (ls_getSolution s') 0 = 1 / 2 /\
    (forall y, (1 * 2 - 1) ^ 2 + (1 * 2 - 3) ^ 2 <= (1 * y - 1) ^ 2 + (1 * y - 3) ^ 2).
Proof.
  intros g Hg.
  destruct (ls_run_over 2 1 (ls_new 2 1) [1; 1] [1; 3] g (ls_new_wf 2 1) ltac:(lia) eq_refl eq_refl)
    as (s' & Run & Xs).
  destruct (Hg [1; 1] (Z.of_nat 2) [1; 3] (Z.of_nat 2) (ls_lwork (ls_new (T:=R) 2 1))) as [_ H].
  specialize (H eq_refl ltac:(lia) ltac:(lia)). destruct H as [H _].
  set (r := g _ _ _ _ _ _ _) in *. clearbody r.
  destruct H as (H1 & H2 & z & H3).
  { intros z Hz j Hj. assert (H0 := Hz 0%nat ltac:(lia)). unfold fortran in H0. simpl in H0.
    destruct j; [lra|lia]. }
  exists s'. rewrite Run, H1. split; auto. split.
  - unfold ls_getSolution. rewrite Xs. simpl.
    assert (E := H2 0%nat ltac:(lia)). assert (E0 := H3 0%nat ltac:(lia)). assert (E1 := H3 1%nat ltac:(lia)).
    unfold fortran in E, E0, E1. simpl in E, E0, E1.
    change (Pos.to_nat 2) with 2%nat in *. simpl in E, E0, E1.
    lra.
  - intros y. assert (P := pow2_ge_0 (y - 2)).
    replace ((1 * y - 1) ^ 2 + (1 * y - 3) ^ 2) with (2 + 2 * (y - 2) ^ 2) by ring.
    replace ((1 * 2 - 1) ^ 2 + (1 * 2 - 3) ^ 2) with 2 by ring. lra.
Qed.
