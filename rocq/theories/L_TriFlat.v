(** SgTriangulate for points on a line, exact arithmetic. *)
From Coq Require Import ZArith List Bool Reals Lra Lia Permutation Psatz.
From Verif Require Import Base Num NumR S_Geometry M_Triangulate S_Sort L_Polygon L_Triangulate.
Import ListNotations.
Open Scope R_scope.

Lemma n0_R : (n0 : R) = 0.
Proof. reflexivity. Qed.

Lemma sq_pos : forall x : R, x <> 0 -> 0 < x ^ 2.
Proof. intros x H. nra. Qed.

Lemma addPoints_none : forall l (s : trR), tr_edges s = [] -> tr_tris s = [] -> tr_tris (fold_left (tr_addPoint (T := R)) l s) = [].
Proof.
  induction l as [|i l IH]; intros s E Tr; cbn [fold_left]; auto.
  apply IH; unfold tr_addPoint; rewrite E, Tr; reflexivity.
Qed.

Lemma no_tris_area : forall s : trR, tr_tris s = [] -> tr_hullArea s = 0.
Proof. intros s E. rewrite hullArea_sum, E. cbn. lra. Qed.

(** Less than three points kept. *)
Lemma few_points : forall srt junk n (points : list point),
  (length (remove_degenerate (T := R) (map (fun i => nth i points pt0) (srt (closer (gravity n points) points) (seq 0 n)))) < 3)%nat ->
  tr_hullArea (tr_new (T := R) srt junk n points) = 0.
Proof.
  intros srt junk n points H. unfold tr_new. change (@pt R) with point in *. set (kept := remove_degenerate _) in *.
  unfold tr_makeFirst. cbn [tr_size]. apply Nat.ltb_lt in H. rewrite H. cbn iota. apply no_tris_area. apply addPoints_none; reflexivity.
Qed.

(** Points on a line and at least one removed: the read behind the vector finds an old point. *)
Section Line.
Variable s : trR.
Hypothesis LEFT : (tr_size s < length (tr_buf s))%nat.
Hypothesis FLAT : forall p q r, In p (tr_buf s) -> In q (tr_buf s) -> In r (tr_buf s) -> cr p q r = 0.

Lemma flat_area3 : forall s' i j k, tr_buf s' = tr_buf s -> (i < length (tr_buf s))%nat -> (j < length (tr_buf s))%nat -> (k < length (tr_buf s))%nat ->
  tr_area3 s' i j k = 0.
Proof.
  intros s' i j k E Hi Hj Hk. unfold tr_area3. rewrite cross_R. unfold tr_pt. rewrite E. apply FLAT; apply nth_In; auto.
Qed.

Lemma flat_loop : forall fuel (s' : trR) i0 i1 i2, tr_buf s' = tr_buf s -> tr_size s' = tr_size s -> tr_edges s' = [] -> tr_tris s' = [] ->
  (i0 < length (tr_buf s))%nat -> (i1 < length (tr_buf s))%nat -> (i2 <= tr_size s)%nat ->
  exists s'' j, tr_firstLoop fuel s' i0 i1 i2 0 = (s'', j, 0) /\ tr_edges s'' = [] /\ tr_tris s'' = [].
Proof.
  induction fuel as [|fuel IH]; intros s' i0 i1 i2 B SZ E Tr H0 H1 H2; cbn [tr_firstLoop]; [eauto|].
  destruct ((i2 <? tr_size s')%nat && (_ <? _)%num) eqn:C; [|eauto].
  apply andb_true_iff in C. destruct C as [C _]. apply Nat.ltb_lt in C. rewrite SZ in C.
  set (e := tr_extrema s' i0 i1 i2). assert (X : (fst e < length (tr_buf s))%nat /\ (snd e < length (tr_buf s))%nat).
  { unfold e, tr_extrema. destruct (_ <? _)%num; [|cbn; lia]. destruct (_ <? _)%num; [|cbn; lia]. destruct (_ <? _)%num; cbn; lia. }
  destruct X as [X1 X2].
  replace (nabs (tr_area3 (tr_flag s' _) (fst e) (snd e) (S i2))) with 0.
  - apply IH; auto.
  - rewrite flat_area3; auto; [|lia]. cbn. unfold Rabs. destruct (Rcase_abs 0); lra.
Qed.

Lemma flat_first : (3 <= tr_size s)%nat -> tr_edges s = [] -> tr_tris s = [] ->
  tr_edges (fst (tr_makeFirst s)) = [] /\ tr_tris (fst (tr_makeFirst s)) = [].
Proof.
  intros L E Tr. unfold tr_makeFirst. replace (tr_size s <? 3)%nat with false by (symmetry; apply Nat.ltb_ge; auto).
  rewrite flat_area3 by (auto; lia). replace (nabs 0) with 0 by (cbn; unfold Rabs; destruct (Rcase_abs 0); lra).
  destruct (flat_loop (S (tr_size s)) s 0 1 2) as (s'' & [[j0 j1] j2] & EL & E2 & T2); auto; try lia. rewrite EL.
  replace (nlt 0 tr_eps) with true; [auto|]. symmetry. apply Rltb_true. apply eps_pos.
Qed.
End Line.

Lemma keep_length_remove : forall l : list point, (length (remove_degenerate (T := R) l) <= length l)%nat.
Proof. intros [|a l]; cbn [remove_degenerate length]; auto. apply le_n_S, keep_length. Qed.

Lemma flat_left : forall srt junk n (points : list point), (forall lt l, Permutation (srt lt l) l) -> (n <= length points)%nat ->
  (forall p q r, In p points -> In q points -> In r points -> cr p q r = 0) ->
  (length (remove_degenerate (T := R) (map (fun i => nth i points pt0) (srt (closer (gravity n points) points) (seq 0 n)))) < n)%nat ->
  tr_hullArea (tr_new (T := R) srt junk n points) = 0.
Proof.
  intros srt junk n points SRT Hn FL H. destruct (Nat.lt_ge_cases (length (remove_degenerate (T := R) (map (fun i => nth i points pt0) (srt (closer (gravity n points) points) (seq 0 n))))) 3) as [L|L].
  - apply few_points; auto.
  - unfold tr_new. change (@pt R) with point in *. set (inds := srt _ _) in *. set (sorted := map _ inds) in *. set (kept := remove_degenerate sorted) in *.
    assert (LS : length sorted = n). { unfold sorted. rewrite map_length. unfold inds. rewrite (Permutation_length (SRT _ _)). apply seq_length. }
    assert (IS : forall p, In p sorted -> In p points).
    { intros p I. apply in_map_iff in I. destruct I as (i & <- & I). apply (Permutation_in i (SRT _ _)) in I. apply in_seq in I. apply nth_In. lia. }
    assert (IK : forall p, In p kept -> In p sorted).
    { intros p I. unfold kept in I. destruct sorted as [|a l]; auto. destruct I as [<-|I]; [left; auto|]. right. apply (keep_incl l a); auto. }
    set (s := mkTri _ _ _ _ _ _).
    assert (LB : length (tr_buf s) = n). { unfold s. cbn [tr_buf]. rewrite app_length, skipn_length. lia. }
    assert (IB : forall p, In p (tr_buf s) -> In p points).
    { intros p I. unfold s in I. cbn [tr_buf] in I. apply in_app_or in I. apply IS. destruct I as [I|I]; auto.
      rewrite <- (firstn_skipn (length kept) sorted). apply in_or_app. right. auto. }
    destruct (flat_first s) as [E1 E2]; auto.
    { rewrite LB. exact H. }
    destruct (tr_makeFirst s) as [s' start]. cbn [fst] in E1, E2. apply no_tris_area. apply addPoints_none; auto.
Qed.

(** ** Two points *)
Lemma keep_same_all : forall p (l : list point), (forall x, In x l -> x = p) -> keep_distinct (T := R) p l = [].
Proof.
  intros p. induction l as [|x l IH]; intros H; cbn [keep_distinct]; auto. rewrite (H x (or_introl eq_refl)).
  rewrite dist_sq_R. replace (sqdist p p) with 0 by (unfold sqdist; ring).
  replace (nlt tr_eps 0) with false; [apply IH; intros; apply H; right; auto|]. symmetry. apply Rltb_false. assert (E := eps_pos). unfold epsR in E. lra.
Qed.

Lemma one_point : forall srt junk n (points : list point) p, (forall lt l, Permutation (srt lt l) l) -> (n <= length points)%nat ->
  (forall x, In x points -> x = p) -> tr_hullArea (tr_new (T := R) srt junk n points) = 0.
Proof.
  intros srt junk n points p SRT Hn H. apply few_points. change (@pt R) with point.
  set (sorted := map _ _). assert (IS : forall x, In x sorted -> x = p).
  { intros x I. apply in_map_iff in I. destruct I as (i & <- & I). apply (Permutation_in i (SRT _ _)) in I. apply in_seq in I. apply H, nth_In. lia. }
  destruct sorted as [|a l]; cbn [remove_degenerate length]; [lia|]. rewrite (keep_same_all a l); [cbn; lia|].
  intros x I. rewrite (IS a (or_introl eq_refl)). apply IS. right. auto.
Qed.

(** Grouped points: first copies of p, then copies of q. *)
Lemma keep_grouped : forall (p q : point) j k, (length (keep_distinct (T := R) p (repeat p j ++ repeat q k)) <= 1)%nat.
Proof.
  intros p q j k. induction j as [|j IH]; cbn [repeat app].
  - induction k as [|k IH]; cbn [repeat keep_distinct]; [cbn; lia|]. destruct (_ <? _)%num; [|exact IH].
    rewrite keep_same_all; [cbn; lia|]. intros x I. apply repeat_spec in I. auto.
  - cbn [keep_distinct]. rewrite dist_sq_R. replace (sqdist p p) with 0 by (unfold sqdist; ring).
    replace (nlt tr_eps 0) with false; [exact IH|]. symmetry. apply Rltb_false. assert (E := eps_pos). unfold epsR in E. lra.
Qed.

Lemma grouped : forall (p q : point) (f : point -> R) l, (forall x, In x l -> x = p \/ x = q) -> f p < f q ->
  (forall i j, (i < j < length l)%nat -> ~ f (nthp l j) < f (nthp l i)) -> exists j k, l = repeat p j ++ repeat q k.
Proof.
  intros p q f l H L S. induction l as [|a l IH]; [exists 0%nat, 0%nat; reflexivity|].
  destruct IH as (j & k & E); [intros; apply H; right; auto|intros i j' Hij; apply (S (Datatypes.S i) (Datatypes.S j')); cbn; lia|].
  destruct (H a (or_introl eq_refl)) as [-> | ->].
  - exists (Datatypes.S j), k. rewrite E. reflexivity.
  - destruct j as [|j]; [exists 0%nat, (Datatypes.S k); rewrite E; reflexivity|].
    exfalso. apply (S 0%nat 1%nat); [cbn; rewrite E; cbn; lia|]. rewrite E. exact L.
Qed.

Fixpoint copies (p : point) (l : list point) : nat :=
  match l with
  | [] => 0%nat
  | a :: l' => if Req_EM_T (fst a) (fst p) then if Req_EM_T (snd a) (snd p) then S (copies p l') else copies p l' else copies p l'
  end.

Lemma copies_cons : forall p a l, (a = p -> copies p (a :: l) = S (copies p l)) /\ (a <> p -> copies p (a :: l) = copies p l).
Proof.
  intros [px py] [ax ay] l. cbn [copies fst snd]. destruct (Req_EM_T ax px), (Req_EM_T ay py); split; intros E; subst; auto;
    try congruence; injection E; intros; congruence.
Qed.

Lemma gravity_two : forall (p q : point) n l g0, (forall x, In x l -> x = p \/ x = q) -> p <> q -> (0 < n)%nat ->
  fold_left (fun g (x : point) => ((fst g + fst x / nofZ (Z.of_nat n))%num, (snd g + snd x / nofZ (Z.of_nat n))%num)) l g0 =
  (fst g0 + (INR (copies p l) * fst p + INR (copies q l) * fst q) / INR n, snd g0 + (INR (copies p l) * snd p + INR (copies q l) * snd q) / INR n).
Proof.
  intros p q n l. induction l as [|a l IH]; intros g0 H NE Hn.
  - cbn [fold_left copies INR]. destruct g0. cbn [fst snd]. f_equal; field; apply not_0_INR; lia.
  - cbn [fold_left]. rewrite IH; [|intros; apply H; right; auto|auto|auto]. cbn [fst snd].
    assert (NZ : INR n <> 0) by (apply not_0_INR; lia).
    change (nofZ (Z.of_nat n)) with (IZR (Z.of_nat n)). rewrite <- INR_IZR_INZ.
    destruct (copies_cons p a l) as [P1 P2], (copies_cons q a l) as [Q1 Q2].
    destruct (H a (or_introl eq_refl)) as [E|E].
    + rewrite (P1 E), Q2 by congruence. subst a. rewrite S_INR. cbn [nadd ndiv NumR]. f_equal; field; auto.
    + rewrite (Q1 E), P2 by congruence. subst a. rewrite S_INR. cbn [nadd ndiv NumR]. f_equal; field; auto.
Qed.

Lemma copies_sum : forall (p q : point) l, (forall x, In x l -> x = p \/ x = q) -> p <> q -> (copies p l + copies q l)%nat = length l.
Proof.
  intros p q. induction l as [|a l IH]; intros H NE; auto. specialize (IH (fun x I => H x (or_intror I)) NE). cbn [length].
  destruct (copies_cons p a l) as [P1 P2], (copies_cons q a l) as [Q1 Q2].
  destruct (H a (or_introl eq_refl)) as [E|E]; [rewrite (P1 E), Q2 by congruence|rewrite (Q1 E), P2 by congruence]; lia.
Qed.

Definition far (g p : point) : R := (fst p - fst g) ^ 2 + (snd p - snd g) ^ 2.

Lemma closer_R : forall g (points : list point) i j, closer g points i j = true <-> far g (nth i points pt0) < far g (nth j points pt0).
Proof.
  intros g points i j.
  assert (E : forall p : point, dist_center (T := R) g p = far g p) by (intros p; unfold dist_center, far; cbn [nadd nmul nsub NumR]; rewrite n0_R; ring).
  unfold closer. rewrite !E. apply Rltb_true.
Qed.

Lemma closer_weak : forall g (points : list point) l, strict_weak (closer g points) l.
Proof.
  intros g points l.
  assert (F : forall i j, closer g points i j = false <-> ~ far g (nth i points pt0) < far g (nth j points pt0)).
  { intros i j. rewrite <- closer_R. destruct (closer g points i j); split; intros; congruence || tauto. }
  split; [|split].
  - intros x _. apply F. lra.
  - intros x y z _ _ _ H1 H2. apply closer_R in H1. apply closer_R in H2. apply closer_R. lra.
  - intros x y z _ _ _ H1 H2. apply F in H1. apply F in H2. apply F. lra.
Qed.

Lemma sorted_far : forall srt n (points : list point), sorts srt -> (n <= length points)%nat ->
  let g := gravity n points in let l := map (fun i => nth i points pt0) (srt (closer g points) (seq 0 n)) in
  forall i j, (i < j < length l)%nat -> ~ far g (nthp l j) < far g (nthp l i).
Proof.
  intros srt n points SRT Hn g l i j H L. destruct (SRT (closer g points) (seq 0 n)) as [P A].
  specialize (A (closer_weak g points (seq 0 n))). unfold l in H. rewrite map_length in H.
  assert (Z := A i j 0%nat H). assert (E : forall k, (k < length (srt (closer g points) (seq 0 n)))%nat -> nthp l k = nth (nth k (srt (closer g points) (seq 0 n)) 0%nat) points pt0).
  { intros k Hk. unfold nthp, l. rewrite (nth_indep _ origin (nth 0%nat points pt0)) by (rewrite map_length; auto). rewrite (map_nth (fun i => nth i points pt0)). reflexivity. }
  rewrite !E in L by lia. apply closer_R in L. congruence.
Qed.

Theorem two_points : forall srt junk (points : list point) p q, sorts srt -> p <> q -> (forall x, In x points -> x = p \/ x = q) ->
  copies p points <> copies q points -> tr_hullArea (tr_new (T := R) srt junk (length points) points) = 0.
Proof.
  intros srt junk points p q SRT NE H NC. apply few_points. change (@pt R) with point.
  assert (SF := sorted_far srt (length points) points SRT (Nat.le_refl _)). cbv zeta in SF.
  set (g := gravity (length points) points) in *. set (l := map _ _) in *.
  assert (IL : forall x, In x l -> x = p \/ x = q).
  { intros x I. apply in_map_iff in I. destruct I as (i & <- & I). apply (Permutation_in i (proj1 (SRT _ _))) in I. apply in_seq in I. apply H, nth_In. lia. }
  assert (GR : (0 < length points)%nat -> g = ((INR (copies p points) * fst p + INR (copies q points) * fst q) / INR (length points),
     (INR (copies p points) * snd p + INR (copies q points) * snd q) / INR (length points))).
  { intros HL. unfold g, gravity. rewrite firstn_all. rewrite (gravity_two p q); auto. cbn [fst snd]. rewrite n0_R, !Rplus_0_l. reflexivity. }
  destruct points as [|x0 points'] eqn:EP; [exfalso; apply NC; reflexivity|]. rewrite <- EP in *.
  assert (HL : (0 < length points)%nat) by (rewrite EP; cbn; lia). specialize (GR HL).
  assert (CS := copies_sum p q points H NE). assert (NZ : INR (length points) <> 0) by (apply not_0_INR; lia).
  set (cp := INR (copies p points)) in *. set (cq := INR (copies q points)) in *.
  assert (CN : cp + cq = INR (length points)) by (unfold cp, cq; rewrite <- plus_INR, CS; reflexivity).
  assert (CD : cp <> cq) by (intros E; apply INR_eq in E; auto).
  set (N := INR (length points)) in *. assert (NP : 0 < N) by (apply lt_0_INR; auto).
  assert (D : 0 < (fst q - fst p) ^ 2 + (snd q - snd p) ^ 2).
  { destruct p as [px py], q as [qx qy]. cbn [fst snd]. destruct (Req_dec px qx); [destruct (Req_dec py qy); [subst; congruence|]|].
    - assert (0 < (qy - py) ^ 2) by (apply sq_pos; lra). assert (0 <= (qx - px) ^ 2) by apply pow2_ge_0. lra.
    - assert (0 < (qx - px) ^ 2) by (apply sq_pos; lra). assert (0 <= (qy - py) ^ 2) by apply pow2_ge_0. lra. }
  assert (FP : far g p = (cq / N) ^ 2 * ((fst q - fst p) ^ 2 + (snd q - snd p) ^ 2)).
  { unfold far. rewrite GR. cbn [fst snd]. rewrite <- CN in *. field. auto. }
  assert (FQ : far g q = (cp / N) ^ 2 * ((fst q - fst p) ^ 2 + (snd q - snd p) ^ 2)).
  { unfold far. rewrite GR. cbn [fst snd]. rewrite <- CN in *. field. auto. }
  assert (P0 : 0 <= cp) by apply pos_INR. assert (Q0 : 0 <= cq) by apply pos_INR.
  assert (MON : forall x y, 0 <= x -> x < y -> (x / N) ^ 2 < (y / N) ^ 2).
  { intros x y X0 XY. assert (XN : 0 <= x / N) by (apply Rmult_le_pos; auto; left; apply Rinv_0_lt_compat; auto).
    assert (XYN : x / N < y / N) by (apply Rmult_lt_compat_r; auto; apply Rinv_0_lt_compat; auto). nra. }
  assert (GL : exists a b j k, l = repeat a j ++ repeat b k).
  { destruct (Rtotal_order cp cq) as [L|[E|L]]; [|congruence|].
    - destruct (grouped q p (far g) l) as (j & k & E); eauto.
      + intros x I. destruct (IL x I); auto.
      + rewrite FP, FQ. apply Rmult_lt_compat_r; auto.
    - destruct (grouped p q (far g) l) as (j & k & E); eauto.
      rewrite FP, FQ. apply Rmult_lt_compat_r; auto. }
  destruct GL as (a & b & j & k & ->). destruct j as [|j].
  - destruct k as [|k]; cbn [repeat app remove_degenerate length]; [lia|]. rewrite keep_same_all; [cbn; lia|]. intros x I. apply repeat_spec in I. auto.
  - cbn [repeat app remove_degenerate length]. apply le_n_S, le_n_S. exact (keep_grouped a b j k).
Qed.

(** ** Points at the same distance *)
Lemma keep_dup : forall (p : point) l, (length (keep_distinct (T := R) p (p :: l)) <= length l)%nat.
Proof.
  intros p l. cbn [keep_distinct]. rewrite dist_sq_R. replace (sqdist p p) with 0 by (unfold sqdist; ring).
  replace (nlt tr_eps 0) with false; [apply keep_length|]. symmetry; apply Rltb_false; assert (E' := eps_pos); unfold epsR in E'; lra.
Qed.

Lemma keep_shorter : forall l1 (p : point) l2 base, (length (keep_distinct (T := R) base (l1 ++ p :: p :: l2)) < length (l1 ++ p :: p :: l2))%nat.
Proof.
  induction l1 as [|x l1 IH]; intros p l2 base; cbn [app].
  - change (keep_distinct base (p :: p :: l2)) with (if nlt (tr_eps : R) (dist_sq base p) then p :: keep_distinct p (p :: l2) else keep_distinct base (p :: l2)).
    destruct (nlt _ _).
    + cbn [length]. apply le_n_S. apply le_n_S. apply keep_dup.
    + cbn [length]. apply le_n_S. exact (keep_length (p :: l2) base).
  - change (keep_distinct base (x :: l1 ++ p :: p :: l2)) with (if nlt (tr_eps : R) (dist_sq base x) then x :: keep_distinct x (l1 ++ p :: p :: l2) else keep_distinct base (l1 ++ p :: p :: l2)).
    destruct (nlt _ _).
    + cbn [length]. apply le_n_S. apply IH.
    + cbn [length]. apply Nat.lt_lt_succ_r. apply IH.
Qed.

Lemma remove_shorter : forall l1 (p : point) l2, (length (remove_degenerate (T := R) (l1 ++ p :: p :: l2)) < length (l1 ++ p :: p :: l2))%nat.
Proof.
  intros [|x l1] p l2; cbn [app remove_degenerate length]; apply le_n_S.
  - apply le_n_S. apply keep_dup.
  - apply keep_shorter.
Qed.

Theorem tied_points : forall srt junk (points : list point) p q l1 x l2, (forall lt l, Permutation (srt lt l) l) -> keeps_ties srt -> p <> q ->
  (forall x, In x points -> x = p \/ x = q) -> (length points <= 16)%nat ->
  copies p points = copies q points -> points = l1 ++ x :: x :: l2 -> tr_hullArea (tr_new (T := R) srt junk (length points) points) = 0.
Proof.
  intros srt junk points p q l1 x l2 SRT KT NE H H16 EC EL.
  assert (HL : (0 < length points)%nat) by (rewrite EL, app_length; cbn; lia).
  assert (CS := copies_sum p q points H NE).
  assert (GR : gravity (length points) points = ((fst p + fst q) / 2, (snd p + snd q) / 2)).
  { unfold gravity. rewrite firstn_all. rewrite (gravity_two p q); auto. cbn [fst snd]. rewrite n0_R, !Rplus_0_l, <- EC.
    assert (NZ : INR (copies p points) <> 0) by (apply not_0_INR; lia).
    replace (INR (length points)) with (2 * INR (copies p points)) by (rewrite <- CS, <- EC, plus_INR; ring). f_equal; field; auto. }
  assert (TIE : srt (closer (gravity (length points) points) points) (seq 0 (length points)) = seq 0 (length points)).
  { apply KT; [rewrite seq_length; auto|]. intros i j Hi Hj. apply in_seq in Hi. apply in_seq in Hj.
    destruct (closer _ points i j) eqn:C; auto. apply closer_R in C. exfalso. rewrite GR in C.
    assert (F : forall k, (k < length points)%nat -> far ((fst p + fst q) / 2, (snd p + snd q) / 2) (nth k points pt0) = (fst q - fst p) ^ 2 / 4 + (snd q - snd p) ^ 2 / 4).
    { intros k Hk. destruct (H (nth k points pt0)) as [E|E]; [apply nth_In; auto| |]; unfold far; rewrite E; cbn [fst snd]; field. }
    rewrite !F in C by (change (@pt R) with point in *; lia). lra. }
  apply flat_left; auto.
  - intros a b c Ia Ib Ic. destruct (H a Ia), (H b Ib), (H c Ic); subst a b c; rewrite ?cr_same1, ?cr_same2, ?cr_same3; auto.
  - rewrite TIE. replace (map (fun i => nth i points pt0) (seq 0 (length points))) with points.
    + rewrite EL. apply remove_shorter.
    + symmetry. rewrite (map_nth_seq _ pt0 (length points) points) by auto. apply firstn_all.
Qed.
