(** The triangulation of points with whole coordinates in IEEE double arithmetic takes the steps of the
    run in exact arithmetic. *)
From Coq Require Import ZArith List Bool Lia Reals Lra Permutation Floats.SpecFloat.
From Coquelicot Require Import Coquelicot.
From Flocq Require Import Core BinarySingleNaN.
From Verif Require Import Base Num NumR NumF L_Float L_FloatOps L_FindPointF M_Triangulate S_Geometry S_Quad S_Area L_Area L_Polygon L_AreaPolygon L_Triangulate L_HullGen.
Import ListNotations.
Open Scope R_scope.

(** The point with these whole coordinates. *)
Definition rpt (p : Z * Z) : point := (IZR (fst p), IZR (snd p)).

(** A finite double with a whole value. *)
Definition wh (x : spec_float) (z : Z) : Prop := dbl x /\ fval x = IZR z.

(** A pair of doubles with the value of a point with whole coordinates up to 2^25. *)
Definition wp (p : spec_float * spec_float) (q : Z * Z) : Prop :=
  wh (fst p) (fst q) /\ wh (snd p) (snd q) /\ (Z.abs (fst q) <= 2 ^ 25)%Z /\ (Z.abs (snd q) <= 2 ^ 25)%Z.

Lemma whole_bound : forall z, (Z.abs z <= 2 ^ 53)%Z -> Rabs (IZR z) <= bpow radix2 1000.
Proof.
  intros z H. rewrite <- abs_IZR. apply Rle_trans with (bpow radix2 53); [|apply bpow_le; lia].
  change (bpow radix2 53) with (IZR (2 ^ 53)). apply IZR_le. exact H.
Qed.

Lemma wh_add : forall x y a b, wh x a -> wh y b -> (Z.abs (a + b) <= 2 ^ 53)%Z -> wh (nadd x y) (a + b).
Proof.
  intros x y a b [Dx Vx] [Dy Vy] H. assert (E : fval x + fval y = IZR (a + b)) by (rewrite Vx, Vy, plus_IZR; reflexivity).
  destruct (f_add x y Dx Dy) as [D V]; [rewrite E; apply whole_bound; auto|]. split; auto. rewrite V, E. apply rnd_Z; auto.
Qed.

Lemma wh_sub : forall x y a b, wh x a -> wh y b -> (Z.abs (a - b) <= 2 ^ 53)%Z -> wh (nsub x y) (a - b).
Proof.
  intros x y a b [Dx Vx] [Dy Vy] H. assert (E : fval x - fval y = IZR (a - b)) by (rewrite Vx, Vy, minus_IZR; reflexivity).
  destruct (f_sub x y Dx Dy) as [D V]; [rewrite E; apply whole_bound; auto|]. split; auto. rewrite V, E. apply rnd_Z; auto.
Qed.

Lemma wh_mul : forall x y a b, wh x a -> wh y b -> (Z.abs (a * b) <= 2 ^ 53)%Z -> wh (nmul x y) (a * b).
Proof.
  intros x y a b [Dx Vx] [Dy Vy] H. assert (E : fval x * fval y = IZR (a * b)) by (rewrite Vx, Vy, mult_IZR; reflexivity).
  destruct (f_mul x y Dx Dy) as [D V]; [rewrite E; apply whole_bound; auto|]. split; auto. rewrite V, E. apply rnd_Z; auto.
Qed.

Lemma wh_zero : wh n0 0.
Proof. destruct zero_val. split; auto. Qed.

(** ** Comparisons with the tolerance *)
Lemma eps_val : dbl (tr_eps (T := spec_float)) /\ 0 < fval tr_eps < 1.
Proof.
  set (e := tr_eps (T := spec_float)). vm_compute in e. split; [split; reflexivity|].
  unfold fval, e, SF2R, F2R. cbn [Fnum Fexp cond_Zopp bpow]. split.
  - apply Rmult_lt_0_compat; [apply (IZR_lt 0); reflexivity|]. apply Rinv_0_lt_compat. apply (IZR_lt 0). reflexivity.
  - apply Rmult_lt_reg_r with (IZR (Z.pow_pos radix2 92)); [apply (IZR_lt 0); reflexivity|].
    rewrite Rmult_assoc, Rinv_l, Rmult_1_r, Rmult_1_l; [|apply Rgt_not_eq; apply (IZR_lt 0); reflexivity].
    apply IZR_lt. reflexivity.
Qed.

Lemma opp_val : forall x, dbl x -> dbl (nopp x) /\ fval (nopp x) = - fval x.
Proof.
  intros x [V F]. split.
  - split; destruct x; auto.
  - cbn [nopp NumF]. destruct x as [s|s| |s m e]; cbn [SFopp fval SF2R]; unfold fval, SF2R; try ring. rewrite <- F2R_Zopp. destruct s; reflexivity.
Qed.

Lemma abs_val : forall x, dbl x -> dbl (nabs x) /\ fval (nabs x) = Rabs (fval x).
Proof.
  intros x [V F]. split.
  - split; destruct x; auto.
  - cbn [nabs NumF]. destruct x as [s|s| |s m e]; unfold fval, SFabs, SF2R; try (rewrite Rabs_R0; reflexivity).
    rewrite <- F2R_Zabs. destruct s; reflexivity.
Qed.

Lemma epsR_lt1 : 0 < epsR < 1.
Proof. split; [apply eps_pos|]. unfold epsR, tr_eps. rewrite lit_R. lra. Qed.

Lemma Rltb_Z : forall (a b : R) (c : bool), (c = true <-> a < b) -> Rltb a b = c.
Proof. intros a b c H. unfold Rltb. destruct (Rlt_dec a b) as [L|L]; destruct c; auto; [symmetry; apply H; auto|]. exfalso. apply L, H. reflexivity. Qed.

Lemma lt_neg : forall e z, 0 < e < 1 -> Rltb (IZR z) (- e) = (z <? 0)%Z.
Proof.
  intros e z He. apply Rltb_Z. rewrite Z.ltb_lt. split; intros H.
  - assert (z <= -1)%Z by lia. assert (Q := IZR_le z (-1) ltac:(lia)). lra.
  - destruct (Z_lt_ge_dec z 0) as [|G]; auto. assert (Q := IZR_le 0 z ltac:(lia)). lra.
Qed.

Lemma lt_abs : forall e z, 0 < e < 1 -> Rltb (Rabs (IZR z)) e = (z =? 0)%Z.
Proof.
  intros e z He. rewrite <- abs_IZR. apply Rltb_Z. rewrite Z.eqb_eq. split; intros H.
  - subst. simpl. lra.
  - destruct (Z.eq_dec z 0) as [|G]; auto. assert (Q := IZR_le 1 (Z.abs z) ltac:(lia)). lra.
Qed.

Lemma lt_pos : forall e z, 0 < e < 1 -> Rltb e (IZR z) = (0 <? z)%Z.
Proof.
  intros e z He. apply Rltb_Z. rewrite Z.ltb_lt. split; intros H.
  - assert (Q := IZR_le 1 z ltac:(lia)). lra.
  - destruct (Z_lt_ge_dec 0 z) as [|G]; auto. assert (Q := IZR_le z 0 ltac:(lia)). lra.
Qed.

Lemma F_neg : forall x z, wh x z -> nlt x (nopp tr_eps) = (z <? 0)%Z.
Proof.
  intros x z [D V]. destruct eps_val as [E1 E2]. destruct (opp_val _ E1) as [O1 O2]. rewrite f_lt, O2, V by auto. apply lt_neg; auto.
Qed.

Lemma F_abs : forall x z, wh x z -> nlt (nabs x) tr_eps = (z =? 0)%Z.
Proof.
  intros x z [D V]. destruct eps_val as [E1 E2]. destruct (abs_val _ D) as [O1 O2]. rewrite f_lt, O2, V by auto. apply lt_abs; auto.
Qed.

Lemma F_pos : forall x z, wh x z -> nlt tr_eps x = (0 <? z)%Z.
Proof. intros x z [D V]. destruct eps_val as [E1 E2]. rewrite f_lt, V by auto. apply lt_pos; auto. Qed.

Lemma R_neg : forall (x : R) z, x = IZR z -> nlt x (nopp tr_eps) = (z <? 0)%Z.
Proof. intros x z ->. apply (lt_neg epsR z epsR_lt1). Qed.

Lemma R_abs : forall (x : R) z, x = IZR z -> nlt (nabs x) tr_eps = (z =? 0)%Z.
Proof. intros x z ->. apply (lt_abs epsR z epsR_lt1). Qed.

Lemma R_pos : forall (x : R) z, x = IZR z -> nlt tr_eps x = (0 <? z)%Z.
Proof. intros x z ->. apply (lt_pos epsR z epsR_lt1). Qed.

(** ** The three formulas *)
Definition zcross (p q r : Z * Z) : Z := ((fst q - fst p) * (snd r - snd p) - (snd q - snd p) * (fst r - fst p))%Z.
Definition zdot (p q r : Z * Z) : Z := (0 + (fst q - fst p) * (fst r - fst p) + (snd q - snd p) * (snd r - snd p))%Z.

Lemma prod_bound : forall a b, (Z.abs a <= 2 ^ 26 -> Z.abs b <= 2 ^ 26 -> Z.abs (a * b) <= 2 ^ 52)%Z.
Proof. intros a b Ha Hb. rewrite Z.abs_mul. change (2 ^ 52)%Z with (2 ^ 26 * 2 ^ 26)%Z. apply Z.mul_le_mono_nonneg; lia. Qed.

Lemma cross_F : forall p q r a b c, wp p a -> wp q b -> wp r c -> wh (cross p q r) (zcross a b c).
Proof.
  intros p q r a b c (P1 & P2 & P3 & P4) (Q1 & Q2 & Q3 & Q4) (R1 & R2 & R3 & R4). unfold cross, zcross.
  assert (B1 := prod_bound (fst b - fst a) (snd c - snd a) ltac:(lia) ltac:(lia)).
  assert (B2 := prod_bound (snd b - snd a) (fst c - fst a) ltac:(lia) ltac:(lia)).
  repeat first [apply wh_sub | apply wh_mul]; auto; lia.
Qed.

Lemma dot_F : forall p q r a b c, wp p a -> wp q b -> wp r c -> wh (dot_at p q r) (zdot a b c).
Proof.
  intros p q r a b c (P1 & P2 & P3 & P4) (Q1 & Q2 & Q3 & Q4) (R1 & R2 & R3 & R4). unfold dot_at, zdot.
  assert (B1 := prod_bound (fst b - fst a) (fst c - fst a) ltac:(lia) ltac:(lia)).
  assert (B2 := prod_bound (snd b - snd a) (snd c - snd a) ltac:(lia) ltac:(lia)).
  repeat first [apply wh_sub | apply wh_mul | apply wh_add]; auto; try apply wh_zero; lia.
Qed.

Lemma dist_F : forall p q a b, wp p a -> wp q b -> wh (dist_sq p q) (zdot a b b).
Proof. intros p q a b P Q. apply (dot_F p q q a b b); auto. Qed.

Lemma cross_Z : forall a b c, cross (rpt a) (rpt b) (rpt c) = IZR (zcross a b c).
Proof. intros. unfold cross, zcross, rpt. cbn [fst snd nsub nmul NumR]. rewrite !minus_IZR, !mult_IZR, !minus_IZR. ring. Qed.

Lemma dot_Z : forall a b c, dot_at (rpt a) (rpt b) (rpt c) = IZR (zdot a b c).
Proof. intros. unfold dot_at, zdot, rpt. change (n0 : R) with 0%R. cbn [fst snd nsub nmul nadd NumR]. rewrite !plus_IZR, !mult_IZR, !minus_IZR. ring. Qed.

Lemma dist_Z : forall a b, dist_sq (rpt a) (rpt b) = IZR (zdot a b b).
Proof. intros. apply (dot_Z a b b). Qed.

(** ** The points kept *)
Lemma keep_sim : forall ps zs, Forall2 wp ps zs -> forall b a, wp b a ->
  exists ks, Forall2 wp (keep_distinct b ps) ks /\ keep_distinct (rpt a) (map rpt zs) = map rpt ks.
Proof.
  induction 1 as [|p z ps zs W F IH]; intros b a B; cbn [keep_distinct map].
  - exists []. split; constructor.
  - rewrite (F_pos _ _ (dist_F _ _ _ _ B W)), (R_pos _ _ (dist_Z a z)). destruct (0 <? zdot a z z)%Z.
    + destruct (IH p z W) as (ks & K1 & K2). exists (z :: ks). split; [constructor; auto|]. rewrite K2. reflexivity.
    + apply IH; auto.
Qed.

Lemma remove_sim : forall ps zs, Forall2 wp ps zs ->
  exists ks, Forall2 wp (remove_degenerate ps) ks /\ remove_degenerate (map rpt zs) = map rpt ks.
Proof.
  intros ps zs [|p z ps' zs' W F]; cbn [remove_degenerate map].
  - exists []. split; constructor.
  - destruct (keep_sim ps' zs' F p z W) as (ks & K1 & K2). exists (z :: ks). split; [constructor; auto|]. rewrite K2. reflexivity.
Qed.

(** ** The two runs *)
Notation trF := (tri (T := spec_float)).

Record sim (zs : list (Z * Z)) (s : trF) (r : trR) : Prop := {
  sm_F : Forall2 wp (tr_buf s) zs;
  sm_R : tr_buf r = map rpt zs;
  sm_size : tr_size s = tr_size r;
  sm_edges : tr_edges s = tr_edges r;
  sm_tris : tr_tris s = tr_tris r;
  sm_oob : tr_oob s = tr_oob r;
  sm_ein : forall e, In e (tr_edges s) -> (fst (ends e) < length zs)%nat /\ (snd (ends e) < length zs)%nat;
  sm_tin : forall t, In t (tr_tris s) -> (nth 0 t 0 < length zs)%nat /\ (nth 1 t 0 < length zs)%nat /\ (nth 2 t 0 < length zs)%nat }.

Definition zat (zs : list (Z * Z)) i := nth i zs (0, 0)%Z.

Lemma F2_nth : forall {A B} (P : A -> B -> Prop) l m, Forall2 P l m -> forall i da db, (i < length m)%nat -> P (nth i l da) (nth i m db).
Proof.
  intros A B P l m H. induction H as [|a b l m H F IH]; intros i da db Hi; cbn [length] in Hi; [lia|].
  destruct i; cbn [nth]; auto. apply IH. lia.
Qed.

Lemma pt_F : forall zs s r i, sim zs s r -> (i < length zs)%nat -> wp (tr_pt s i) (zat zs i).
Proof. intros zs s r i S Hi. unfold tr_pt, zat. apply (F2_nth wp _ _ (sm_F _ _ _ S)). auto. Qed.

Lemma pt_R : forall zs s r i, sim zs s r -> (i < length zs)%nat -> tr_pt r i = rpt (zat zs i).
Proof.
  intros zs s r i S Hi. unfold tr_pt. rewrite (sm_R _ _ _ S). transitivity (nth i (map rpt zs) (rpt (0, 0)%Z)); [|apply map_nth].
  apply nth_indep. rewrite map_length. auto.
Qed.

Lemma area_F : forall zs s r i j k, sim zs s r -> (i < length zs)%nat -> (j < length zs)%nat -> (k < length zs)%nat ->
  wh (tr_area3 s i j k) (zcross (zat zs i) (zat zs j) (zat zs k)).
Proof. intros. apply cross_F; eapply pt_F; eauto. Qed.

Lemma area_R : forall zs s r i j k, sim zs s r -> (i < length zs)%nat -> (j < length zs)%nat -> (k < length zs)%nat ->
  tr_area3 r i j k = IZR (zcross (zat zs i) (zat zs j) (zat zs k)).
Proof. intros zs s r i j k S Hi Hj Hk. unfold tr_area3. rewrite !(pt_R zs s r) by auto. apply cross_Z. Qed.

Lemma out_sim : forall zs s r is, sim zs s r -> tr_out s is = tr_out r is.
Proof. intros zs s r is S. unfold tr_out. rewrite (sm_size _ _ _ S). reflexivity. Qed.

Lemma visible_sim : forall zs s r ip e, sim zs s r -> (ip < length zs)%nat -> In e (tr_edges s) -> tr_visible s ip e = tr_visible r ip e.
Proof.
  intros zs s r ip e S Hi He. destruct (sm_ein _ _ _ S e He). unfold tr_visible.
  rewrite (F_neg _ _ (area_F zs s r _ _ _ S Hi H H0)), (R_neg _ _ (area_R zs s r _ _ _ S Hi H H0)). reflexivity.
Qed.

Lemma fold_insert_in : forall {A} (f : A -> list nat) l s x, In x (fold_left (fun t e => set_insert (f e) t) l s) -> In x s \/ exists e, In e l /\ x = f e.
Proof.
  induction l as [|a l IH]; intros s x H; cbn [fold_left] in H; auto.
  destruct (IH _ _ H) as [Q|(e & E1 & E2)]; [|right; exists e; simpl; auto].
  apply set_insert_in in Q. destruct Q as [->|Q]; auto. right. exists a. simpl. auto.
Qed.

Lemma addPoint_sim : forall zs s r ip, sim zs s r -> (ip < length zs)%nat -> sim zs (tr_addPoint s ip) (tr_addPoint r ip).
Proof.
  intros zs s r ip S Hi.
  assert (V : filter (tr_visible s ip) (tr_edges s) = filter (tr_visible r ip) (tr_edges r)).
  { rewrite <- (sm_edges _ _ _ S). apply filter_ext_in. intros e He. eapply visible_sim; eauto. }
  assert (W : filter (fun e => negb (tr_visible s ip e)) (tr_edges s) = filter (fun e => negb (tr_visible r ip e)) (tr_edges r)).
  { rewrite <- (sm_edges _ _ _ S). apply filter_ext_in. intros e He. f_equal. eapply visible_sim; eauto. }
  constructor; unfold tr_addPoint; cbn [tr_buf tr_size tr_edges tr_tris tr_oob].
  - apply (sm_F _ _ _ S).
  - apply (sm_R _ _ _ S).
  - apply (sm_size _ _ _ S).
  - rewrite V, W. reflexivity.
  - rewrite V, (sm_tris _ _ _ S). reflexivity.
  - rewrite (sm_oob _ _ _ S), (sm_edges _ _ _ S). f_equal. destruct (tr_edges r) eqn:E; auto. rewrite <- E. apply (out_sim zs); auto.
  - intros e He. apply (fold_insert_in (fun e => e)) in He. destruct He as [He|(e' & He & ->)].
    + apply filter_In in He. apply (sm_ein _ _ _ S). apply He.
    + apply in_flat_map in He. destruct He as (e & He & H). apply filter_In in He. destruct He as [He _].
      destruct (sm_ein _ _ _ S e He). destruct H as [<-|[<-|[]]]; cbn; auto.
  - intros t Ht. apply fold_insert_in in Ht. destruct Ht as [Ht|(e & He & ->)].
    + apply (sm_tin _ _ _ S). auto.
    + apply filter_In in He. destruct He as [He _]. destruct (sm_ein _ _ _ S e He). cbn [nth]. auto.
Qed.

Lemma addPoints_sim : forall l zs s r, sim zs s r -> (forall i, In i l -> (i < length zs)%nat) -> sim zs (fold_left tr_addPoint l s) (fold_left tr_addPoint l r).
Proof.
  induction l as [|i l IH]; intros zs s r S H; cbn [fold_left]; auto. apply IH; [|intros; apply H; simpl; auto].
  apply addPoint_sim; auto. apply H. simpl. auto.
Qed.

Lemma extrema_sim : forall zs s r i j k, sim zs s r -> (i < length zs)%nat -> (j < length zs)%nat -> (k < length zs)%nat ->
  tr_extrema s i j k = tr_extrema r i j k /\ (fst (tr_extrema r i j k) < length zs)%nat /\ (snd (tr_extrema r i j k) < length zs)%nat.
Proof.
  intros zs s r i j k S Hi Hj Hk. unfold tr_extrema.
  assert (DF : forall a b c, (a < length zs)%nat -> (b < length zs)%nat -> (c < length zs)%nat ->
    nlt tr_eps (dot_at (tr_pt s a) (tr_pt s b) (tr_pt s c)) = nlt tr_eps (dot_at (tr_pt r a) (tr_pt r b) (tr_pt r c))).
  { intros a b c Ha Hb Hc. rewrite !(pt_R zs s r) by auto. rewrite (R_pos _ _ (dot_Z _ _ _)).
    apply F_pos. apply dot_F; eapply pt_F; eauto. }
  assert (ONE : nlt (tr_eps (T := spec_float)) n1 = nlt (tr_eps (T := R)) n1).
  { transitivity (0 <? 1)%Z; [apply F_pos; destruct one_val; split; auto|symmetry; apply (R_pos n1 1%Z); reflexivity]. }
  rewrite !DF, ONE by auto. split; [reflexivity|].
  clear ONE. destruct (nlt (T := R) tr_eps n1); [|cbn [fst snd]; lia]. destruct (nlt tr_eps (dot_at (tr_pt r i) _ _)); [|cbn [fst snd]; lia].
  destruct (nlt tr_eps (dot_at (tr_pt r j) _ _)); cbn [fst snd]; lia.
Qed.

(** Indices of the loop only grow. *)
Lemma firstLoop_grows : forall fuel (s : trR) i0 i1 i2 a s' j0 j1 j2 a', tr_firstLoop fuel s i0 i1 i2 a = (s', (j0, j1, j2), a') -> (i2 <= j2)%nat.
Proof.
  induction fuel as [|fuel IH]; intros s i0 i1 i2 a s' j0 j1 j2 a' E; cbn [tr_firstLoop] in E; [injection E; intros; subst; lia|].
  destruct (_ && _); [apply IH in E; lia|injection E; intros; subst; lia].
Qed.

Lemma flag_sim : forall zs s r is, sim zs s r -> sim zs (tr_flag s is) (tr_flag r is).
Proof.
  intros zs s r is S. destruct S as [S1 S2 S3 S4 S5 S6 S7 S8]. constructor; cbn; auto. rewrite S6. unfold tr_out. rewrite S3. reflexivity.
Qed.

Lemma firstLoop_sim : forall fuel zs s r i0 i1 i2, sim zs s r -> (i0 < length zs)%nat -> (i1 < length zs)%nat ->
  forall r' j0 j1 j2 a', tr_firstLoop fuel r i0 i1 i2 (nabs (tr_area3 r i0 i1 i2)) = (r', (j0, j1, j2), a') -> (j2 < length zs)%nat ->
  exists s', tr_firstLoop fuel s i0 i1 i2 (nabs (tr_area3 s i0 i1 i2)) = (s', (j0, j1, j2), nabs (tr_area3 s j0 j1 j2)) /\ sim zs s' r' /\
    a' = nabs (tr_area3 r j0 j1 j2) /\ (j0 < length zs)%nat /\ (j1 < length zs)%nat /\
    (forall i, tr_pt s' i = tr_pt s i) /\ (forall i, tr_pt r' i = tr_pt r i).
Proof.
  induction fuel as [|fuel IH]; intros zs s r i0 i1 i2 S H0 H1 r' j0 j1 j2 a' E J; assert (G := firstLoop_grows _ _ _ _ _ _ _ _ _ _ _ E);
    cbn [tr_firstLoop] in *.
  - injection E as <- <- <- <- <-. exists s. auto 10.
  - rewrite (F_abs _ _ (area_F zs s r i0 i1 i2 S H0 H1 ltac:(lia))). rewrite (R_abs _ _ (area_R zs s r i0 i1 i2 S H0 H1 ltac:(lia))) in E.
    rewrite (sm_size _ _ _ S). destruct ((i2 <? tr_size r)%nat && _).
    + destruct (extrema_sim zs s r i0 i1 i2 S H0 H1 ltac:(lia)) as (X1 & X2 & X3). rewrite X1.
      set (e := tr_extrema r i0 i1 i2) in *.
      assert (S' := flag_sim zs s r [i0; i1; i2; fst e; snd e; Datatypes.S i2] S). set (is := [i0; i1; i2; fst e; snd e; Datatypes.S i2]) in *.
      destruct (IH zs _ _ (fst e) (snd e) (Datatypes.S i2) S' X2 X3 r' j0 j1 j2 a' E J) as (s' & Q1 & Q2 & Q3 & Q4 & Q5 & Q6 & Q7).
      exists s'. exact (conj Q1 (conj Q2 (conj Q3 (conj Q4 (conj Q5 (conj Q6 Q7)))))).
    + injection E as <- <- <- <- <-. exists s. auto 10.
Qed.

Lemma makeFirst_sim : forall zs s r, sim zs s r -> (tr_size r <= length zs)%nat -> tr_edges r = [] -> tr_tris r = [] ->
  (snd (tr_makeFirst r) <= tr_size r)%nat ->
  sim zs (fst (tr_makeFirst s)) (fst (tr_makeFirst r)) /\ snd (tr_makeFirst s) = snd (tr_makeFirst r).
Proof.
  intros zs s r S L HE HT. unfold tr_makeFirst. rewrite (sm_size _ _ _ S). destruct (tr_size r <? 3)%nat eqn:Z3; [cbn; auto|].
  apply Nat.ltb_ge in Z3.
  destruct (tr_firstLoop (Datatypes.S (tr_size r)) r 0 1 2 (nabs (tr_area3 r 0 1 2))) as [[r' [[j0 j1] j2]] a'] eqn:E. intros H.
  assert (J : (j2 < length zs)%nat).
  { destruct (nlt a' tr_eps); [cbn in H; lia|]. destruct (if nlt (tr_area3 r' j0 j1 j2) _ then (j2, j1) else (j1, j2)) in H. cbn in H. lia. }
  destruct (firstLoop_sim _ zs s r 0 1 2 S ltac:(lia) ltac:(lia) r' j0 j1 j2 a' E J) as (s' & Q1 & Q2 & -> & Q4 & Q5 & Q6 & Q7).
  rewrite Q1. clear H.
  assert (A1 := area_F zs s r j0 j1 j2 S Q4 Q5 J). assert (A2 := area_R zs s r j0 j1 j2 S Q4 Q5 J).
  rewrite (F_abs _ _ A1), (R_abs _ _ A2).
  assert (B1 := area_F zs s' r' j0 j1 j2 Q2 Q4 Q5 J). assert (B2 := area_R zs s' r' j0 j1 j2 Q2 Q4 Q5 J).
  rewrite (F_neg _ _ B1), (R_neg _ _ B2).
  destruct (_ =? 0)%Z; [cbn; auto|].
  destruct Q2 as [S1 S2 S3 S4 S5 S6 S7 S8].
  destruct (_ <? 0)%Z; cbn [fst snd]; (split; [|reflexivity]); constructor; cbn [tr_buf tr_size tr_edges tr_tris tr_oob]; auto;
    try (rewrite S4; reflexivity); try (rewrite S5; reflexivity);
    try (intros e He; apply set_insert_in in He; destruct He as [->|He]; [cbn; auto|];
         apply set_insert_in in He; destruct He as [->|He]; [cbn; auto|];
         apply set_insert_in in He; destruct He as [->|He]; [cbn; auto|]; apply S7; exact He);
    (intros t Ht; apply set_insert_in in Ht; destruct Ht as [->|Ht]; [cbn [nth]; auto|apply S8; exact Ht]).
Qed.

Lemma F2_map_nth : forall (ps : list (spec_float * spec_float)) zs, Forall2 wp ps zs -> forall inds, (forall i, In i inds -> (i < length zs)%nat) ->
  Forall2 wp (map (fun i => nth i ps pt0) inds) (map (fun i => zat zs i) inds).
Proof.
  intros ps zs H inds. induction inds as [|i l IH]; intros B; cbn [map]; constructor.
  - unfold zat. apply (F2_nth wp _ _ H). apply B. simpl. auto.
  - apply IH. intros; apply B; simpl; auto.
Qed.

Lemma F2_app : forall {A B} (P : A -> B -> Prop) l m l' m', Forall2 P l m -> Forall2 P l' m' -> Forall2 P (l ++ l') (m ++ m').
Proof. intros. apply Forall2_app; auto. Qed.

Lemma F2_skipn : forall {A B} (P : A -> B -> Prop) l m k, Forall2 P l m -> Forall2 P (skipn k l) (skipn k m).
Proof. intros A B P l m k H. revert k. induction H as [|a b l m H F IH]; intros [|k]; cbn [skipn]; try constructor; auto. Qed.

(** The sort of the other run: the order found by this one. *)
Definition as_sort (n : nat) (inds : list nat) : (nat -> nat -> bool) -> list nat -> list nat :=
  fun _ l => if list_eq_dec Nat.eq_dec l (seq 0 n) then inds else l.

Lemma as_sort_perm : forall n inds, Permutation inds (seq 0 n) -> forall lt l, Permutation (as_sort n inds lt l) l.
Proof. intros n inds H lt l. unfold as_sort. destruct (list_eq_dec _ _ _) as [->|]; auto. Qed.

Theorem new_sim : forall srt junk junkR n ps zs, (forall lt l, Permutation (srt lt l) l) -> (n <= length ps)%nat -> Forall2 wp ps zs ->
  exists srt', (forall lt l, Permutation (srt' lt l) l) /\
    ((snd (tr_makeFirst (tr_start (T := R) srt' junkR n (map rpt zs))) <= tr_size (tr_start (T := R) srt' junkR n (map rpt zs)))%nat ->
     exists ws, sim ws (tr_new (T := spec_float) srt junk n ps) (tr_new (T := R) srt' junkR n (map rpt zs))).
Proof.
  intros srt junk junkR n ps zs SRT Hn F.
  set (inds := srt (closer (gravity n ps) ps) (seq 0 n)).
  assert (PI : Permutation inds (seq 0 n)) by apply SRT.
  assert (LZ : length ps = length zs) by (eapply Forall2_length; eauto).
  assert (IB : forall i, In i inds -> (i < length zs)%nat).
  { intros i Hi. apply (Permutation_in _ PI) in Hi. apply in_seq in Hi. lia. }
  exists (as_sort n inds). split; [apply as_sort_perm; auto|]. intros H. rewrite !tr_new_start. cbv zeta.
  set (r0 := tr_start (as_sort n inds) junkR n (map rpt zs)) in *. set (s0 := tr_start srt junk n ps).
  set (so := map (fun i => zat zs i) inds).
  set (sF := map (fun i => nth i ps pt0) inds).
  assert (SF : Forall2 wp sF so) by (apply F2_map_nth; auto).
  assert (SR : map (fun i => nth i (map rpt zs) pt0) (as_sort n inds (closer (gravity n (map rpt zs)) (map rpt zs)) (seq 0 n)) = map rpt so).
  { unfold as_sort. destruct (list_eq_dec _ _ _) as [_|N]; [|contradiction]. unfold so. rewrite map_map. apply map_ext_in. intros i Hi.
    change (pt0 : point) with (rpt (0, 0)%Z). apply map_nth. }
  destruct (remove_sim _ _ SF) as (ks & K1 & K2).
  assert (LF : length (remove_degenerate sF) = length ks) by exact (Forall2_length _ _ _ K1).
  assert (LKS : length (map rpt ks) = length ks) by apply map_length.
  set (ws := ks ++ skipn (length ks) so).
  assert (S0 : sim ws s0 r0 /\ tr_edges r0 = [] /\ tr_tris r0 = [] /\ (tr_size r0 <= length ws)%nat).
  { split; [|split; [reflexivity|split; [reflexivity|]]].
    - constructor; try reflexivity.
      + change (Forall2 wp (remove_degenerate sF ++ skipn (length (remove_degenerate sF)) sF) ws). rewrite LF. apply F2_app; auto. apply F2_skipn. auto.
      + unfold r0, tr_start. cbn [tr_buf]. change (@pt R) with point. rewrite SR, K2, LKS. unfold ws. rewrite map_app, skipn_map. reflexivity.
      + change (tr_size s0) with (length (remove_degenerate sF)). unfold r0, tr_start. cbn [tr_size]. change (@pt R) with point. rewrite SR, K2, LF, LKS. reflexivity.
      + intros e [].
      + intros t [].
    - unfold r0, tr_start. cbn [tr_size]. change (@pt R) with point. rewrite SR, K2, LKS. unfold ws. rewrite app_length. lia. }
  destruct S0 as (S0 & E0 & T0 & L0).
  assert (LW : (n <= length ws)%nat).
  { unfold ws. rewrite app_length, skipn_length. assert (length so = n) by (unfold so; rewrite map_length, (Permutation_length PI), seq_length; reflexivity). lia. }
  destruct (makeFirst_sim ws s0 r0 S0 L0 E0 T0 H) as [M1 M2]. rewrite M2. exists ws.
  apply addPoints_sim; auto. intros i Hi. apply in_seq in Hi. lia.
Qed.

(** ** The sum of the triangles *)
Lemma sum_sim : forall zs s r, sim zs s r -> forall ts acc z, (forall t, In t ts -> In t (tr_tris s)) ->
  (forall t, In t ts -> 0 <= tcr r t) -> wh acc z -> (0 <= z)%Z -> IZR z + tsum r ts <= 9007199254740992 ->
  exists w, wh (fold_left (fun a t => nadd a (tr_area3 s (nth 0 t 0%nat) (nth 1 t 0%nat) (nth 2 t 0%nat))) ts acc) w /\ IZR w = IZR z + tsum r ts /\ (0 <= w)%Z.
Proof.
  intros zs s r S ts. induction ts as [|t ts IH]; intros acc z IN POS W Z0 B; cbn [fold_left tsum] in *.
  - exists z. split; auto. split; [ring|auto].
  - assert (TP : forall l, (forall x, In x l -> 0 <= tcr r x) -> 0 <= tsum r l).
    { clear. induction l as [|x l IH]; intros H; cbn [tsum]; [lra|]. assert (Q := H x (or_introl eq_refl)). specialize (IH (fun y Hy => H y (or_intror Hy))). lra. }
    assert (T0 := TP ts (fun x Hx => POS x (or_intror Hx))). assert (P0 := POS t (or_introl eq_refl)).
    destruct (sm_tin _ _ _ S t (IN t (or_introl eq_refl))) as (I0 & I1 & I2).
    assert (AF := area_F zs s r _ _ _ S I0 I1 I2). assert (AR := area_R zs s r _ _ _ S I0 I1 I2).
    set (k := zcross _ _ _) in *. change (tr_area3 r (nth 0 t 0%nat) (nth 1 t 0%nat) (nth 2 t 0%nat)) with (tcr r t) in AR. rewrite AR in P0, B.
    apply le_IZR in P0.
    assert (ZB : (z + k <= 2 ^ 53)%Z). { apply le_IZR. rewrite plus_IZR. change (IZR (2 ^ 53)) with 9007199254740992. lra. }
    destruct (IH _ (z + k)%Z (fun x Hx => IN x (or_intror Hx)) (fun x Hx => POS x (or_intror Hx)) (wh_add _ _ _ _ W AF ltac:(lia)) ltac:(lia)) as (w & W1 & W2 & W3).
    { rewrite plus_IZR. lra. }
    exists w. split; auto. split; auto. rewrite W2, plus_IZR, AR. ring.
Qed.

Lemma half_Z : forall z, (0 <= z <= 2 ^ 53)%Z -> rnd (IZR z * (1 / 2)) = IZR z * (1 / 2).
Proof.
  intros z H. apply round_generic; [auto with typeclass_instances|].
  destruct (Z.eq_dec z (2 ^ 53)) as [->|N].
  - replace (IZR (2 ^ 53) * (1 / 2)) with (IZR (2 ^ 52)); [apply format_Z; lia|].
    change (2 ^ 53)%Z with (2 * 2 ^ 52)%Z. rewrite mult_IZR. field.
  - replace (IZR z * (1 / 2)) with (F2R (Float radix2 z (-1))) by (unfold F2R; simpl; lra).
    apply generic_format_FLT. exists (Float radix2 z (-1)); [reflexivity| |unfold emin, fprec, femax; simpl; lia].
    simpl Fnum. change (radix2 ^ fprec)%Z with (2 ^ 53)%Z. lia.
Qed.

(** All triangles of points with whole coordinates are counter-clockwise. *)
Lemma whole_oriented : forall zs s r, sim zs s r -> oriented r -> forall t, In t (tr_tris r) -> 0 <= tcr r t.
Proof.
  intros zs s r S O t Ht. assert (He := epsR_lt1).
  destruct (sm_tin _ _ _ S t) as (I0 & I1 & I2); [rewrite (sm_tris _ _ _ S); auto|].
  assert (AR := area_R zs s r _ _ _ S I0 I1 I2). set (k := zcross _ _ _) in *.
  change (tr_area3 r (nth 0 t 0%nat) (nth 1 t 0%nat) (nth 2 t 0%nat)) with (tcr r t) in AR. rewrite AR.
  apply (IZR_le 0). destruct (Z_lt_ge_dec k 0) as [L|G]; [|lia]. exfalso. assert (Q := IZR_le k (-1) ltac:(lia)).
  destruct O as [[H1 _]|(t0 & rest & H1 & H2 & H3)]; [rewrite H1 in Ht; exact Ht|].
  apply (Permutation_in _ H1) in Ht. destruct Ht as [->|Ht]; [rewrite AR in H2; lra|].
  specialize (H3 t Ht). rewrite AR in H3. lra.
Qed.

Lemma area_sim : forall zs s r, sim zs s r -> oriented r -> tr_hullArea r <= 4503599627370496 ->
  dbl (tr_hullArea s) /\ fval (tr_hullArea s) = tr_hullArea r.
Proof.
  intros zs s r S O B. rewrite hullArea_sum in *.
  destruct (sum_sim zs s r S (tr_tris s) n0 0) as (w & [D V] & W2 & W3); auto; try lia.
  - intros t Ht. apply (whole_oriented zs s r S O). rewrite <- (sm_tris _ _ _ S). auto.
  - apply wh_zero.
  - rewrite (sm_tris _ _ _ S). lra.
  - rewrite Rplus_0_l, (sm_tris _ _ _ S) in W2. rewrite <- W2 in *. unfold tr_hullArea. set (f := fold_left _ _ _) in *. destruct half_val as [HD HV].
    assert (WB : (w <= 2 ^ 53)%Z). { apply le_IZR. change (IZR (2 ^ 53)) with 9007199254740992. lra. }
    assert (W0 := IZR_le 0 w W3).
    destruct (f_mul f nhalf D HD) as [D1 V1].
    { rewrite V, HV. rewrite Rabs_pos_eq by lra. apply Rle_trans with (bpow radix2 53); [change (bpow radix2 53) with 9007199254740992; lra|apply bpow_le; lia]. }
    split; auto. rewrite V1, V, HV, half_Z by lia. field.
Qed.

(** ** Points with whole coordinates are separated *)
Lemma rpt_inj : forall x y, rpt x = rpt y -> x = y.
Proof. intros [x1 x2] [y1 y2] E. injection E as E1 E2. apply eq_IZR in E1, E2. subst. reflexivity. Qed.

Lemma NoDup_rpt : forall l, NoDup l -> NoDup (map rpt l).
Proof.
  induction 1 as [|x l NI ND IH]; cbn [map]; constructor; auto.
  intros I. apply in_map_iff in I. destruct I as (y & E & I). apply rpt_inj in E. subst. contradiction.
Qed.

Lemma whole_dist : forall a b, a = b \/ 1 <= sqdist (rpt a) (rpt b).
Proof.
  intros [a1 a2] [b1 b2].
  assert (D : (a1, a2) = (b1, b2) \/ (b1 - a1 <> 0 \/ b2 - a2 <> 0)%Z).
  { destruct (Z.eq_dec b1 a1) as [->|]; [|right; lia]. destruct (Z.eq_dec b2 a2) as [->|]; [left; reflexivity|right; lia]. }
  destruct D as [D|D]; [left; auto|right].
  replace (sqdist _ _) with (IZR ((b1 - a1) * (b1 - a1) + (b2 - a2) * (b2 - a2))) by (unfold sqdist, rpt; cbn [fst snd]; rewrite plus_IZR, !mult_IZR, !minus_IZR; ring).
  apply (IZR_le 1). generalize dependent (b1 - a1)%Z. generalize (b2 - a2)%Z. intros u v [D|D].
  - assert (1 <= v * v)%Z by (destruct (Z.lt_ge_cases v 0); nia). nia.
  - assert (1 <= u * u)%Z by (destruct (Z.lt_ge_cases u 0); nia). nia.
Qed.

Lemma cr_rpt : forall a b c, cr (rpt a) (rpt b) (rpt c) = IZR (zcross a b c).
Proof. intros. unfold cr, zcross, rpt. cbn [fst snd]. rewrite !minus_IZR, !mult_IZR, !minus_IZR. ring. Qed.

Lemma whole_cr : forall a b c, cr (rpt a) (rpt b) (rpt c) = 0 \/ 1 <= Rabs (cr (rpt a) (rpt b) (rpt c)).
Proof.
  intros. rewrite cr_rpt. destruct (Z.eq_dec (zcross a b c) 0) as [->|N]; [left; reflexivity|right].
  rewrite <- abs_IZR. apply (IZR_le 1). lia.
Qed.

Lemma whole_separated : forall l, separated epsR (map rpt l).
Proof.
  intros l. assert (He := epsR_lt1). split.
  - intros a b Ha Hb. apply in_map_iff in Ha, Hb. destruct Ha as (a' & <- & _), Hb as (b' & <- & _).
    destruct (whole_dist a' b') as [->|Q]; [left; reflexivity|right; lra].
  - intros a b c Ha Hb Hc. apply in_map_iff in Ha, Hb, Hc. destruct Ha as (a' & <- & _), Hb as (b' & <- & _), Hc as (c' & <- & _).
    destruct (whole_cr a' b' c') as [->|Q]; [left; reflexivity|right; lra].
Qed.

(** ** A polygon is not larger than a box around it *)
Lemma area_square : forall M, 0 <= M -> has_area (fun p => - M <= fst p <= M /\ - M <= snd p <= M) (4 * (M * M)).
Proof.
  intros M HM. exists [], (fun x => if Rlt_dec x (- M) then 0 else if Rlt_dec M x then 0 else 2 * M), (- M), M.
  split; [lra|]. split; [intros p Hp; apply Hp|]. split.
  - intros x. right. destruct (Rlt_dec x (- M)); [left; split; auto; cbn [fst snd]; intros; lra|].
    destruct (Rlt_dec M x); [left; split; auto; cbn [fst snd]; intros; lra|]. right. exists (- M), M. cbn [fst snd].
    split; [lra|]. split; [lra|]. intros; lra.
  - apply (is_RInt_ext (fun _ : R => 2 * M)).
    + intros x Hx. rewrite Rmin_left, Rmax_right in Hx by lra. destruct (Rlt_dec x (- M)); [lra|]. destruct (Rlt_dec M x); [lra|reflexivity].
    + replace (4 * (M * M)) with (scal (M - - M) (2 * M)) by (unfold scal; cbn; unfold mult; cbn; ring). apply (is_RInt_const (V := R_NormedModule)).
Qed.

Lemma strict_box : forall P M, 0 < M -> strict_ccw P -> (forall p, In p P -> - M <= fst p <= M /\ - M <= snd p <= M) -> polygon_area P <= 4 * (M * M).
Proof.
  intros P M HM SC B.
  apply (area_mono (fun p => - M <= fst p <= M /\ - M <= snd p <= M) (in_hull P)); [|apply area_square; lra|apply area_polygon; auto].
  intros p Hp.
  assert (H1 := hull_cr P (- M, - M) (M, - M) p Hp). assert (H2 := hull_cr P (M, M) (- M, M) p Hp).
  assert (H3 := hull_cr P (M, - M) (M, M) p Hp). assert (H4 := hull_cr P (- M, M) (- M, - M) p Hp).
  unfold cr in *. cbn [fst snd] in *.
  assert (Q1 : 0 <= snd p + M). { apply (Rmult_le_reg_l (2 * M)); [lra|]. assert (K : forall q, In q P -> 0 <= (M - - M) * (snd q - - M) - (- M - - M) * (fst q - - M)).
    { intros q Hq. destruct (B q Hq). assert (0 <= (2 * M) * (snd q + M)) by (apply Rmult_le_pos; lra). lra. } specialize (H1 K). lra. }
  assert (Q2 : 0 <= M - snd p). { apply (Rmult_le_reg_l (2 * M)); [lra|]. assert (K : forall q, In q P -> 0 <= (- M - M) * (snd q - M) - (M - M) * (fst q - M)).
    { intros q Hq. destruct (B q Hq). assert (0 <= (2 * M) * (M - snd q)) by (apply Rmult_le_pos; lra). lra. } specialize (H2 K). lra. }
  assert (Q3 : 0 <= M - fst p). { apply (Rmult_le_reg_l (2 * M)); [lra|]. assert (K : forall q, In q P -> 0 <= (M - M) * (snd q - - M) - (M - - M) * (fst q - M)).
    { intros q Hq. destruct (B q Hq). assert (0 <= (2 * M) * (M - fst q)) by (apply Rmult_le_pos; lra). lra. } specialize (H3 K). lra. }
  assert (Q4 : 0 <= fst p + M). { apply (Rmult_le_reg_l (2 * M)); [lra|]. assert (K : forall q, In q P -> 0 <= (- M - - M) * (snd q - M) - (- M - M) * (fst q - - M)).
    { intros q Hq. destruct (B q Hq). assert (0 <= (2 * M) * (fst q + M)) by (apply Rmult_le_pos; lra). lra. } specialize (H4 K). lra. }
  lra.
Qed.

Lemma whole_box : forall P, (forall q, In q P -> (Z.abs (fst q) <= 2 ^ 25 /\ Z.abs (snd q) <= 2 ^ 25)%Z) -> strict_ccw (map rpt P) ->
  polygon_area (map rpt P) <= 4503599627370496.
Proof.
  intros P B SC. replace 4503599627370496 with (4 * (33554432 * 33554432)) by lra. apply strict_box; [lra|auto|].
  intros p Hp. apply in_map_iff in Hp. destruct Hp as (q & <- & Hq). destruct (B q Hq) as [B1 B2]. change (2 ^ 25)%Z with 33554432%Z in *. unfold rpt. cbn [fst snd].
  assert (forall z, (Z.abs z <= 33554432)%Z -> -33554432 <= IZR z <= 33554432); [|auto].
  intros z Hz. assert (Q1 := IZR_le z 33554432 ltac:(lia)). assert (Q2 := IZR_le (-33554432) z ltac:(lia)). lra.
Qed.

(** ** The results *)
Theorem hull_area_F : forall srt junk n ps zs P, (forall lt l, Permutation (srt lt l) l) -> (n <= length ps)%nat -> Forall2 wp ps zs ->
  (forall q, In q (firstn n zs) <-> In q P) -> convex_ccw (map rpt P) -> NoDup P -> not_flat (map rpt P) -> polygon_area (map rpt P) <= 4503599627370496 ->
  let s := tr_new (T := spec_float) srt junk n ps in
  dbl (tr_hullArea s) /\ fval (tr_hullArea s) = polygon_area (map rpt P) /\ (NoDup (firstn n zs) -> tr_oob s = false).
Proof.
  intros srt junk n ps zs P SRT Hn F HP CV ND NF AB s.
  destruct (new_sim srt junk (fun _ => origin) n ps zs SRT Hn F) as (srt' & SRT' & SIM).
  assert (LZ : length ps = length zs) by (eapply Forall2_length; eauto).
  destruct (hull_area srt' (fun _ => origin) n (map rpt zs) (map rpt P)) as (A1 & A2 & A3); auto using NoDup_rpt, whole_separated.
  - rewrite map_length. lia.
  - intros p. rewrite firstn_map, !in_map_iff. split; intros (q & E & I); exists q; split; auto; apply HP; auto.
  - destruct (SIM A3) as (ws & S). fold s in S.
    destruct (area_sim ws s _ S (tr_new_oriented _ _ _ _)) as [D V]; [rewrite A1; auto|].
    split; auto. split; [congruence|]. intros N. rewrite (sm_oob _ _ _ S). apply A2. rewrite firstn_map. apply NoDup_rpt. auto.
Qed.

Theorem general_hull_F : forall srt junk n ps zs H, (forall lt l, Permutation (srt lt l) l) -> (3 <= n <= length ps)%nat -> Forall2 wp ps zs ->
  NoDup (firstn n zs) ->
  (forall a b c, In a (firstn n zs) -> In b (firstn n zs) -> In c (firstn n zs) -> a <> b -> a <> c -> b <> c -> cr (rpt a) (rpt b) (rpt c) <> 0) ->
  (2 <= length H)%nat -> is_hull (map rpt H) (map rpt (firstn n zs)) ->
  let s := tr_new (T := spec_float) srt junk n ps in
  tr_oob s = false /\ ((n <= 4)%nat -> dbl (tr_hullArea s) /\ fval (tr_hullArea s) = polygon_area (map rpt H)).
Proof.
  intros srt junk n ps zs H SRT Hn F ND GEN LH HU s. assert (He := epsR_lt1).
  destruct (new_sim srt junk (fun _ => origin) n ps zs SRT ltac:(lia) F) as (srt' & SRT' & SIM).
  assert (LZ : length ps = length zs) by (eapply Forall2_length; eauto).
  destruct (general_hull srt' (fun _ => origin) n (map rpt zs) (map rpt H)) as (A0 & A1 & A2 & A3); auto; rewrite ?firstn_map, ?map_length; auto using NoDup_rpt; try lia.
  - intros a b Ha Hb N. apply in_map_iff in Ha, Hb. destruct Ha as (a' & <- & _), Hb as (b' & <- & _).
    destruct (whole_dist a' b') as [->|Q]; [contradiction|lra].
  - intros a b c Ha Hb Hc N1 N2 N3. apply in_map_iff in Ha, Hb, Hc. destruct Ha as (a' & <- & Ha), Hb as (b' & <- & Hb), Hc as (c' & <- & Hc).
    destruct (whole_cr a' b' c') as [Q|Q]; [|lra]. exfalso. revert Q. apply GEN; auto; congruence.
  - destruct (SIM A3) as (ws & S). fold s in S. split; [rewrite (sm_oob _ _ _ S); exact A2|]. intros N4. specialize (A1 N4).
    destruct (area_sim ws s _ S (tr_new_oriented _ _ _ _)) as [D V]; [|split; auto; congruence].
    rewrite A1. destruct HU as (CV & NDH & INC & _).
    assert (IN : forall q, In q H -> In q (firstn n zs)).
    { intros q Hq. assert (I := INC (rpt q) (in_map rpt H q Hq)). apply in_map_iff in I. destruct I as (q' & E & I). apply rpt_inj in E. subst. auto. }
    apply whole_box.
    + intros q Hq. assert (I := IN q Hq). clear - I F. revert n I. induction F as [|p z ps zs W F IH]; intros n I; destruct n; cbn [firstn] in I; try contradiction.
      destruct I as [<-|I]; [|eapply IH; eauto]. destruct W as (_ & _ & B1 & B2). auto.
    + intros i j k L Hk. assert (C := CV i j k L Hk). rewrite map_length in Hk.
      assert (NE : forall x y, (x < length H)%nat -> (y < length H)%nat -> x <> y -> nth x H (0, 0)%Z <> nth y H (0, 0)%Z).
      { intros x y Hx Hy N E. apply N. apply NoDup_map_inv in NDH. eapply NoDup_nth; eauto. }
      assert (NP : forall x, (x < length H)%nat -> nthp (map rpt H) x = rpt (nth x H (0, 0)%Z)).
      { intros x Hx. unfold nthp. change origin with (rpt (0, 0)%Z). apply map_nth. }
      rewrite !NP in * by lia. assert (Q := GEN (nth i H (0, 0)%Z) (nth j H (0, 0)%Z) (nth k H (0, 0)%Z)).
      assert (cr (rpt (nth i H (0, 0)%Z)) (rpt (nth j H (0, 0)%Z)) (rpt (nth k H (0, 0)%Z)) <> 0); [|lra].
      apply Q; try (apply IN, nth_In; lia); apply NE; lia.
Qed.

(** ** Runs that read nothing outside *)
Lemma firstLoop_own : forall fuel (s : trF) i0 i1 i2 a s' j0 j1 j2 a', tr_firstLoop fuel s i0 i1 i2 a = (s', (j0, j1, j2), a') -> (i2 < tr_size s)%nat ->
  tr_oob s' = false -> (j2 < tr_size s)%nat /\ tr_oob s = false.
Proof.
  induction fuel as [|fuel IH]; intros s i0 i1 i2 a s' j0 j1 j2 a' E L O; cbn [tr_firstLoop] in E; [injection E; intros; subst; auto|].
  destruct (_ && _); [|injection E; intros; subst; auto].
  set (is := [i0; i1; i2; fst (tr_extrema s i0 i1 i2); snd (tr_extrema s i0 i1 i2); Datatypes.S i2]) in *.
  destruct (Nat.lt_ge_cases (Datatypes.S i2) (tr_size s)) as [H|H].
  - destruct (IH _ _ _ _ _ _ _ _ _ _ E H O) as [Q1 Q2]. cbn [tr_flag tr_size tr_oob] in Q1, Q2. apply orb_false_elim in Q2. split; auto. apply Q2.
  - exfalso. assert (F : forall f (x : trF) k0 k1 k2 b x' l b', tr_firstLoop f x k0 k1 k2 b = (x', l, b') -> tr_oob x = true -> tr_oob x' = true).
    { clear. induction f as [|f IH]; intros x k0 k1 k2 b x' l b' E O; cbn [tr_firstLoop] in E; [injection E; intros; subst; auto|].
      destruct (_ && _); [|injection E; intros; subst; auto]. apply IH in E; auto. cbn [tr_flag tr_oob]. rewrite O. reflexivity. }
    apply F in E; [congruence|]. cbn [tr_flag tr_oob]. unfold tr_out, is. cbn [existsb].
    assert (X : (tr_size s <=? Datatypes.S i2)%nat = true) by (apply Nat.leb_le; auto). rewrite X. rewrite !orb_true_r. reflexivity.
Qed.

Lemma firstLoop_simF : forall fuel zs s r i0 i1 i2, sim zs s r -> (i0 < length zs)%nat -> (i1 < length zs)%nat ->
  forall s' j0 j1 j2 a', tr_firstLoop fuel s i0 i1 i2 (nabs (tr_area3 s i0 i1 i2)) = (s', (j0, j1, j2), a') -> (j2 < length zs)%nat ->
  exists r', tr_firstLoop fuel r i0 i1 i2 (nabs (tr_area3 r i0 i1 i2)) = (r', (j0, j1, j2), nabs (tr_area3 r j0 j1 j2)) /\ sim zs s' r' /\
    a' = nabs (tr_area3 s j0 j1 j2) /\ (j0 < length zs)%nat /\ (j1 < length zs)%nat.
Proof.
  induction fuel as [|fuel IH]; intros zs s r i0 i1 i2 S H0 H1 s' j0 j1 j2 a' E J.
  - cbn [tr_firstLoop] in *. injection E as <- <- <- <- <-. exists r. auto 10.
  - assert (G : (i2 <= j2)%nat).
    { revert E. clear. generalize (nabs (tr_area3 s i0 i1 i2)). revert s i0 i1 i2. generalize (Datatypes.S fuel). induction n as [|n IH]; intros s i0 i1 i2 a E; cbn [tr_firstLoop] in E; [injection E; intros; subst; lia|].
      destruct (_ && _); [apply IH in E; lia|injection E; intros; subst; lia]. }
    cbn [tr_firstLoop] in *.
    rewrite (F_abs _ _ (area_F zs s r i0 i1 i2 S H0 H1 ltac:(lia))) in E. rewrite (R_abs _ _ (area_R zs s r i0 i1 i2 S H0 H1 ltac:(lia))).
    rewrite <- (sm_size _ _ _ S). destruct ((i2 <? tr_size s)%nat && _).
    + destruct (extrema_sim zs s r i0 i1 i2 S H0 H1 ltac:(lia)) as (X1 & X2 & X3). rewrite X1 in E.
      set (e := tr_extrema r i0 i1 i2) in *.
      assert (S' := flag_sim zs s r [i0; i1; i2; fst e; snd e; Datatypes.S i2] S). set (is := [i0; i1; i2; fst e; snd e; Datatypes.S i2]) in *.
      destruct (IH zs _ _ (fst e) (snd e) (Datatypes.S i2) S' X2 X3 s' j0 j1 j2 a' E J) as (r' & Q1 & Q2 & Q3 & Q4 & Q5).
      exists r'. exact (conj Q1 (conj Q2 (conj Q3 (conj Q4 Q5)))).
    + injection E as <- <- <- <- <-. exists r. auto 10.
Qed.

Lemma makeFirst_simF : forall zs s r, sim zs s r -> (tr_size r <= length zs)%nat -> tr_oob (fst (tr_makeFirst s)) = false ->
  sim zs (fst (tr_makeFirst s)) (fst (tr_makeFirst r)) /\ snd (tr_makeFirst s) = snd (tr_makeFirst r).
Proof.
  intros zs s r S L. unfold tr_makeFirst. rewrite <- (sm_size _ _ _ S) in *. destruct (tr_size s <? 3)%nat eqn:Z3; [cbn; auto|].
  apply Nat.ltb_ge in Z3.
  destruct (tr_firstLoop (Datatypes.S (tr_size s)) s 0 1 2 (nabs (tr_area3 s 0 1 2))) as [[s' [[j0 j1] j2]] a'] eqn:E. intros H.
  assert (OB : tr_oob s' = false).
  { destruct (nlt a' tr_eps); [exact H|]. destruct (if nlt (tr_area3 s' j0 j1 j2) _ then (j2, j1) else (j1, j2)) in H. exact H. }
  destruct (firstLoop_own _ _ _ _ _ _ _ _ _ _ _ E ltac:(lia) OB) as [J _]. assert (J' : (j2 < length zs)%nat) by lia.
  destruct (firstLoop_simF _ zs s r 0 1 2 S ltac:(lia) ltac:(lia) s' j0 j1 j2 a' E J') as (r' & Q1 & Q2 & -> & Q4 & Q5).
  rewrite Q1. clear H.
  assert (A1 := area_F zs s r j0 j1 j2 S Q4 Q5 J'). assert (A2 := area_R zs s r j0 j1 j2 S Q4 Q5 J').
  rewrite (F_abs _ _ A1), (R_abs _ _ A2).
  assert (B1 := area_F zs s' r' j0 j1 j2 Q2 Q4 Q5 J'). assert (B2 := area_R zs s' r' j0 j1 j2 Q2 Q4 Q5 J').
  rewrite (F_neg _ _ B1), (R_neg _ _ B2).
  destruct (_ =? 0)%Z; [cbn; auto|].
  destruct Q2 as [S1 S2 S3 S4 S5 S6 S7 S8].
  destruct (_ <? 0)%Z; cbn [fst snd]; (split; [|reflexivity]); constructor; cbn [tr_buf tr_size tr_edges tr_tris tr_oob]; auto;
    try (rewrite S4; reflexivity); try (rewrite S5; reflexivity);
    try (intros e He; apply set_insert_in in He; destruct He as [->|He]; [cbn; auto|];
         apply set_insert_in in He; destruct He as [->|He]; [cbn; auto|];
         apply set_insert_in in He; destruct He as [->|He]; [cbn; auto|]; apply S7; exact He);
    (intros t Ht; apply set_insert_in in Ht; destruct Ht as [->|Ht]; [cbn [nth]; auto|apply S8; exact Ht]).
Qed.

Lemma addPoints_oob : forall l (s : trF), tr_oob (fold_left tr_addPoint l s) = false -> tr_oob s = false.
Proof.
  induction l as [|i l IH]; intros s H; cbn [fold_left] in H; auto. apply IH in H. unfold tr_addPoint in H. cbn [tr_oob] in H. apply orb_false_elim in H. apply H.
Qed.

Theorem new_simF : forall srt junk n ps zs, (forall lt l, Permutation (srt lt l) l) -> (n <= length ps)%nat -> Forall2 wp ps zs ->
  tr_oob (tr_new (T := spec_float) srt junk n ps) = false ->
  exists srt' ws, (forall lt l, Permutation (srt' lt l) l) /\ sim ws (tr_new (T := spec_float) srt junk n ps) (tr_new (T := R) srt' (fun _ => origin) n (map rpt zs)).
Proof.
  intros srt junk n ps zs SRT Hn F.
  set (inds := srt (closer (gravity n ps) ps) (seq 0 n)).
  assert (PI : Permutation inds (seq 0 n)) by apply SRT.
  assert (LZ : length ps = length zs) by (eapply Forall2_length; eauto).
  assert (IB : forall i, In i inds -> (i < length zs)%nat).
  { intros i Hi. apply (Permutation_in _ PI) in Hi. apply in_seq in Hi. lia. }
  rewrite !tr_new_start. cbv zeta. intros H. apply addPoints_oob in H.
  exists (as_sort n inds). rewrite !tr_new_start. cbv zeta.
  set (r0 := tr_start (as_sort n inds) (fun _ => origin) n (map rpt zs)) in *. set (s0 := tr_start srt junk n ps) in *.
  set (so := map (fun i => zat zs i) inds).
  set (sF := map (fun i => nth i ps pt0) inds).
  assert (SF : Forall2 wp sF so) by (apply F2_map_nth; auto).
  assert (SR : map (fun i => nth i (map rpt zs) pt0) (as_sort n inds (closer (gravity n (map rpt zs)) (map rpt zs)) (seq 0 n)) = map rpt so).
  { unfold as_sort. destruct (list_eq_dec _ _ _) as [_|N]; [|contradiction]. unfold so. rewrite map_map. apply map_ext_in. intros i Hi.
    change (pt0 : point) with (rpt (0, 0)%Z). apply map_nth. }
  destruct (remove_sim _ _ SF) as (ks & K1 & K2).
  assert (LF : length (remove_degenerate sF) = length ks) by exact (Forall2_length _ _ _ K1).
  assert (LKS : length (map rpt ks) = length ks) by apply map_length.
  set (ws := ks ++ skipn (length ks) so).
  assert (S0 : sim ws s0 r0 /\ (tr_size r0 <= length ws)%nat).
  { split.
    - constructor; try reflexivity.
      + change (Forall2 wp (remove_degenerate sF ++ skipn (length (remove_degenerate sF)) sF) ws). rewrite LF. apply F2_app; auto. apply F2_skipn. auto.
      + unfold r0, tr_start. cbn [tr_buf]. change (@pt R) with point. rewrite SR, K2, LKS. unfold ws. rewrite map_app, skipn_map. reflexivity.
      + change (tr_size s0) with (length (remove_degenerate sF)). unfold r0, tr_start. cbn [tr_size]. change (@pt R) with point. rewrite SR, K2, LF, LKS. reflexivity.
      + intros e [].
      + intros t [].
    - unfold r0, tr_start. cbn [tr_size]. change (@pt R) with point. rewrite SR, K2, LKS. unfold ws. rewrite app_length. lia. }
  destruct S0 as (S0 & L0).
  assert (LW : (n <= length ws)%nat).
  { unfold ws. rewrite app_length, skipn_length. assert (length so = n) by (unfold so; rewrite map_length, (Permutation_length PI), seq_length; reflexivity). lia. }
  destruct (makeFirst_simF ws s0 r0 S0 L0 H) as [M1 M2]. rewrite M2. exists ws. split; [apply as_sort_perm; auto|].
  apply addPoints_sim; auto. intros i Hi. apply in_seq in Hi. lia.
Qed.

(** Every triangle has a whole doubled area of at least 1. *)
Lemma whole_tris : forall zs s r, sim zs s r -> oriented r -> forall t, In t (tr_tris s) ->
  exists k, wh (tr_area3 s (nth 0 t 0%nat) (nth 1 t 0%nat) (nth 2 t 0%nat)) k /\ (1 <= k <= 2 ^ 53)%Z /\ tcr r t = IZR k.
Proof.
  intros zs s r S O t Ht. assert (He := epsR_lt1). destruct (sm_tin _ _ _ S t Ht) as (I0 & I1 & I2).
  assert (AF := area_F zs s r _ _ _ S I0 I1 I2). assert (AR := area_R zs s r _ _ _ S I0 I1 I2).
  assert (B : (zcross (zat zs (nth 0 t 0%nat)) (zat zs (nth 1 t 0%nat)) (zat zs (nth 2 t 0%nat)) <= 2 ^ 53)%Z).
  { destruct (pt_F zs s r _ S I0) as (_ & _ & P1 & P2). destruct (pt_F zs s r _ S I1) as (_ & _ & P3 & P4). destruct (pt_F zs s r _ S I2) as (_ & _ & P5 & P6).
    set (a := zat zs (nth 0 t 0%nat)) in *. set (b := zat zs (nth 1 t 0%nat)) in *. set (c := zat zs (nth 2 t 0%nat)) in *. unfold zcross.
    assert (B1 := prod_bound (fst b - fst a) (snd c - snd a) ltac:(lia) ltac:(lia)).
    assert (B2 := prod_bound (snd b - snd a) (fst c - fst a) ltac:(lia) ltac:(lia)). lia. }
  set (k := zcross _ _ _) in *. change (tr_area3 r (nth 0 t 0%nat) (nth 1 t 0%nat) (nth 2 t 0%nat)) with (tcr r t) in AR.
  exists k. split; auto. split; auto. split; [|exact B].
  destruct (Z_lt_ge_dec k 1) as [L|G]; [|lia]. exfalso.
  rewrite (sm_tris _ _ _ S) in Ht.
  destruct O as [[H1 _]|(t0 & rest & H1 & H2 & H3)]; [rewrite H1 in Ht; exact Ht|].
  assert (Q : (k = 0 \/ k <= -1)%Z) by lia.
  assert (Q' : IZR k = 0 \/ IZR k <= -1) by (destruct Q as [-> |Q]; [left; reflexivity|right; apply (IZR_le k (-1)); auto]).
  apply (Permutation_in _ H1) in Ht. destruct Ht as [->|Ht]; [rewrite AR in H2; lra|].
  specialize (H3 t Ht). rewrite AR in H3. lra.
Qed.

(** The sum stays below the number of triangles times 2^53. *)
Lemma sum_nonneg : forall (areas : list spec_float) acc c, (forall a, In a areas -> exists k, wh a k /\ (1 <= k <= 2 ^ 53)%Z) ->
  dbl acc -> 0 <= fval acc <= IZR c * 9007199254740992 -> (0 <= c)%Z -> (c + Z.of_nat (length areas) <= 2 ^ 53)%Z ->
  dbl (fold_left nadd areas acc) /\ 0 <= fval (fold_left nadd areas acc) <= IZR (c + Z.of_nat (length areas)) * 9007199254740992.
Proof.
  induction areas as [|a areas IH]; intros acc c H D B C0 CB; cbn [fold_left length].
  - split; auto. rewrite Z.add_0_r. auto.
  - destruct (H a (or_introl eq_refl)) as (k & [Da Va] & Hk).
    assert (K1 := IZR_le 1 k ltac:(lia)). assert (K2 : IZR k <= 9007199254740992) by (apply (IZR_le k (2 ^ 53)); lia).
    cbn [length] in CB. assert (CZ := IZR_le 0 c C0).
    assert (E53 : 9007199254740992 = bpow radix2 53) by reflexivity.
    assert (C1 : IZR (c + 1) <= 9007199254740992) by (apply (IZR_le (c + 1) (2 ^ 53)); lia). rewrite plus_IZR in C1.
    assert (BB : fval acc + fval a <= IZR (c + 1) * 9007199254740992) by (rewrite Va, plus_IZR; lra).
    destruct (f_add acc a D Da) as [D1 V1].
    { rewrite Rabs_pos_eq by lra. apply Rle_trans with (bpow radix2 (53 + 53)); [rewrite bpow_plus, <- E53|apply bpow_le; lia].
      rewrite plus_IZR in BB. apply Rle_trans with ((IZR c + 1) * 9007199254740992); [lra|]. apply Rmult_le_compat_r; lra. }
    destruct (IH (nadd acc a) (c + 1)%Z) as [R1 R2]; auto; try lia.
    + intros x Hx. apply H. right. auto.
    + rewrite V1. split.
      * assert (Q : rnd 0 <= rnd (fval acc + fval a)) by (apply rnd_le; lra). rewrite (rnd_Z 0) in Q by lia. exact Q.
      * assert (G : generic_format radix2 (SpecFloat.fexp fprec femax) (IZR (c + 1) * 9007199254740992)).
        { rewrite E53. destruct (Z.eq_dec (c + 1) (2 ^ 53)) as [-> |N].
          - change (IZR (2 ^ 53)) with (bpow radix2 53). rewrite <- bpow_plus. apply generic_format_bpow. unfold SpecFloat.fexp, fprec, femax, emin. lia.
          - change (IZR (c + 1) * bpow radix2 53) with (F2R (Float radix2 (c + 1) 53)). apply generic_format_FLT. exists (Float radix2 (c + 1) 53); [reflexivity| |unfold emin, fprec, femax; simpl; lia].
            simpl Fnum. change (radix2 ^ fprec)%Z with (2 ^ 53)%Z. lia. }
        apply Rle_trans with (rnd (IZR (c + 1) * 9007199254740992)); [apply rnd_le; auto|]. right. apply round_generic; [auto with typeclass_instances|exact G].
    + split; auto. replace (c + Z.of_nat (Datatypes.S (length areas)))%Z with (c + 1 + Z.of_nat (length areas))%Z by lia. auto.
Qed.

(** A vertex as an exact point. *)
Definition vpt (p : spec_float * spec_float) : R * R := (fval (fst p), fval (snd p)).

Lemma vpt_sim : forall zs s r i, sim zs s r -> (i < length zs)%nat -> vpt (tr_pt s i) = tr_pt r i.
Proof.
  intros zs s r i S Hi. rewrite (pt_R zs s r i S Hi). destruct (pt_F zs s r i S Hi) as ([_ A] & [_ B] & _). unfold vpt, rpt. rewrite A, B. reflexivity.
Qed.

Theorem nonnegative_F : forall srt junk n ps zs, (forall lt l, Permutation (srt lt l) l) -> (n <= length ps)%nat -> Forall2 wp ps zs ->
  let s := tr_new (T := spec_float) srt junk n ps in
  tr_oob s = false ->
  (forall t, In t (tr_tris s) -> let v i := vpt (tr_pt s (nth i t 0%nat)) in
     1 <= cr (v 0%nat) (v 1%nat) (v 2%nat) /\ fval (tr_area3 s (nth 0 t 0%nat) (nth 1 t 0%nat) (nth 2 t 0%nat)) = cr (v 0%nat) (v 1%nat) (v 2%nat)) /\
  ((Z.of_nat (length (tr_tris s)) <= 2 ^ 53)%Z -> dbl (tr_hullArea s) /\ 0 <= fval (tr_hullArea s)).
Proof.
  intros srt junk n ps zs SRT Hn F s OB. destruct (new_simF srt junk n ps zs SRT Hn F OB) as (srt' & ws & _ & S). fold s in S.
  assert (O := tr_new_oriented srt' (fun _ => origin) n (map rpt zs)). assert (W := whole_tris ws s _ S O). split.
  - intros t Ht. destruct (W t Ht) as (k & [_ K1] & [K2 _] & K3). cbv zeta. destruct (sm_tin _ _ _ S t Ht) as (I0 & I1 & I2).
    rewrite !(vpt_sim ws s _ _ S) by auto. rewrite K1, <- K3. apply (IZR_le 1) in K2. rewrite <- K3 in K2. split; [exact K2|reflexivity].
  - intros C. unfold tr_hullArea.
    assert (E : forall ts acc, fold_left (fun a t => nadd a (tr_area3 s (nth 0 t 0%nat) (nth 1 t 0%nat) (nth 2 t 0%nat))) ts acc =
       fold_left nadd (map (fun t => tr_area3 s (nth 0 t 0%nat) (nth 1 t 0%nat) (nth 2 t 0%nat)) ts) acc) by (induction ts; intros; simpl; auto).
    rewrite E. destruct wh_zero as [Dz Vz].
    destruct (sum_nonneg (map (fun t => tr_area3 s (nth 0 t 0%nat) (nth 1 t 0%nat) (nth 2 t 0%nat)) (tr_tris s)) n0 0) as [D V]; auto; try lia.
    + intros a Ha. apply in_map_iff in Ha. destruct Ha as (t & <- & Ht). destruct (W t Ht) as (k & K1 & K2 & _). exists k. auto.
    + rewrite Vz. lra.
    + rewrite map_length. lia.
    + rewrite map_length, Z.add_0_l in V. set (f := fold_left _ _ _) in *. destruct half_val as [HD HV].
      assert (CB : IZR (Z.of_nat (length (tr_tris s))) <= 9007199254740992) by (apply (IZR_le _ (2 ^ 53)); auto).
      assert (C0 := IZR_le 0 _ (Nat2Z.is_nonneg (length (tr_tris s)))).
      assert (VB : fval f <= bpow radix2 106).
      { apply Rle_trans with (9007199254740992 * 9007199254740992); [|right; change 106%Z with (53 + 53)%Z; rewrite bpow_plus; reflexivity].
        eapply Rle_trans; [apply V|]. apply Rmult_le_compat_r; lra. }
      destruct (f_mul f nhalf D HD) as [D1 V1].
      { rewrite HV, Rabs_pos_eq by lra. apply Rle_trans with (bpow radix2 106); [lra|apply bpow_le; lia]. }
      split; auto. rewrite V1. assert (Q : rnd 0 <= rnd (fval f * fval nhalf)) by (apply rnd_le; rewrite HV; lra). rewrite (rnd_Z 0) in Q by lia. exact Q.
Qed.
