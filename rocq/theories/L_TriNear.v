(** The triangulation in IEEE double arithmetic takes the steps of the run in exact arithmetic whenever the
    comparisons agree, and the area reported is then close to the area of the polygon. *)
From Coq Require Import ZArith List Bool Lia Reals Lra Permutation Floats.SpecFloat.
From Flocq Require Import Core BinarySingleNaN.
From Verif Require Import Base Num NumR NumF L_Float L_FloatOps L_FindPointF M_Triangulate S_Geometry S_Quad S_Area L_Area L_Polygon
  L_AreaPolygon L_Triangulate L_HullGen L_TriangulateF L_QuadBoxF L_ResidualF.
Import ListNotations.
Open Scope R_scope.

Notation trF := (tri (T := spec_float)).

Lemma cr_cycle3 : forall a b c, cr b c a = cr a b c.
Proof. intros. unfold cr. ring. Qed.

Section Sim.
(** Doubles that stand for a point. *)
Variable near : spec_float * spec_float -> point -> Prop.
Hypothesis near_neg : forall p q r a b c, near p a -> near q b -> near r c ->
  nlt (cross p q r) (nopp tr_eps) = nlt (cross (T := R) a b c) (nopp tr_eps).
Hypothesis near_abs : forall p q r a b c, near p a -> near q b -> near r c ->
  nlt (nabs (cross p q r)) tr_eps = nlt (nabs (cross (T := R) a b c)) tr_eps.
Hypothesis near_dot : forall p q r a b c, near p a -> near q b -> near r c -> nlt (nabs (cross (T := R) a b c)) tr_eps = true ->
  nlt tr_eps (dot_at p q r) = nlt tr_eps (dot_at (T := R) a b c).
Hypothesis near_dist : forall p q a b, near p a -> near q b -> nlt tr_eps (dist_sq p q) = nlt tr_eps (dist_sq (T := R) a b).

(** ** The points kept *)
Lemma keep_sim : forall ps zs, Forall2 near ps zs -> forall b a, near b a ->
  exists ks, Forall2 near (keep_distinct b ps) ks /\ keep_distinct (T := R) a zs = ks.
Proof.
  induction 1 as [|p z ps zs W F IH]; intros b a B; cbn [keep_distinct].
  - exists []. split; constructor.
  - rewrite (near_dist _ _ _ _ B W). destruct (nlt tr_eps (dist_sq a z)).
    + destruct (IH p z W) as (ks & K1 & K2). exists (z :: ks). split; [constructor; auto|]. rewrite K2. reflexivity.
    + apply IH; auto.
Qed.

Lemma remove_sim : forall ps zs, Forall2 near ps zs ->
  exists ks, Forall2 near (remove_degenerate ps) ks /\ remove_degenerate (T := R) zs = ks.
Proof.
  intros ps zs [|p z ps' zs' W F]; cbn [remove_degenerate map].
  - exists []. split; constructor.
  - destruct (keep_sim ps' zs' F p z W) as (ks & K1 & K2). exists (z :: ks). split; [constructor; auto|]. rewrite K2. reflexivity.
Qed.

(** ** The two runs *)
Record sim (zs : list point) (s : trF) (r : trR) : Prop := {
  sm_F : Forall2 near (tr_buf s) zs;
  sm_R : tr_buf r = zs;
  sm_size : tr_size s = tr_size r;
  sm_edges : tr_edges s = tr_edges r;
  sm_tris : tr_tris s = tr_tris r;
  sm_oob : tr_oob s = tr_oob r;
  sm_ein : forall e, In e (tr_edges s) -> (fst (ends e) < length zs)%nat /\ (snd (ends e) < length zs)%nat;
  sm_tin : forall t, In t (tr_tris s) -> (nth 0 t 0 < length zs)%nat /\ (nth 1 t 0 < length zs)%nat /\ (nth 2 t 0 < length zs)%nat }.

Definition zat (zs : list point) i := nth i zs origin.

Lemma pt_F : forall zs s r i, sim zs s r -> (i < length zs)%nat -> near (tr_pt s i) (zat zs i).
Proof. intros zs s r i S Hi. unfold tr_pt, zat. apply (F2_nth near _ _ (sm_F _ _ _ S)). auto. Qed.

Lemma pt_R : forall zs s r i, sim zs s r -> (i < length zs)%nat -> tr_pt r i = zat zs i.
Proof.
  intros zs s r i S Hi. unfold tr_pt. rewrite (sm_R _ _ _ S). apply nth_indep. auto.
Qed.

Lemma area_neg : forall zs s r i j k, sim zs s r -> (i < length zs)%nat -> (j < length zs)%nat -> (k < length zs)%nat ->
  nlt (tr_area3 s i j k) (nopp tr_eps) = nlt (tr_area3 r i j k) (nopp tr_eps).
Proof. intros zs s r i j k S Hi Hj Hk. unfold tr_area3. rewrite !(pt_R zs s r) by auto. apply near_neg; eapply pt_F; eauto. Qed.

Lemma area_abs : forall zs s r i j k, sim zs s r -> (i < length zs)%nat -> (j < length zs)%nat -> (k < length zs)%nat ->
  nlt (nabs (tr_area3 s i j k)) tr_eps = nlt (nabs (tr_area3 r i j k)) tr_eps.
Proof. intros zs s r i j k S Hi Hj Hk. unfold tr_area3. rewrite !(pt_R zs s r) by auto. apply near_abs; eapply pt_F; eauto. Qed.

Lemma out_sim : forall zs s r is, sim zs s r -> tr_out s is = tr_out r is.
Proof. intros zs s r is S. unfold tr_out. rewrite (sm_size _ _ _ S). reflexivity. Qed.

Lemma visible_sim : forall zs s r ip e, sim zs s r -> (ip < length zs)%nat -> In e (tr_edges s) -> tr_visible s ip e = tr_visible r ip e.
Proof.
  intros zs s r ip e S Hi He. destruct (sm_ein _ _ _ S e He). unfold tr_visible.
  apply (area_neg zs); auto.
Qed.

Lemma addPoint_sim : forall zs s r ip, sim zs s r -> (ip < length zs)%nat -> sim zs (tr_addPoint s ip) (tr_addPoint r ip).
Proof.
  intros zs s r ip S Hi.
  assert (V : filter (tr_visible s ip) (tr_edges s) = filter (tr_visible r ip) (tr_edges r)).
  { rewrite <- (sm_edges _ _ _ S). apply filter_ext_in. intros e He. eapply visible_sim; eauto. }
  assert (W : filter (fun e => negb (tr_visible s ip e)) (tr_edges s) = filter (fun e => negb (tr_visible r ip e)) (tr_edges r)).
  { rewrite <- (sm_edges _ _ _ S). apply filter_ext_in. intros e He. f_equal. eapply visible_sim; eauto. }
  constructor; unfold tr_addPoint; cbn [tr_buf tr_size tr_edges tr_tris tr_oob].
  - apply (sm_F _ _ _ S).
  - apply (sm_R _ _ _ S).
  - apply (sm_size _ _ _ S).
  - rewrite V, W. reflexivity.
  - rewrite V, (sm_tris _ _ _ S). reflexivity.
  - rewrite (sm_oob _ _ _ S), (sm_edges _ _ _ S). f_equal. destruct (tr_edges r) eqn:E; auto. rewrite <- E. apply (out_sim zs); auto.
  - intros e He. apply (fold_insert_in (fun e => e)) in He. destruct He as [He|(e' & He & ->)].
    + apply filter_In in He. apply (sm_ein _ _ _ S). apply He.
    + apply in_flat_map in He. destruct He as (e & He & H). apply filter_In in He. destruct He as [He _].
      destruct (sm_ein _ _ _ S e He). destruct H as [<-|[<-|[]]]; cbn; auto.
  - intros t Ht. apply fold_insert_in in Ht. destruct Ht as [Ht|(e & He & ->)].
    + apply (sm_tin _ _ _ S). auto.
    + apply filter_In in He. destruct He as [He _]. destruct (sm_ein _ _ _ S e He). cbn [nth]. auto.
Qed.

Lemma addPoints_sim : forall l zs s r, sim zs s r -> (forall i, In i l -> (i < length zs)%nat) -> sim zs (fold_left tr_addPoint l s) (fold_left tr_addPoint l r).
Proof.
  induction l as [|i l IH]; intros zs s r S H; cbn [fold_left]; auto. apply IH; [|intros; apply H; simpl; auto].
  apply addPoint_sim; auto. apply H. simpl. auto.
Qed.

Lemma extrema_sim : forall zs s r i j k, sim zs s r -> (i < length zs)%nat -> (j < length zs)%nat -> (k < length zs)%nat ->
  nlt (nabs (tr_area3 r i j k)) tr_eps = true ->
  tr_extrema s i j k = tr_extrema r i j k /\ (fst (tr_extrema r i j k) < length zs)%nat /\ (snd (tr_extrema r i j k) < length zs)%nat.
Proof.
  intros zs s r i j k S Hi Hj Hk FL. unfold tr_extrema.
  assert (DF : forall a b c, (a < length zs)%nat -> (b < length zs)%nat -> (c < length zs)%nat -> nlt (nabs (tr_area3 r a b c)) tr_eps = true ->
    nlt tr_eps (dot_at (tr_pt s a) (tr_pt s b) (tr_pt s c)) = nlt tr_eps (dot_at (tr_pt r a) (tr_pt r b) (tr_pt r c))).
  { intros a b c Ha Hb Hc. unfold tr_area3. rewrite !(pt_R zs s r) by auto. apply near_dot; eapply pt_F; eauto. }
  assert (FL2 : nlt (nabs (tr_area3 r j k i)) tr_eps = true).
  { replace (tr_area3 r j k i) with (tr_area3 r i j k); [exact FL|]. unfold tr_area3. rewrite !cross_R. symmetry. apply cr_cycle3. }
  assert (ONE : nlt (tr_eps (T := spec_float)) n1 = nlt (tr_eps (T := R)) n1).
  { transitivity (0 <? 1)%Z; [apply F_pos; destruct one_val; split; auto|symmetry; apply (R_pos n1 1%Z); reflexivity]. }
  rewrite !DF, ONE by auto. split; [reflexivity|].
  clear ONE. destruct (nlt (T := R) tr_eps n1); [|cbn [fst snd]; lia]. destruct (nlt tr_eps (dot_at (tr_pt r i) _ _)); [|cbn [fst snd]; lia].
  destruct (nlt tr_eps (dot_at (tr_pt r j) _ _)); cbn [fst snd]; lia.
Qed.

(** Indices of the loop only grow. *)
Lemma flag_sim : forall zs s r is, sim zs s r -> sim zs (tr_flag s is) (tr_flag r is).
Proof.
  intros zs s r is S. destruct S as [S1 S2 S3 S4 S5 S6 S7 S8]. constructor; cbn; auto. rewrite S6. unfold tr_out. rewrite S3. reflexivity.
Qed.

Lemma firstLoop_sim : forall fuel zs s r i0 i1 i2, sim zs s r -> (i0 < length zs)%nat -> (i1 < length zs)%nat ->
  forall r' j0 j1 j2 a', tr_firstLoop fuel r i0 i1 i2 (nabs (tr_area3 r i0 i1 i2)) = (r', (j0, j1, j2), a') -> (j2 < length zs)%nat ->
  exists s', tr_firstLoop fuel s i0 i1 i2 (nabs (tr_area3 s i0 i1 i2)) = (s', (j0, j1, j2), nabs (tr_area3 s j0 j1 j2)) /\ sim zs s' r' /\
    a' = nabs (tr_area3 r j0 j1 j2) /\ (j0 < length zs)%nat /\ (j1 < length zs)%nat /\
    (forall i, tr_pt s' i = tr_pt s i) /\ (forall i, tr_pt r' i = tr_pt r i).
Proof.
  induction fuel as [|fuel IH]; intros zs s r i0 i1 i2 S H0 H1 r' j0 j1 j2 a' E J; assert (G := firstLoop_grows _ _ _ _ _ _ _ _ _ _ _ E);
    cbn [tr_firstLoop] in *.
  - injection E as <- <- <- <- <-. exists s. auto 10.
  - rewrite (area_abs zs s r i0 i1 i2 S H0 H1 ltac:(lia)).
    rewrite (sm_size _ _ _ S). destruct ((i2 <? tr_size r)%nat && _) eqn:CND.
    + destruct (extrema_sim zs s r i0 i1 i2 S H0 H1 ltac:(lia) ltac:(apply andb_prop in CND; apply CND)) as (X1 & X2 & X3). rewrite X1.
      set (e := tr_extrema r i0 i1 i2) in *.
      assert (S' := flag_sim zs s r [i0; i1; i2; fst e; snd e; Datatypes.S i2] S). set (is := [i0; i1; i2; fst e; snd e; Datatypes.S i2]) in *.
      destruct (IH zs _ _ (fst e) (snd e) (Datatypes.S i2) S' X2 X3 r' j0 j1 j2 a' E J) as (s' & Q1 & Q2 & Q3 & Q4 & Q5 & Q6 & Q7).
      exists s'. exact (conj Q1 (conj Q2 (conj Q3 (conj Q4 (conj Q5 (conj Q6 Q7)))))).
    + injection E as <- <- <- <- <-. exists s. auto 10.
Qed.

Lemma makeFirst_sim : forall zs s r, sim zs s r -> (tr_size r <= length zs)%nat -> tr_edges r = [] -> tr_tris r = [] ->
  (snd (tr_makeFirst r) <= tr_size r)%nat ->
  sim zs (fst (tr_makeFirst s)) (fst (tr_makeFirst r)) /\ snd (tr_makeFirst s) = snd (tr_makeFirst r).
Proof.
  intros zs s r S L HE HT. unfold tr_makeFirst. rewrite (sm_size _ _ _ S). destruct (tr_size r <? 3)%nat eqn:Z3; [cbn; auto|].
  apply Nat.ltb_ge in Z3.
  destruct (tr_firstLoop (Datatypes.S (tr_size r)) r 0 1 2 (nabs (tr_area3 r 0 1 2))) as [[r' [[j0 j1] j2]] a'] eqn:E. intros H.
  assert (J : (j2 < length zs)%nat).
  { destruct (nlt a' tr_eps); [cbn in H; lia|]. destruct (if nlt (tr_area3 r' j0 j1 j2) _ then (j2, j1) else (j1, j2)) in H. cbn in H. lia. }
  destruct (firstLoop_sim _ zs s r 0 1 2 S ltac:(lia) ltac:(lia) r' j0 j1 j2 a' E J) as (s' & Q1 & Q2 & -> & Q4 & Q5 & Q6 & Q7).
  rewrite Q1. clear H.
  rewrite (area_abs zs s r j0 j1 j2 S Q4 Q5 J).
  rewrite (area_neg zs s' r' j0 j1 j2 Q2 Q4 Q5 J).
  destruct (nlt (nabs (tr_area3 r j0 j1 j2)) tr_eps); [cbn; auto|].
  destruct Q2 as [S1 S2 S3 S4 S5 S6 S7 S8].
  destruct (nlt (tr_area3 r' j0 j1 j2) (nopp tr_eps)); cbn [fst snd]; (split; [|reflexivity]); constructor; cbn [tr_buf tr_size tr_edges tr_tris tr_oob]; auto;
    try (rewrite S4; reflexivity); try (rewrite S5; reflexivity);
    try (intros e He; apply set_insert_in in He; destruct He as [->|He]; [cbn; auto|];
         apply set_insert_in in He; destruct He as [->|He]; [cbn; auto|];
         apply set_insert_in in He; destruct He as [->|He]; [cbn; auto|]; apply S7; exact He);
    (intros t Ht; apply set_insert_in in Ht; destruct Ht as [->|Ht]; [cbn [nth]; auto|apply S8; exact Ht]).
Qed.

Lemma F2_map_nth : forall (ps : list (spec_float * spec_float)) zs, Forall2 near ps zs -> forall inds, (forall i, In i inds -> (i < length zs)%nat) ->
  Forall2 near (map (fun i => nth i ps pt0) inds) (map (fun i => zat zs i) inds).
Proof.
  intros ps zs H inds. induction inds as [|i l IH]; intros B; cbn [map]; constructor.
  - unfold zat. apply (F2_nth near _ _ H). apply B. simpl. auto.
  - apply IH. intros; apply B; simpl; auto.
Qed.

Theorem new_sim : forall srt junk junkR n ps zs, (forall lt l, Permutation (srt lt l) l) -> (n <= length ps)%nat -> Forall2 near ps zs ->
  exists srt', (forall lt l, Permutation (srt' lt l) l) /\
    ((snd (tr_makeFirst (tr_start (T := R) srt' junkR n zs)) <= tr_size (tr_start (T := R) srt' junkR n zs))%nat ->
     exists ws, sim ws (tr_new (T := spec_float) srt junk n ps) (tr_new (T := R) srt' junkR n zs)).
Proof.
  intros srt junk junkR n ps zs SRT Hn F.
  set (inds := srt (closer (gravity n ps) ps) (seq 0 n)).
  assert (PI : Permutation inds (seq 0 n)) by apply SRT.
  assert (LZ : length ps = length zs) by (eapply Forall2_length; eauto).
  assert (IB : forall i, In i inds -> (i < length zs)%nat).
  { intros i Hi. apply (Permutation_in _ PI) in Hi. apply in_seq in Hi. lia. }
  exists (as_sort n inds). split; [apply as_sort_perm; auto|]. intros H. rewrite !tr_new_start. cbv zeta.
  set (r0 := tr_start (as_sort n inds) junkR n zs) in *. set (s0 := tr_start srt junk n ps).
  set (so := map (fun i => zat zs i) inds).
  set (sF := map (fun i => nth i ps pt0) inds).
  assert (SF : Forall2 near sF so) by (apply F2_map_nth; auto).
  assert (SR : map (fun i => nth i zs pt0) (as_sort n inds (closer (gravity n zs) zs) (seq 0 n)) = so).
  { unfold as_sort. destruct (list_eq_dec _ _ _) as [_|N]; [|contradiction]. reflexivity. }
  destruct (remove_sim _ _ SF) as (ks & K1 & K2).
  assert (LF : length (remove_degenerate sF) = length ks) by exact (Forall2_length _ _ _ K1).
  set (ws := ks ++ skipn (length ks) so).
  assert (S0 : sim ws s0 r0 /\ tr_edges r0 = [] /\ tr_tris r0 = [] /\ (tr_size r0 <= length ws)%nat).
  { split; [|split; [reflexivity|split; [reflexivity|]]].
    - constructor; try reflexivity.
      + change (Forall2 near (remove_degenerate sF ++ skipn (length (remove_degenerate sF)) sF) ws). rewrite LF. apply F2_app; auto. apply F2_skipn. auto.
      + unfold r0, tr_start. cbn [tr_buf]. change (@pt R) with point. rewrite SR, K2. reflexivity.
      + change (tr_size s0) with (length (remove_degenerate sF)). unfold r0, tr_start. cbn [tr_size]. change (@pt R) with point. rewrite SR, K2, LF. reflexivity.
      + intros e [].
      + intros t [].
    - unfold r0, tr_start. cbn [tr_size]. change (@pt R) with point. rewrite SR, K2. unfold ws. rewrite app_length. lia. }
  destruct S0 as (S0 & E0 & T0 & L0).
  assert (LW : (n <= length ws)%nat).
  { unfold ws. rewrite app_length, skipn_length. assert (length so = n) by (unfold so; rewrite map_length, (Permutation_length PI), seq_length; reflexivity). lia. }
  destruct (makeFirst_sim ws s0 r0 S0 L0 E0 T0 H) as [M1 M2]. rewrite M2. exists ws.
  apply addPoints_sim; auto. intros i Hi. apply in_seq in Hi. lia.
Qed.


End Sim.

(** ** Rounding in the three formulas *)
Lemma eps_near : Rabs (fval (tr_eps (T := spec_float)) - epsR) <= uround.
Proof.
  unfold epsR, tr_eps at 2. rewrite lit_R. set (e := tr_eps (T := spec_float)). vm_compute in e.
  unfold fval, e, SF2R, F2R. cbn [Fnum Fexp cond_Zopp bpow]. change (Z.pow_pos radix2 92) with 4951760157141521099596496896%Z.
  unfold uround. apply Rabs_le. split; lra.
Qed.

Lemma mul_near : forall x y e f dx dy ex ey, Rabs x <= e -> Rabs dy <= f -> Rabs (x - dx) <= ex -> Rabs (y - dy) <= ey ->
  Rabs (x * y - dx * dy) <= e * ey + f * ex.
Proof.
  intros x y e f dx dy ex ey H1 H2 H3 H4. replace (x * y - dx * dy) with (x * (y - dy) + dy * (x - dx)) by ring.
  eapply Rle_trans; [apply Rabs_triang|]. rewrite !Rabs_mult. apply Rplus_le_compat; apply Rmult_le_compat; auto using Rabs_pos.
Qed.

Section Numbers.
Variable M : R.
Hypothesis M_one : 1 <= M.
Hypothesis M_big : M <= bpow radix2 400.

Let lo : bpow radix2 (-1000) <= M.
Proof. apply Rle_trans with (bpow radix2 0); [apply bpow_le; lia|exact M_one]. Qed.
Let hi : M <= bpow radix2 900.
Proof. apply Rle_trans with (bpow radix2 400); [exact M_big|apply bpow_le; lia]. Qed.

Lemma sq_one : 1 <= M * M.
Proof. assert (1 * 1 <= M * M) by (apply Rmult_le_compat; lra). lra. Qed.

Lemma sq_big : forall k, k <= 100 -> k * (M * M) <= bpow radix2 1000.
Proof.
  intros k K. assert (P := sq_one). apply Rle_trans with (bpow radix2 7 * (bpow radix2 400 * bpow radix2 400)).
  - change (bpow radix2 7) with 128. apply Rle_trans with (128 * (M * M)); [apply Rmult_le_compat_r; lra|].
    apply Rmult_le_compat_l; [lra|]. apply Rmult_le_compat; lra.
  - rewrite <- !bpow_plus. apply bpow_le. lia.
Qed.

Lemma rnd_sq : forall x k, 0 <= k <= 100 -> Rabs x <= k * (M * M) -> Rabs (rnd x - x) <= (k + 1) * (uround * (M * M)).
Proof.
  intros x k K H. assert (P := u_rng). assert (E := rnd_error x). assert (T := tiny_u). assert (S := sq_one).
  assert (uround * Rabs x <= uround * (k * (M * M))) by (apply Rmult_le_compat_l; lra).
  assert (uround * 1 <= uround * (M * M)) by (apply Rmult_le_compat_l; lra). lra.
Qed.

Lemma u_sq : 0 < uround * (M * M) <= M * M / 1000000.
Proof.
  assert (P := u_rng). assert (S := sq_one). split; [apply Rmult_lt_0_compat; lra|].
  assert (uround * (M * M) <= / 1000000 * (M * M)) by (apply Rmult_le_compat_r; lra). lra.
Qed.

Definition inM (p : spec_float * spec_float) : Prop := dblp p /\ Rabs (fval (fst p)) <= M /\ Rabs (fval (snd p)) <= M.

(** The rounded product of two rounded differences. *)
Definition rp (a b c d : R) : R := rnd (rnd (a - b) * rnd (c - d)).

Lemma prod_sq : forall x y z w, dbl x -> dbl y -> dbl z -> dbl w -> Rabs (fval x) <= M -> Rabs (fval y) <= M -> Rabs (fval z) <= M -> Rabs (fval w) <= M ->
  let p := nmul (nsub x y) (nsub z w) in
  dbl p /\ fval p = rp (fval x) (fval y) (fval z) (fval w) /\
  Rabs (fval p - (fval x - fval y) * (fval z - fval w)) <= 25 * (uround * (M * M)) /\ Rabs (fval p) <= 10 * (M * M).
Proof.
  intros x y z w Dx Dy Dz Dw Bx By Bz Bw p. assert (UM := u_sq). assert (S := sq_one). assert (U := u_rng).
  destruct (sub_M M lo hi x y Dx Dy Bx By) as (D1 & E1 & B1 & _). destruct (sub_M M lo hi z w Dz Dw Bz Bw) as (D2 & E2 & B2 & _).
  assert (V1 : fval (nsub x y) = rnd (fval x - fval y)).
  { apply f_sub; auto. eapply Rle_trans; [|apply (big_M M lo hi 2); lra]. eapply Rle_trans; [apply Rabs_triang|rewrite Rabs_Ropp; lra]. }
  assert (V2 : fval (nsub z w) = rnd (fval z - fval w)).
  { apply f_sub; auto. eapply Rle_trans; [|apply (big_M M lo hi 2); lra]. eapply Rle_trans; [apply Rabs_triang|rewrite Rabs_Ropp; lra]. }
  set (d := nsub x y) in *. set (e := nsub z w) in *.
  assert (B3 : Rabs (fval d * fval e) <= 9 * (M * M)).
  { rewrite Rabs_mult. apply Rle_trans with ((3 * M) * (3 * M)); [apply Rmult_le_compat; auto using Rabs_pos|lra]. }
  destruct (f_mul d e D1 D2) as [D3 V3]; [eapply Rle_trans; [exact B3|apply sq_big; lra]|].
  assert (E3 := rnd_sq _ 9 ltac:(lra) B3). rewrite <- V3 in E3. fold p in D3, V3, E3.
  assert (Bzw : Rabs (fval z - fval w) <= 2 * M) by (eapply Rle_trans; [apply Rabs_triang|rewrite Rabs_Ropp; lra]).
  assert (E4 := mul_near (fval d) (fval e) (3 * M) (2 * M) (fval x - fval y) (fval z - fval w) _ _ B1 Bzw E1 E2).
  split; [exact D3|]. split; [rewrite V3, V1, V2; reflexivity|]. split.
  - replace (fval p - (fval x - fval y) * (fval z - fval w)) with ((fval p - fval d * fval e) + (fval d * fval e - (fval x - fval y) * (fval z - fval w))) by ring.
    eapply Rle_trans; [apply Rabs_triang|]. lra.
  - replace (fval p) with ((fval p - fval d * fval e) + fval d * fval e) by ring. eapply Rle_trans; [apply Rabs_triang|]. lra.
Qed.

Lemma cross_sq : forall p q r, inM p -> inM q -> inM r ->
  dbl (cross p q r) /\ Rabs (fval (cross p q r) - cr (valp p) (valp q) (valp r)) <= 75 * (uround * (M * M)) /\
  fval (cross p q r) = rnd (rp (fval (fst q)) (fval (fst p)) (fval (snd r)) (fval (snd p)) - rp (fval (snd q)) (fval (snd p)) (fval (fst r)) (fval (fst p))).
Proof.
  intros p q r ([P1 P2] & P3 & P4) ([Q1 Q2] & Q3 & Q4) ([R1 R2] & R3 & R4). assert (UM := u_sq). assert (S := sq_one).
  unfold cross, cr, valp. cbn [fst snd].
  destruct (prod_sq (fst q) (fst p) (snd r) (snd p)) as (D1 & V1 & E1 & B1); auto.
  destruct (prod_sq (snd q) (snd p) (fst r) (fst p)) as (D2 & V2 & E2 & B2); auto.
  set (a := nmul (nsub (fst q) (fst p)) (nsub (snd r) (snd p))) in *. set (b := nmul (nsub (snd q) (snd p)) (nsub (fst r) (fst p))) in *.
  assert (B3 : Rabs (fval a - fval b) <= 20 * (M * M)) by (eapply Rle_trans; [apply Rabs_triang|rewrite Rabs_Ropp; lra]).
  destruct (f_sub a b D1 D2) as [D3 V3]; [eapply Rle_trans; [exact B3|apply sq_big; lra]|].
  assert (E3 := rnd_sq _ 20 ltac:(lra) B3). split; [exact D3|]. rewrite <- V1, <- V2. split; [|exact V3]. rewrite V3.
  set (x := (fval (fst q) - fval (fst p)) * (fval (snd r) - fval (snd p))) in *. set (y := (fval (snd q) - fval (snd p)) * (fval (fst r) - fval (fst p))) in *.
  replace (rnd (fval a - fval b) - (x - y)) with ((rnd (fval a - fval b) - (fval a - fval b)) + ((fval a - x) + - (fval b - y))) by ring.
  eapply Rle_trans; [apply Rabs_triang|]. eapply Rle_trans; [apply Rplus_le_compat_l, Rabs_triang|]. rewrite Rabs_Ropp. lra.
Qed.

Definition dotr (a b c : point) : R := (fst b - fst a) * (fst c - fst a) + (snd b - snd a) * (snd c - snd a).

Lemma dot_sq : forall p q r, inM p -> inM q -> inM r ->
  dbl (dot_at p q r) /\ Rabs (fval (dot_at p q r) - dotr (valp p) (valp q) (valp r)) <= 85 * (uround * (M * M)) /\
  fval (dot_at p q r) = rnd (rnd (0 + rp (fval (fst q)) (fval (fst p)) (fval (fst r)) (fval (fst p))) + rp (fval (snd q)) (fval (snd p)) (fval (snd r)) (fval (snd p))).
Proof.
  intros p q r ([P1 P2] & P3 & P4) ([Q1 Q2] & Q3 & Q4) ([R1 R2] & R3 & R4). assert (UM := u_sq). assert (S := sq_one).
  unfold dot_at, dotr, valp. cbn [fst snd].
  destruct (prod_sq (fst q) (fst p) (fst r) (fst p)) as (D1 & V1 & E1 & B1); auto.
  destruct (prod_sq (snd q) (snd p) (snd r) (snd p)) as (D2 & V2 & E2 & B2); auto.
  set (a := nmul (nsub (fst q) (fst p)) (nsub (fst r) (fst p))) in *. set (b := nmul (nsub (snd q) (snd p)) (nsub (snd r) (snd p))) in *.
  destruct zero_val as [Z1 Z2].
  assert (B0 : Rabs (fval n0 + fval a) <= 10 * (M * M)) by (rewrite Z2, Rplus_0_l; exact B1).
  destruct (f_add n0 a Z1 D1) as [D0 V0]; [eapply Rle_trans; [exact B0|apply sq_big; lra]|].
  assert (E0 := rnd_sq _ 10 ltac:(lra) B0). rewrite <- V0 in E0. rewrite Z2 in E0, V0. rewrite Rplus_0_l in E0. set (c := nadd n0 a) in *.
  assert (B4 : Rabs (fval c) <= 11 * (M * M)).
  { replace (fval c) with ((fval c - fval a) + fval a) by ring. eapply Rle_trans; [apply Rabs_triang|]. lra. }
  assert (B3 : Rabs (fval c + fval b) <= 21 * (M * M)) by (eapply Rle_trans; [apply Rabs_triang|lra]).
  destruct (f_add c b D0 D2) as [D3 V3]; [eapply Rle_trans; [exact B3|apply sq_big; lra]|].
  assert (E3 := rnd_sq _ 21 ltac:(lra) B3). split; [exact D3|]. rewrite <- V1, <- V2, <- V0. split; [|exact V3]. rewrite V3.
  set (x := (fval (fst q) - fval (fst p)) * (fval (fst r) - fval (fst p))) in *. set (y := (fval (snd q) - fval (snd p)) * (fval (snd r) - fval (snd p))) in *.
  replace (rnd (fval c + fval b) - (x + y)) with ((rnd (fval c + fval b) - (fval c + fval b)) + ((fval c - fval a) + ((fval a - x) + (fval b - y)))) by ring.
  eapply Rle_trans; [apply Rabs_triang|]. eapply Rle_trans; [apply Rplus_le_compat_l, Rabs_triang|].
  eapply Rle_trans; [apply Rplus_le_compat_l, Rplus_le_compat_l, Rabs_triang|]. lra.
Qed.

(** ** Points that stand for the corners of a polygon *)
Variable P : list point.
Variable h : point -> point.
Variable del : R.
Hypothesis del_rng : 0 <= del <= M.
Hypothesis P_size : forall a, In a P -> Rabs (fst a) <= M /\ Rabs (snd a) <= M.
Hypothesis h_size : forall a, In a P -> Rabs (fst (h a)) <= M /\ Rabs (snd (h a)) <= M.
Hypothesis h_near : forall a, In a P -> Rabs (fst (h a) - fst a) <= del /\ Rabs (snd (h a) - snd a) <= del.

(** Everything that can change one of the formulas. *)
Definition kappa : R := 100 * (uround * (M * M)) + 24 * (del * M).

Hypothesis SEP : separated (epsR + kappa) P.
Hypothesis GEN : forall a b c, In a P -> In b P -> In c P -> cr a b c = 0 -> a = b \/ a = c \/ b = c.

Definition stands (p : spec_float * spec_float) (a : point) : Prop := dblp p /\ valp p = h a /\ In a P.

Lemma stands_inM : forall p a, stands p a -> inM p.
Proof.
  intros p a (D & V & I). split; [exact D|]. destruct (h_size a I) as [H1 H2].
  change (fval (fst p)) with (fst (valp p)). change (fval (snd p)) with (snd (valp p)). rewrite V. auto.
Qed.

Lemma diff_near : forall (f : point -> R) a b, (forall p, In p P -> Rabs (f (h p) - f p) <= del) ->
  In a P -> In b P -> Rabs ((f (h b) - f (h a)) - (f b - f a)) <= 2 * del.
Proof.
  intros f a b H Ha Hb. replace ((f (h b) - f (h a)) - (f b - f a)) with ((f (h b) - f b) + - (f (h a) - f a)) by ring.
  eapply Rle_trans; [apply Rabs_triang|]. rewrite Rabs_Ropp. assert (Q1 := H a Ha). assert (Q2 := H b Hb). lra.
Qed.

Lemma diff_size : forall (f : point -> R) a b, Rabs (f a) <= M -> Rabs (f b) <= M -> Rabs (f b - f a) <= 2 * M.
Proof. intros f a b H1 H2. eapply Rle_trans; [apply Rabs_triang|]. rewrite Rabs_Ropp. lra. Qed.

Lemma prod_near : forall (f g : point -> R) a b c,
  (forall p, In p P -> Rabs (f p) <= M /\ Rabs (f (h p)) <= M /\ Rabs (f (h p) - f p) <= del) ->
  (forall p, In p P -> Rabs (g p) <= M /\ Rabs (g (h p)) <= M /\ Rabs (g (h p) - g p) <= del) ->
  In a P -> In b P -> In c P ->
  Rabs ((f (h b) - f (h a)) * (g (h c) - g (h a)) - (f b - f a) * (g c - g a)) <= 8 * (del * M).
Proof.
  intros f g a b c HF HG Ha Hb Hc.
  assert (E1 := diff_near f a b ltac:(apply HF) Ha Hb). assert (E2 := diff_near g a c ltac:(apply HG) Ha Hc).
  destruct (HF a Ha) as (F1 & F2 & _), (HF b Hb) as (F3 & F4 & _), (HG a Ha) as (G1 & G2 & _), (HG c Hc) as (G3 & G4 & _).
  assert (S1 := diff_size (fun p => f (h p)) a b F2 F4). assert (S2 := diff_size g a c G1 G3).
  assert (Q := mul_near _ (g (h c) - g (h a)) (2 * M) (2 * M) (f b - f a) (g c - g a) (2 * del) (2 * del) S1 S2 E1 E2). lra.
Qed.

Lemma fst_ok : forall p, In p P -> Rabs (fst p) <= M /\ Rabs (fst (h p)) <= M /\ Rabs (fst (h p) - fst p) <= del.
Proof. intros p Hp. split; [apply P_size; auto|]. split; [apply h_size; auto|apply h_near; auto]. Qed.
Lemma snd_ok : forall p, In p P -> Rabs (snd p) <= M /\ Rabs (snd (h p)) <= M /\ Rabs (snd (h p) - snd p) <= del.
Proof. intros p Hp. split; [apply P_size; auto|]. split; [apply h_size; auto|apply h_near; auto]. Qed.

Lemma dM : 0 <= del * M.
Proof. apply Rmult_le_pos; lra. Qed.

(** ** Values of the formulas *)
Lemma stands_cross : forall p q r a b c, stands p a -> stands q b -> stands r c ->
  dbl (cross p q r) /\ Rabs (fval (cross p q r) - cr a b c) <= kappa - 25 * (uround * (M * M)) /\
  (a = b \/ a = c \/ b = c -> fval (cross p q r) = 0).
Proof.
  intros p q r a b c SP SQ SR. destruct (cross_sq p q r) as (D & E & V); eauto using stands_inM. assert (Q0 := dM).
  split; [exact D|]. split.
  - destruct SP as (DP & VP & IP), SQ as (DQ & VQ & IQ), SR as (DR & VR & IR). rewrite VP, VQ, VR in E.
    assert (E1 := prod_near fst snd a b c fst_ok snd_ok IP IQ IR). assert (E2 := prod_near snd fst a b c snd_ok fst_ok IP IQ IR).
    set (z := fval (cross p q r)) in *. unfold cr in *.
    replace (z - ((fst b - fst a) * (snd c - snd a) - (snd b - snd a) * (fst c - fst a))) with
      ((z - ((fst (h b) - fst (h a)) * (snd (h c) - snd (h a)) - (snd (h b) - snd (h a)) * (fst (h c) - fst (h a)))) +
       (((fst (h b) - fst (h a)) * (snd (h c) - snd (h a)) - (fst b - fst a) * (snd c - snd a)) +
        - ((snd (h b) - snd (h a)) * (fst (h c) - fst (h a)) - (snd b - snd a) * (fst c - fst a)))) by ring.
    eapply Rle_trans; [apply Rabs_triang|]. eapply Rle_trans; [apply Rplus_le_compat_l, Rabs_triang|]. rewrite Rabs_Ropp. unfold kappa. lra.
  - intros H. rewrite V. destruct SP as (DP & VP & IP), SQ as (DQ & VQ & IQ), SR as (DR & VR & IR).
    assert (X : forall o w, valp o = h w -> fval (fst o) = fst (h w) /\ fval (snd o) = snd (h w)).
    { intros o w <-. split; reflexivity. }
    destruct (X p a VP) as [-> ->], (X q b VQ) as [-> ->], (X r c VR) as [-> ->].
    assert (R0 : rnd 0 = 0) by (apply (rnd_Z 0); lia).
    unfold rp. destruct H as [->|[->| ->]].
    + rewrite !Rminus_eq_0, !R0, !Rmult_0_l, R0, Rminus_eq_0. exact R0.
    + rewrite !Rminus_eq_0, !R0, !Rmult_0_r, R0, Rminus_eq_0. exact R0.
    + rewrite (Rmult_comm (rnd (snd (h c) - _))), Rminus_eq_0. exact R0.
Qed.

Lemma stands_dot : forall p q r a b c, stands p a -> stands q b -> stands r c ->
  dbl (dot_at p q r) /\ Rabs (fval (dot_at p q r) - dotr a b c) <= kappa - 15 * (uround * (M * M)) /\
  (a = b \/ a = c -> fval (dot_at p q r) = 0).
Proof.
  intros p q r a b c SP SQ SR. destruct (dot_sq p q r) as (D & E & V); eauto using stands_inM. assert (Q0 := dM).
  split; [exact D|]. split.
  - destruct SP as (DP & VP & IP), SQ as (DQ & VQ & IQ), SR as (DR & VR & IR). rewrite VP, VQ, VR in E.
    assert (E1 := prod_near fst fst a b c fst_ok fst_ok IP IQ IR). assert (E2 := prod_near snd snd a b c snd_ok snd_ok IP IQ IR).
    set (z := fval (dot_at p q r)) in *. unfold dotr in *.
    replace (z - ((fst b - fst a) * (fst c - fst a) + (snd b - snd a) * (snd c - snd a))) with
      ((z - ((fst (h b) - fst (h a)) * (fst (h c) - fst (h a)) + (snd (h b) - snd (h a)) * (snd (h c) - snd (h a)))) +
       (((fst (h b) - fst (h a)) * (fst (h c) - fst (h a)) - (fst b - fst a) * (fst c - fst a)) +
        ((snd (h b) - snd (h a)) * (snd (h c) - snd (h a)) - (snd b - snd a) * (snd c - snd a)))) by ring.
    eapply Rle_trans; [apply Rabs_triang|]. eapply Rle_trans; [apply Rplus_le_compat_l, Rabs_triang|]. unfold kappa. lra.
  - intros H. rewrite V. destruct SP as (DP & VP & IP), SQ as (DQ & VQ & IQ), SR as (DR & VR & IR).
    assert (X : forall o w, valp o = h w -> fval (fst o) = fst (h w) /\ fval (snd o) = snd (h w)).
    { intros o w <-. split; reflexivity. }
    destruct (X p a VP) as [-> ->], (X q b VQ) as [-> ->], (X r c VR) as [-> ->].
    assert (R0 : rnd 0 = 0) by (apply (rnd_Z 0); lia).
    unfold rp. destruct H as [->| ->].
    + rewrite !Rminus_eq_0, !R0, !Rmult_0_l. repeat rewrite ?R0, ?Rplus_0_l. reflexivity.
    + rewrite !Rminus_eq_0, !R0, !Rmult_0_r. repeat rewrite ?R0, ?Rplus_0_l. reflexivity.
Qed.

Lemma kappa_pos : 100 * (uround * (M * M)) <= kappa.
Proof. assert (Q := dM). unfold kappa. lra. Qed.

Lemma eps_close : fval (tr_eps (T := spec_float)) <= epsR + uround * (M * M).
Proof.
  assert (E := eps_near). apply Rabs_le_inv in E. assert (U := u_rng). assert (S := sq_one).
  assert (uround * 1 <= uround * (M * M)) by (apply Rmult_le_compat_l; lra). lra.
Qed.

Lemma st_cases : forall p q r a b c, stands p a -> stands q b -> stands r c ->
  (cr a b c = 0 /\ fval (cross p q r) = 0) \/
  (epsR + kappa < Rabs (cr a b c) /\ Rabs (fval (cross p q r) - cr a b c) <= kappa - 25 * (uround * (M * M))).
Proof.
  intros p q r a b c SP SQ SR. destruct (stands_cross p q r a b c SP SQ SR) as (D & E & Z).
  assert (IP := proj2 (proj2 SP)). assert (IQ := proj2 (proj2 SQ)). assert (IR := proj2 (proj2 SR)).
  destruct SEP as [_ S3]. destruct (S3 a b c IP IQ IR) as [H|H]; [left|right; auto]. split; auto.
Qed.

Lemma stands_neg : forall p q r a b c, stands p a -> stands q b -> stands r c ->
  nlt (cross p q r) (nopp tr_eps) = nlt (cross (T := R) a b c) (nopp tr_eps).
Proof.
  intros p q r a b c SP SQ SR. destruct (stands_cross p q r a b c SP SQ SR) as (D & _ & _).
  destruct eps_val as [E1 E2]. destruct (opp_val _ E1) as [O1 O2]. rewrite f_lt, O2 by auto.
  change (nlt (cross a b c) (nopp tr_eps)) with (Rltb (cr a b c) (- epsR)).
  assert (EP := eps_pos). assert (EC := eps_close). assert (UM := u_sq). assert (K := kappa_pos).
  apply Bool.eq_iff_eq_true. rewrite !Rltb_true.
  destruct (st_cases p q r a b c SP SQ SR) as [[-> ->]|[H1 H2]]; [lra|]. apply Rabs_le_inv in H2.
  unfold Rabs in H1. destruct (Rcase_abs (cr a b c)); lra.
Qed.

Lemma stands_abs : forall p q r a b c, stands p a -> stands q b -> stands r c ->
  nlt (nabs (cross p q r)) tr_eps = nlt (nabs (cross (T := R) a b c)) tr_eps.
Proof.
  intros p q r a b c SP SQ SR. destruct (stands_cross p q r a b c SP SQ SR) as (D & _ & _).
  destruct eps_val as [E1 E2]. destruct (abs_val _ D) as [O1 O2]. rewrite f_lt, O2 by auto.
  change (nlt (nabs (cross a b c)) tr_eps) with (Rltb (Rabs (cr a b c)) epsR).
  assert (EP := eps_pos). assert (EC := eps_close). assert (UM := u_sq). assert (K := kappa_pos).
  apply Bool.eq_iff_eq_true. rewrite !Rltb_true.
  destruct (st_cases p q r a b c SP SQ SR) as [[-> ->]|[H1 H2]]; [rewrite Rabs_R0; lra|].
  assert (T := Rabs_triang_inv (cr a b c) (cr a b c - fval (cross p q r))). rewrite (Rabs_minus_sym (cr a b c) (fval _)) in T.
  replace (cr a b c - (cr a b c - fval (cross p q r))) with (fval (cross p q r)) in T by ring. lra.
Qed.

Lemma dot_dist : forall a b : point, dotr a b b = sqdist a b.
Proof. intros. unfold dotr, sqdist. ring. Qed.

Lemma dotR : forall a b c : point, dot_at (T := R) a b c = dotr a b c.
Proof. intros. unfold dot_at, dotr. change (n0 : R) with 0%R. cbn [nadd nmul nsub NumR]. ring. Qed.

(** Two points that are equal or far apart. *)
Lemma far_dot : forall p q r a b, stands p a -> stands q b -> stands r b -> nlt tr_eps (dot_at p q r) = nlt tr_eps (dot_at (T := R) a b b).
Proof.
  intros p q r a b SP SQ SR. destruct (stands_dot p q r a b b SP SQ SR) as (D & E & Z). destruct eps_val as [E1 E2].
  rewrite f_lt by auto. rewrite dotR. change (nlt tr_eps (dotr a b b)) with (Rltb epsR (dotr a b b)).
  assert (EP := eps_pos). assert (EC := eps_close). assert (UM := u_sq). assert (K := kappa_pos).
  apply Bool.eq_iff_eq_true. rewrite !Rltb_true. destruct SEP as [S2 _].
  destruct (S2 a b (proj2 (proj2 SP)) (proj2 (proj2 SQ))) as [->|F].
  - rewrite Z by auto. replace (dotr b b b) with 0 by (unfold dotr; ring). lra.
  - rewrite <- dot_dist in F. apply Rabs_le_inv in E. lra.
Qed.

Lemma stands_dist : forall p q a b, stands p a -> stands q b -> nlt tr_eps (dist_sq p q) = nlt tr_eps (dist_sq (T := R) a b).
Proof. intros p q a b SP SQ. exact (far_dot p q q a b SP SQ SQ). Qed.

Lemma stands_flat : forall p q r a b c, stands p a -> stands q b -> stands r c -> nlt (nabs (cross (T := R) a b c)) tr_eps = true ->
  nlt tr_eps (dot_at p q r) = nlt tr_eps (dot_at (T := R) a b c).
Proof.
  intros p q r a b c SP SQ SR F. apply Rltb_true in F. change (Rabs (cr a b c) < epsR) in F.
  assert (K := kappa_pos). assert (UM := u_sq).
  assert (Z : cr a b c = 0) by (destruct (st_cases p q r a b c SP SQ SR) as [[Z _]|[H _]]; [exact Z|lra]).
  destruct (GEN a b c (proj2 (proj2 SP)) (proj2 (proj2 SQ)) (proj2 (proj2 SR)) Z) as [->|[->| ->]].
  - destruct (stands_dot p q r b b c SP SQ SR) as (D & _ & Z0). destruct eps_val as [E1 E2]. rewrite f_lt, Z0 by auto.
    rewrite dotR. change (nlt tr_eps (dotr b b c)) with (Rltb epsR (dotr b b c)). replace (dotr b b c) with 0 by (unfold dotr; ring).
    apply Bool.eq_iff_eq_true. rewrite !Rltb_true. assert (EP := eps_pos). lra.
  - destruct (stands_dot p q r c b c SP SQ SR) as (D & _ & Z0). destruct eps_val as [E1 E2]. rewrite f_lt, Z0 by auto.
    rewrite dotR. change (nlt tr_eps (dotr c b c)) with (Rltb epsR (dotr c b c)). replace (dotr c b c) with 0 by (unfold dotr; ring).
    apply Bool.eq_iff_eq_true. rewrite !Rltb_true. assert (EP := eps_pos). lra.
  - apply far_dot; auto.
Qed.

(** ** The sum of the triangles *)
Notation simS := (sim stands).

Lemma sum_near : forall zs s r, simS zs s r -> forall ts acc z e, (forall t, In t ts -> In t (tr_tris s)) ->
  (forall t, In t ts -> 0 <= tcr r t) -> dbl acc -> 0 <= z -> Rabs (fval acc - z) <= e -> z + tsum r ts <= 8 * (M * M) ->
  e + INR (length ts) * kappa <= M * M ->
  let f := fold_left (fun a t => nadd a (tr_area3 s (nth 0 t 0%nat) (nth 1 t 0%nat) (nth 2 t 0%nat))) ts acc in
  dbl f /\ Rabs (fval f - (z + tsum r ts)) <= e + INR (length ts) * kappa.
Proof.
  intros zs s r S ts. assert (UM := u_sq). assert (K := kappa_pos). assert (SQ := sq_one).
  induction ts as [|t ts IH]; intros acc z e IN POS D Z0 E B HB; cbn [fold_left tsum length] in *.
  - split; [exact D|]. rewrite Rplus_0_r. change (INR 0) with 0. lra.
  - rewrite S_INR in *.
    assert (TP : forall l, (forall x, In x l -> 0 <= tcr r x) -> 0 <= tsum r l).
    { clear. induction l as [|x l IH]; intros H; cbn [tsum]; [lra|]. assert (Q := H x (or_introl eq_refl)). specialize (IH (fun y Hy => H y (or_intror Hy))). lra. }
    assert (T0 := TP ts (fun x Hx => POS x (or_intror Hx))). assert (P0 := POS t (or_introl eq_refl)).
    destruct (sm_tin _ _ _ _ S t (IN t (or_introl eq_refl))) as (I0 & I1 & I2).
    assert (AR : tcr r t = cr (zat zs (nth 0 t 0%nat)) (zat zs (nth 1 t 0%nat)) (zat zs (nth 2 t 0%nat))).
    { unfold tcr, tr_area3. rewrite !(pt_R stands zs s r) by auto. apply cross_R. }
    destruct (stands_cross (tr_pt s (nth 0 t 0%nat)) (tr_pt s (nth 1 t 0%nat)) (tr_pt s (nth 2 t 0%nat)) _ _ _ (pt_F stands zs s r _ S I0) (pt_F stands zs s r _ S I1) (pt_F stands zs s r _ S I2)) as (D1 & E1 & _).
    rewrite <- AR in E1. set (x := tr_area3 s (nth 0 t 0%nat) (nth 1 t 0%nat) (nth 2 t 0%nat)) in *.
    change (cross (tr_pt s (nth 0 t 0%nat)) (tr_pt s (nth 1 t 0%nat)) (tr_pt s (nth 2 t 0%nat))) with x in D1, E1.
    assert (KN : 0 <= INR (length ts) * kappa) by (apply Rmult_le_pos; [apply pos_INR|lra]).
    assert (BX : Rabs (fval acc + fval x) <= 10 * (M * M)).
    { apply Rabs_le_inv in E, E1. apply Rabs_le. split; lra. }
    destruct (f_add acc x D D1) as [D2 V2]; [eapply Rle_trans; [exact BX|apply sq_big; lra]|].
    assert (E2 := rnd_sq _ 10 ltac:(lra) BX). rewrite <- V2 in E2.
    destruct (IH (nadd acc x) (z + tcr r t) (e + kappa)) as [D3 E3]; auto.
    + intros; apply IN; simpl; auto.
    + intros; apply POS; simpl; auto.
    + lra.
    + apply Rabs_le_inv in E, E1, E2. apply Rabs_le. split; lra.
    + lra.
    + lra.
    + split; [exact D3|]. replace (z + (tcr r t + tsum r ts)) with (z + tcr r t + tsum r ts) by ring. lra.
Qed.

Lemma stands_oriented : forall zs s r, simS zs s r -> oriented r -> forall t, In t (tr_tris r) -> 0 <= tcr r t.
Proof.
  intros zs s r S O t Ht. assert (K := kappa_pos). assert (UM := u_sq). assert (EP := eps_pos).
  destruct (sm_tin _ _ _ _ S t) as (I0 & I1 & I2); [rewrite (sm_tris _ _ _ _ S); auto|].
  assert (C : tcr r t = 0 \/ epsR + kappa < Rabs (tcr r t)).
  { unfold tcr, tr_area3. rewrite !(pt_R stands zs s r) by auto. rewrite cross_R. apply SEP.
    - apply (proj2 (proj2 (pt_F stands zs s r _ S I0))).
    - apply (proj2 (proj2 (pt_F stands zs s r _ S I1))).
    - apply (proj2 (proj2 (pt_F stands zs s r _ S I2))). }
  destruct O as [[H1 _]|(t0 & rest & H1 & H2 & H3)]; [rewrite H1 in Ht; contradiction|].
  apply (Permutation_in _ H1) in Ht. destruct Ht as [->|Ht]; [|specialize (H3 t Ht); lra].
  destruct H2 as [H2|H2]; [lra|]. rewrite H2, Rabs_Ropp, Rabs_pos_eq in C by lra. lra.
Qed.

(** The area reported for a strictly convex polygon. *)
Theorem near_hull : forall srt junk n ps zs, (forall lt l, Permutation (srt lt l) l) -> (n <= length ps)%nat -> Forall2 stands ps zs ->
  (forall p, In p (firstn n zs) <-> In p P) -> strict_ccw P -> NoDup P -> (3 <= length P)%nat -> INR n * kappa <= M * M ->
  let s := tr_new (T := spec_float) srt junk n ps in
  dbl (tr_hullArea s) /\ Rabs (fval (tr_hullArea s) - polygon_area P) <= INR n * kappa / 2 /\ (NoDup (firstn n zs) -> tr_oob s = false).
Proof.
  intros srt junk n ps zs SRT Hn F HP SC ND L3 NK s. assert (K := kappa_pos). assert (UM := u_sq). assert (EP := eps_pos). assert (S1 := sq_one).
  assert (LZ : length ps = length zs) by (eapply Forall2_length; eauto).
  destruct (new_sim stands stands_neg stands_abs stands_flat stands_dist srt junk (fun _ => origin) n ps zs SRT Hn F) as (srt' & SRT' & SIM).
  destruct (hull_area_count srt' (fun _ => origin) n zs P) as (A1 & A2 & A3 & A4); auto.
  - lia.
  - intros i j k H1 H2. left. apply SC; auto.
  - exists 0%nat, 1%nat, 2%nat. repeat split; try lia. apply Rgt_not_eq. apply SC; lia.
  - destruct SEP as [S2 S3]. split.
    + intros a b Ha Hb. destruct (S2 a b Ha Hb); [left; auto|right; lra].
    + intros a b c Ha Hb Hc. destruct (S3 a b c Ha Hb Hc); [left; auto|right; lra].
  - destruct (SIM A3) as (ws & S). fold s in S. set (r := tr_new (T := R) srt' (fun _ => origin) n zs) in *.
    assert (AB : polygon_area P <= 4 * (M * M)).
    { apply strict_box; auto; [lra|]. intros p Hp. destruct (P_size p Hp) as [B1 B2]. apply Rabs_le_inv in B1, B2. lra. }
    rewrite hullArea_sum in A1. rewrite <- (sm_tris _ _ _ _ S) in A1, A4.
    assert (LE : INR (length (tr_tris s)) + 2 <= INR n). { replace 2 with (INR 2) by reflexivity. rewrite <- plus_INR. apply le_INR. exact A4. }
    assert (NK2 : INR (length (tr_tris s)) * kappa + 2 * kappa <= INR n * kappa).
    { replace (INR (length (tr_tris s)) * kappa + 2 * kappa) with ((INR (length (tr_tris s)) + 2) * kappa) by ring. apply Rmult_le_compat_r; lra. }
    destruct zero_val as [Z1 Z2].
    assert (OR : forall t, In t (tr_tris s) -> 0 <= tcr r t).
    { intros t Ht. apply (stands_oriented ws s r S (tr_new_oriented _ _ _ _)). rewrite <- (sm_tris _ _ _ _ S). auto. }
    destruct (sum_near ws s r S (tr_tris s) n0 0 0) as [D V]; auto; try lra.
    { rewrite Z2, Rminus_0_r, Rabs_R0. lra. }
    set (f := fold_left _ _ _) in D, V. rewrite !Rplus_0_l in V.
    assert (T0 : 0 <= tsum r (tr_tris s)).
    { clear - OR. induction (tr_tris s) as [|x l IH]; cbn [tsum]; [lra|]. assert (Q := OR x (or_introl eq_refl)). specialize (IH (fun y Hy => OR y (or_intror Hy))). lra. }
    set (tt := tsum r (tr_tris s)) in *. destruct half_val as [HD HV].
    assert (BF : Rabs (fval f * fval nhalf) <= 5 * (M * M)) by (rewrite HV; apply Rabs_le_inv in V; apply Rabs_le; split; lra).
    destruct (f_mul f nhalf D HD) as [D1 V1]; [eapply Rle_trans; [exact BF|apply sq_big; lra]|].
    assert (E := rnd_sq _ 5 ltac:(lra) BF). rewrite <- V1 in E.
    change (nmul f nhalf) with (tr_hullArea s) in D1, E. split; [exact D1|]. split.
    + rewrite <- A1. rewrite HV in E. apply Rabs_le_inv in V, E. apply Rabs_le. split; lra.
    + intros N. rewrite (sm_oob _ _ _ _ S). apply A2. exact N.
Qed.

End Numbers.
