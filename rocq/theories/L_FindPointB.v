(** Search objects as clients create them: setGrid then reset (exact arithmetic). *)
From Coq Require Import ZArith List Bool Reals Lra Lia R_Ifp Permutation.
From Verif Require Import Base Num NumR M_LinearSolve M_FindPoint S_LinAlg S_Grid
  L_LinearSolve L_Interp L_FindPoint L_FindPointR L_FindPointA.
Import ListNotations.
Open Scope R_scope.

Lemma mapM_vget_prefix : forall {A} (l : list A) n, length l = n -> mapM (vget l) (zseq n) = Ret l.
Proof. intros. apply mapM_vget_all. auto. Qed.

(** reset with arrays of the right size. *)
Lemma reset_ok : forall (s : fp (T:=R)) guess target, length guess = length (fp_dims s) ->
  length target = length (fp_dims s) ->
  fp_reset s guess target = Ret (mkFp (fp_slvr s) (fp_coords s) (fp_xmins s) (fp_xmaxs s) (fp_prodDims s)
         (fp_nodeProdDims s) (fp_period s) (fp_dims s) target (fp_nitermax s) (fp_tolpos s)
         0%Z guess [] (fp_oldError s)).
Proof.
  intros s guess target H1 H2. unfold fp_reset. rewrite !mapM_vget_prefix by auto. reflexivity.
Qed.

Lemma reset_good : forall s0 (s : fp (T:=R)) dims per coords guess target, grid_data dims coords ->
  fp_setGrid s0 dims per coords = Ret s -> in_grid dims guess -> length target = length dims ->
  exists s', fp_reset s guess target = Ret s' /\ fp_good dims coords s' /\ fp_target s' = target /\
    fp_dIndices s' = guess /\ fp_iter s' = 0%Z /\ fp_errors s' = [] /\
    fp_xmins s' = fp_xmins s /\ fp_xmaxs s' = fp_xmaxs s /\ fp_period s' = fp_period s /\
    fp_nitermax s' = fp_nitermax s0 /\ fp_tolpos s' = fp_tolpos s0.
Proof.
  intros s0 s dims per coords guess target HD HS HG HT.
  destruct (setGrid_ok s0 dims per coords HD) as (s1 & E & Hh & Hc & Hsv & Hp & Ht & _ & _ & _ & Hn & Htol & _).
  rewrite HS in E. injection E as <-.
  assert (Hd : fp_dims s = dims) by apply Hh. assert (L := in_grid_length _ _ HG).
  rewrite reset_ok by (rewrite Hd; auto). eexists. split; [reflexivity|]. cbn.
  split; [|repeat split; auto].
  unfold fp_good, fp_holds, solver_ok. cbn. repeat split; auto; try apply HD; try apply Hh.
Qed.

Lemma box_after : forall s0 (s : fp (T:=R)) dims per coords, grid_data dims coords ->
  fp_setGrid s0 dims per coords = Ret s ->
  length (fp_xmins s) = length dims /\ length (fp_xmaxs s) = length dims /\
  forall i, (i < length dims)%nat ->
    nth i (fp_xmins s) 0 = runmin (nth i (resize (fp_xmins s0) (length dims) nmax) 0) (nth i coords []) /\
    nth i (fp_xmaxs s) 0 = runmax (nth i (resize (fp_xmaxs s0) (length dims) (- nmax)) 0) (nth i coords []).
Proof.
  intros s0 s dims per coords HD HS.
  destruct (setGrid_ok s0 dims per coords HD) as (s1 & E & _ & _ & _ & _ & _ & H1 & H2 & _).
  rewrite HS in E. injection E as <-. rewrite H1, H2. assert (L : length coords = length dims) by apply HD.
  rewrite !zipmap_length, !resize_length by (rewrite resize_length; auto).
  split; auto. split; auto. intros i Hi. split.
  - apply nth_zipmap; rewrite ?resize_length; auto.
  - apply nth_zipmap; rewrite ?resize_length; auto.
Qed.

Lemma box_holds_after : forall s0 (s s' : fp (T:=R)) dims per coords, grid_data dims coords ->
  fp_setGrid s0 dims per coords = Ret s -> fp_xmins s' = fp_xmins s -> fp_xmaxs s' = fp_xmaxs s ->
  box_holds dims coords s'.
Proof.
  intros s0 s s' dims per coords HD HS E1 E2.
  destruct (box_after s0 s dims per coords HD HS) as (L1 & L2 & B).
  unfold box_holds. rewrite E1, E2. split; auto. split; auto.
  intros i v Hi Hv. destruct (B i Hi) as [-> ->]. split; [apply runmin_le|apply runmax_ge]; auto.
Qed.

Lemma resize_nil : forall {A} n (v : A), resize [] n v = repeat v n.
Proof. intros. unfold resize. rewrite firstn_nil, Nat.sub_0_r. reflexivity. Qed.

Lemma nth_repeat' : forall {A} n i (v d : A), (i < n)%nat -> nth i (repeat v n) d = v.
Proof. induction n; intros i v d Hi; [lia|]. destruct i; simpl; auto. apply IHn. lia. Qed.

(** Coordinates are finite doubles. *)
Definition finite_coords (coords : list (list R)) : Prop :=
  forall c v, In c coords -> In v c -> - nmax <= v <= (nmax : R).

Lemma fresh_box : forall nit tol (s : fp (T:=R)) dims per coords, grid_data dims coords -> finite_coords coords ->
  fp_setGrid (fp_new nit tol) dims per coords = Ret s ->
  length (fp_xmins s) = length dims /\ length (fp_xmaxs s) = length dims /\
  forall i, (i < length dims)%nat ->
    (In (nth i (fp_xmins s) 0) (nth i coords []) /\ forall v, In v (nth i coords []) -> nth i (fp_xmins s) 0 <= v) /\
    (In (nth i (fp_xmaxs s) 0) (nth i coords []) /\ forall v, In v (nth i coords []) -> v <= nth i (fp_xmaxs s) 0).
Proof.
  intros nit tol s dims per coords HD HF HS.
  destruct (box_after _ s dims per coords HD HS) as (L1 & L2 & B). split; auto. split; auto.
  intros i Hi. destruct (B i Hi) as [E1 E2]. cbn [fp_new fp_xmins fp_xmaxs] in E1, E2.
  rewrite resize_nil, nth_repeat' in E1, E2 by auto. rewrite E1, E2.
  assert (Gc := good_coord dims coords i HD Hi). assert (SP := grid_size_pos dims (proj1 (proj1 (proj2 HD)))).
  assert (Hc : In (nth i coords []) coords) by (apply nth_In; destruct HD as (_ & _ & L & _); lia).
  destruct (nth i coords []) as [|v0 c] eqn:EC; [simpl in Gc; lia|].
  assert (F : forall v, In v (v0 :: c) -> - nmax <= v <= nmax) by (intros; eapply HF; eauto).
  split; split; try (intros; apply runmin_le; auto); try (intros; apply runmax_ge; auto).
  - destruct (runmin_in (v0 :: c) nmax) as [E|E]; auto.
    assert (E' := runmin_le (v0 :: c) nmax v0 (or_introl eq_refl)). rewrite E in E'.
    assert (F0 := F v0 (or_introl eq_refl)). rewrite E. left. lra.
  - destruct (runmax_in (v0 :: c) (- nmax)) as [E|E]; auto.
    assert (E' := runmax_ge (v0 :: c) (- nmax) v0 (or_introl eq_refl)). rewrite E in E'.
    assert (F0 := F v0 (or_introl eq_refl)). rewrite E. left. lra.
Qed.

Lemma fresh_periods : forall dims per, length per = length dims ->
  periods_ok dims (fp_periods (resize [] (length dims) n0) dims per).
Proof.
  intros dims per. rewrite resize_nil. revert per. induction dims as [|d ds IH]; intros [|p per] H; try discriminate; [constructor|].
  cbn [length repeat fp_periods]. constructor; [|apply IH; simpl in *; lia].
  destruct (Z.eqb p 0); [left|right]; reflexivity.
Qed.

Lemma NoDup_map_inj_in : forall {A B} (f : A -> B) l,
  (forall x y, In x l -> In y l -> f x = f y -> x = y) -> NoDup l -> NoDup (map f l).
Proof.
  intros A B f l H N. induction N as [|x l Hx N IH]; [constructor|]. simpl. constructor.
  - intros C. apply in_map_iff in C. destruct C as (y & E & Hy).
    apply H in E; [subst; contradiction|simpl; auto|simpl; auto].
  - apply IH. intros; apply H; simpl; auto.
Qed.

(** ** C07 *)
Lemma weights_partition_holds : forall (s : fp (T:=R)) dims, grid_ok dims -> fp_holds dims s ->
  forall xs, in_grid dims xs ->
  exists c iw, fp_getSrcIndicesAndWeights s xs = Ret iw /\ is_cell dims c xs /\
    (forall k w, In (k, w) iw <-> exists v, is_corner c v /\ k = flat dims v /\ w = hat xs v) /\
    NoDup (map fst iw) /\ Z.of_nat (length iw) = (2 ^ Z.of_nat (length dims))%Z /\
    (forall k w, In (k, w) iw -> (0 <= k < grid_size dims)%Z /\ 0 <= w <= 1) /\
    lsum (map snd iw) = 1.
Proof.
  intros s dims Hok Hh xs Hx.
  exists (cells dims xs). eexists. split; [apply (weights_R dims); auto|].
  assert (CS := cells_spec dims xs (proj1 Hok) Hx). split; auto.
  assert (LC : length (cells dims xs) = length dims) by (symmetry; eapply Forall2_len; apply CS).
  assert (IN : forall k w, In (k, w) (map (fun b => (flat dims (zadd (cells dims xs) b), hat xs (zadd (cells dims xs) b)))
      (allbits (length dims))) <-> exists v, is_corner (cells dims xs) v /\ k = flat dims v /\ w = hat xs v).
  { intros k w. rewrite in_map_iff. split.
    - intros (b & E & Hb). injection E as <- <-. apply allbits_in in Hb. destruct Hb as [Lb Fb].
      exists (zadd (cells dims xs) b). split; [apply zadd_corner; [lia|auto]|auto].
    - intros (v & Hv & -> & ->). apply corner_zadd in Hv. destruct Hv as (b & Lb & Fb & ->).
      exists b. split; auto. apply allbits_in. split; auto. lia. }
  split; [exact IN|]. split; [|split; [|split]].
  - rewrite map_map. cbn [fst]. apply NoDup_map_inj_in; [|apply allbits_NoDup].
    intros b b' Hb Hb' E. apply allbits_in in Hb. apply allbits_in in Hb'.
    apply flat_inj in E.
    + apply zadd_inj in E; auto; lia.
    + eapply is_corner_node; eauto. apply zadd_corner; try tauto. lia.
    + eapply is_corner_node; eauto. apply zadd_corner; try tauto. lia.
  - rewrite map_length. unfold allbits, range. rewrite map_length, zseq_length.
    apply Z2Nat.id. apply Z.pow_nonneg. lia.
  - intros k w Hin. apply IN in Hin. destruct Hin as (v & Hv & -> & ->). split.
    + apply flat_bounds. eapply is_corner_node; eauto.
    + destruct CS as [_ CS]. clear - Hv CS.
      revert v Hv. induction CS as [|a x c l Hax CS IH]; intros v Hv; inversion Hv; subst; simpl; [lra|].
      assert (H := IH _ H3).
      assert (A : 0 <= 1 - Rabs (x - IZR y) <= 1).
      { assert (P := Rabs_pos (x - IZR y)). assert (Q : Rabs (x - IZR y) <= 1); [|lra].
        apply Rabs_le. destruct H1 as [-> | ->]; rewrite ?plus_IZR; lra. }
      split; [apply Rmult_le_pos; lra|].
      rewrite <- (Rmult_1_l 1). apply Rmult_le_compat; lra.
  - rewrite map_map. cbn [snd].
    rewrite (lsum_ext _ (fun b => hat xs (zadd (cells dims xs) b) * (fun _ => 1) (zadd (cells dims xs) b))) by (intros; ring).
    rewrite (lsum_multilin dims xs (fun _ => 1)) by (auto; apply Hok). apply multilin_const.
Qed.

Theorem weights_partition : forall s0 (s : fp (T:=R)) dims per coords, grid_data dims coords ->
  fp_setGrid s0 dims per coords = Ret s ->
  forall xs, in_grid dims xs ->
  exists c iw, fp_getSrcIndicesAndWeights s xs = Ret iw /\ is_cell dims c xs /\
    (forall k w, In (k, w) iw <-> exists v, is_corner c v /\ k = flat dims v /\ w = hat xs v) /\
    NoDup (map fst iw) /\ Z.of_nat (length iw) = (2 ^ Z.of_nat (length dims))%Z /\
    (forall k w, In (k, w) iw -> (0 <= k < grid_size dims)%Z /\ 0 <= w <= 1) /\
    lsum (map snd iw) = 1.
Proof.
  intros s0 s dims per coords HD HS.
  destruct (setGrid_ok s0 dims per coords HD) as (s1 & E & Hh & _). rewrite HS in E. injection E as <-.
  apply weights_partition_holds; auto. apply HD.
Qed.

(** ** C08 *)
Theorem interp_node : forall s0 (s : fp (T:=R)) dims per coords, grid_data dims coords ->
  fp_setGrid s0 dims per coords = Ret s ->
  forall field, Z.of_nat (length field) = grid_size dims ->
  (forall v, is_node dims v -> fp_interp s (map IZR v) field = Ret (nth (Z.to_nat (flat dims v)) field 0)) /\
  (forall c0 cs, (forall v, is_node dims v -> nth (Z.to_nat (flat dims v)) field 0 = c0 + dot cs (map IZR v)) ->
   forall xs, in_grid dims xs -> fp_interp s xs field = Ret (c0 + dot cs xs)).
Proof.
  intros s0 s dims per coords HD HS field HF.
  destruct (setGrid_ok s0 dims per coords HD) as (s1 & E & Hh & _). rewrite HS in E. injection E as <-.
  assert (Hok : grid_ok dims) by apply HD. split.
  - intros v Hv. rewrite (interp_R dims); auto.
    + f_equal. apply (multilin_node dims v); auto. apply Hok.
    + clear - Hv. induction Hv; simpl; constructor; auto.
      split; [apply IZR_le; lia|apply IZR_le; lia].
  - intros c0 cs H xs Hx. rewrite (interp_R dims); auto. f_equal.
    rewrite (multilin_ext _ _ _ (fun v => c0 + dot cs (map IZR v))); auto; try apply Hok.
    apply multilin_affine; auto. apply Hok.
Qed.

(** ** C09 *)
Fixpoint fp_steps {T} {N : Num T} (g : gels T) (k : nat) (s : fp (T:=T)) : exec (list Z * fp (T:=T)) :=
  match k with
  | O => Ret ([], s)
  | S k' => let! r := fp_next g s in
            let! rs := fp_steps g k' (snd r) in
            Ret (fst r :: fst rs, snd rs)
  end.

Lemma steps_good : forall g k dims coords s, fp_good dims coords s -> (0 <= fp_iter s)%Z ->
  (fp_iter s + Z.of_nat k <= int_max)%Z ->
  exists codes s', fp_steps g k s = Ret (codes, s') /\ fp_good dims coords s'.
Proof.
  intros g. induction k as [|k IH]; intros dims coords s G H0 H1; [exists [], s; auto|].
  destruct (next_total g dims coords s G ltac:(lia)) as (code & s' & E & G' & _ & I).
  cbn [fp_steps]. rewrite E. cbn [bind snd fst].
  destruct (IH dims coords s' G' ltac:(lia) ltac:(lia)) as (codes & s'' & E' & G'').
  rewrite E'. cbn [bind fst snd]. eexists _, _. split; [reflexivity|]. auto.
Qed.

Theorem indices_stay : forall g s0 (s : fp (T:=R)) dims per coords guess target s1 k, grid_data dims coords ->
  fp_setGrid s0 dims per coords = Ret s -> in_grid dims guess -> length target = length dims ->
  fp_reset s guess target = Ret s1 -> (Z.of_nat k <= int_max)%Z ->
  exists codes s', fp_steps g k s1 = Ret (codes, s') /\ in_grid dims (fp_dIndices s').
Proof.
  intros g s0 s dims per coords guess target s1 k HD HS Hg Ht HR Hk.
  destruct (reset_good s0 s dims per coords guess target HD HS Hg Ht) as (s2 & E & G & _ & _ & I & _).
  rewrite HR in E. injection E as <-.
  destruct (steps_good g k dims coords s1 G ltac:(lia) ltac:(lia)) as (codes & s' & E & G').
  exists codes, s'. split; auto. apply G'.
Qed.

(** ** C10: in exact arithmetic the loop ends with a result *)
Theorem loop_ends : forall g dims coords (s : fp (T:=R)), fp_good dims coords s -> fp_iter s = 0%Z ->
  (fp_nitermax s <= int_max)%Z ->
  exists code s', fp_loop g (Z.to_nat (Z.max 1 (fp_nitermax s))) s = Ret (Some (code, s')) /\ code <> 0%Z /\
    fp_good dims coords s'.
Proof.
  intros g dims coords s G HI HM.
  assert (A : forall fuel s, fp_good dims coords s -> (0 <= fp_iter s)%Z ->
     (fp_iter s + Z.of_nat fuel <= int_max)%Z -> is_ret (fp_loop g fuel s) /\
     forall code s', fp_loop g fuel s = Ret (Some (code, s')) -> code <> 0%Z /\ fp_good dims coords s').
  { clear s G HI HM. induction fuel as [|fuel IH]; intros s G H0 H1.
    - split; [eexists; reflexivity|]. intros code s' C. discriminate.
    - cbn [fp_loop]. destruct (next_total g dims coords s G ltac:(lia)) as (code & s' & E & G' & _ & I).
      rewrite E. cbn [bind fst snd]. destruct (Z.eqb_spec code 0).
      + apply IH; auto; lia.
      + split; [eexists; reflexivity|]. intros code1 s1 C. injection C as <- <-. split; auto. }
  set (fuel := Z.to_nat (Z.max 1 (fp_nitermax s))).
  destruct (A fuel s G ltac:(lia) ltac:(unfold fuel, int_max in *; lia)) as [[[[code s']|] E] B].
  - exists code, s'. split; auto.
  - exfalso. apply (loop_terminates g fuel s) in E; auto; unfold fuel; lia.
Qed.

(** ** C15 *)
Theorem outside_rejected : forall g nit tol (s : fp (T:=R)) dims per coords guess target s1,
  grid_data dims coords -> finite_coords coords ->
  fp_setGrid (fp_new nit tol) dims per coords = Ret s -> in_grid dims guess -> length target = length dims ->
  fp_reset s guess target = Ret s1 ->
  exists code s2, fp_next g s1 = Ret (code, s2) /\
  (code = (-3)%Z <-> exists i, (i < length dims)%nat /\
     ((forall v, In v (nth i coords []) -> nth i target 0 < v - fp_eps) \/
      (forall v, In v (nth i coords []) -> nth i target 0 > v + fp_eps))) /\
  (code = (-3)%Z -> s2 = s1).
Proof.
  intros g nit tol s dims per coords guess target s1 HD HF HS Hg Ht HR.
  destruct (reset_good _ s dims per coords guess target HD HS Hg Ht) as (s1' & E & G & ET & _ & I & _ & B1 & B2 & _).
  rewrite HR in E. injection E as <-.
  destruct (next_total g dims coords s1 G ltac:(unfold int_max; lia)) as (code & s2 & E & _).
  exists code, s2. split; auto.
  destruct (fresh_box nit tol s dims per coords HD HF HS) as (L1 & L2 & B). rewrite <- B1 in L1, B. rewrite <- B2 in L2, B.
  assert (IN := inside_R (fp_target s1) (fp_xmins s1) (fp_xmaxs s1) ltac:(rewrite ET; lia) ltac:(rewrite ET; lia)).
  rewrite ET in IN. rewrite Ht in IN.
  apply next_inv in E. rewrite ET in E. destruct E as [(-> & -> & F)|(F & jr & sv & info & sv' & xs & err & H)].
  - split; auto. split; auto. intros _.
    assert (DEC : forall m, (m <= length dims)%nat ->
      (forall i, (i < m)%nat -> nth i (fp_xmins s1) 0 - fp_eps <= nth i target 0 <= nth i (fp_xmaxs s1) 0 + fp_eps) \/
      exists i, (i < m)%nat /\ (nth i target 0 < nth i (fp_xmins s1) 0 - fp_eps \/ nth i target 0 > nth i (fp_xmaxs s1) 0 + fp_eps)).
    { induction m as [|m IH]; intros Hm; [left; intros; lia|].
      destruct (IH ltac:(lia)) as [H|(i & Hi & H)].
      - destruct (Rlt_dec (nth m target 0) (nth m (fp_xmins s1) 0 - fp_eps)); [right; exists m; split; [lia|auto]|].
        destruct (Rlt_dec (nth m (fp_xmaxs s1) 0 + fp_eps) (nth m target 0)); [right; exists m; split; [lia|right; lra]|].
        left. intros i Hi. destruct (Nat.eq_dec i m); [subst; lra|apply H; lia].
      - right. exists i. split; auto. }
    destruct (DEC (length dims) (le_n _)) as [H|(i & Hi & H)].
    + apply IN in H. congruence.
    + exists i. split; auto. destruct (B i Hi) as [[_ Bmin] [_ Bmax]].
      destruct H as [H|H]; [left|right]; intros v Hv.
      * specialize (Bmin v Hv). lra. * specialize (Bmax v Hv). lra.
  - assert (NC : code <> (-3)%Z).
    { destruct H as (_ & _ & _ & _ & _ & _ & _ & _ & _ & _ & _ & _ & [(-> & _)|[(-> & _)|[(-> & _)|(-> & _)]]]); discriminate. }
    split; [|contradiction]. split; [contradiction|]. intros (i & Hi & H1). exfalso.
    assert (F' := proj1 IN F i Hi). destruct (B i Hi) as [[Imin _] [Imax _]].
    destruct H1 as [H1|H1]; [specialize (H1 _ Imin)|specialize (H1 _ Imax)]; lra.
Qed.

(** ** C14 *)
(** The old box is kept: a target inside the old grid's box is never rejected. *)
Theorem stale_box : forall g (s0 sA sB s1 : fp (T:=R)) dimsA perA coordsA dimsB perB coordsB guess target,
  grid_data dimsA coordsA -> grid_data dimsB coordsB -> length dimsA = length dimsB ->
  fp_setGrid s0 dimsA perA coordsA = Ret sA -> fp_setGrid sA dimsB perB coordsB = Ret sB ->
  in_grid dimsB guess -> length target = length dimsB ->
  (forall i, (i < length dimsA)%nat -> exists v w,
     (In v (nth i coordsA []) \/ In v (nth i coordsB [])) /\
     (In w (nth i coordsA []) \/ In w (nth i coordsB [])) /\ v <= nth i target 0 <= w) ->
  fp_reset sB guess target = Ret s1 ->
  exists code s2, fp_next g s1 = Ret (code, s2) /\ code <> (-3)%Z.
Proof.
  intros g s0 sA sB s1 dimsA perA coordsA dimsB perB coordsB guess target HA HB EL SA SB Hg Ht HT HR.
  destruct (reset_good _ sB dimsB perB coordsB guess target HB SB Hg Ht) as (s1' & E & G & ET & _ & I & _ & B1 & B2 & _).
  rewrite HR in E. injection E as <-.
  destruct (next_total g dimsB coordsB s1 G ltac:(unfold int_max; lia)) as (code & s2 & E & _).
  exists code, s2. split; auto.
  destruct (box_after s0 sA dimsA perA coordsA HA SA) as (LA1 & LA2 & BA).
  destruct (box_after sA sB dimsB perB coordsB HB SB) as (LB1 & LB2 & BB).
  assert (IN : fp_inside (fp_target s1) (fp_xmins s1) (fp_xmaxs s1) = true).
  { apply inside_R; rewrite ?ET, ?B1, ?B2; try lia. intros i Hi. rewrite Ht in Hi.
    destruct (BB i Hi) as [-> ->]. assert (HiA : (i < length dimsA)%nat) by lia.
    destruct (HT i HiA) as (v & w & Hv & Hw & Hvw). destruct (BA i HiA) as [EA1 EA2].
    assert (R1 : resize (fp_xmins sA) (length dimsB) nmax = fp_xmins sA).
    { unfold resize. rewrite firstn_all2 by lia. replace (length dimsB - length (fp_xmins sA))%nat with 0%nat by lia.
      simpl. apply app_nil_r. }
    assert (R2 : resize (fp_xmaxs sA) (length dimsB) (- nmax) = fp_xmaxs sA).
    { unfold resize. rewrite firstn_all2 by lia. replace (length dimsB - length (fp_xmaxs sA))%nat with 0%nat by lia.
      simpl. apply app_nil_r. }
    rewrite R1, R2.
    assert (P := eps_pos).
    assert (Q1 := runmin_init (nth i coordsB []) (nth i (fp_xmins sA) 0)).
    assert (Q2 := runmax_init (nth i coordsB []) (nth i (fp_xmaxs sA) 0)).
    assert (Q3 : runmin (nth i (fp_xmins sA) 0) (nth i coordsB []) <= v).
    { destruct Hv as [Hv|Hv]; [|apply runmin_le; auto].
      eapply Rle_trans; [exact Q1|]. rewrite EA1; apply runmin_le; auto. }
    assert (Q4 : w <= runmax (nth i (fp_xmaxs sA) 0) (nth i coordsB [])).
    { destruct Hw as [Hw|Hw]; [|apply runmax_ge; auto].
      eapply Rle_trans; [|exact Q2]. rewrite EA2; apply runmax_ge; auto. }
    lra. }
  apply next_inv in E. destruct E as [(_ & _ & F)|(_ & jr & sv & info & sv' & xs & err & H)]; [congruence|].
  destruct H as (_ & _ & _ & _ & _ & _ & _ & _ & _ & _ & _ & _ & [(-> & _)|[(-> & _)|[(-> & _)|(-> & _)]]]); discriminate.
Qed.

(** Without the stale data the search is that of a fresh object. *)
Definition box_within (n : nat) (A B : list (list R)) : Prop :=
  forall i v, (i < n)%nat -> In v (nth i A []) ->
    (exists w, In w (nth i B []) /\ w <= v) /\ (exists w, In w (nth i B []) /\ v <= w).

Lemma list_eq_nth : forall (a b : list R) n, length a = n -> length b = n ->
  (forall i, (i < n)%nat -> nth i a 0 = nth i b 0) -> a = b.
Proof. intros a b n H1 H2 H. apply (nth_ext _ _ 0 0); [lia|]. intros i Hi. apply H. lia. Qed.

Lemma runmin_absorb : forall c i j, (exists v, In v c /\ v <= i) -> (exists v, In v c /\ v <= j) -> runmin i c = runmin j c.
Proof.
  assert (A : forall c i j, (exists v, In v c /\ v <= j) -> (exists v, In v c /\ v <= i) -> runmin i c <= runmin j c).
  { intros c i j (v & Hv & Hj) (w & Hw & Hi). destruct (runmin_in c j) as [E|E].
    - rewrite E. eapply Rle_trans; [apply runmin_le; exact Hv|]. auto.
    - apply runmin_le. auto. }
  intros c i j H1 H2. apply Rle_antisym; apply A; auto.
Qed.

Lemma runmax_absorb : forall c i j, (exists v, In v c /\ i <= v) -> (exists v, In v c /\ j <= v) -> runmax i c = runmax j c.
Proof.
  assert (A : forall c i j, (exists v, In v c /\ j <= v) -> (exists v, In v c /\ i <= v) -> runmax j c <= runmax i c).
  { intros c i j (v & Hv & Hj) (w & Hw & Hi). destruct (runmax_in c j) as [E|E].
    - rewrite E. eapply Rle_trans; [|apply runmax_ge; exact Hv]. auto.
    - apply runmax_ge. auto. }
  intros c i j H1 H2. apply Rle_antisym; apply A; auto.
Qed.

Lemma periods_again : forall dimsA perA dimsB perB, length dimsA = length dimsB ->
  length perA = length dimsA -> length perB = length dimsB ->
  Forall2 (fun a b => a <> 0%Z -> b <> 0%Z) perA perB ->
  fp_periods (fp_periods (repeat (n0 : R) (length dimsB)) dimsA perA) dimsB perB =
  fp_periods (repeat n0 (length dimsB)) dimsB perB.
Proof.
  intros dimsA perA dimsB. revert dimsA perA. induction dimsB as [|d ds IH]; intros [|dA dsA] [|pA perA] [|p perB] H1 H2 H3 H4;
    try discriminate; auto.
  inversion H4; subst. cbn [length repeat fp_periods]. rewrite IH by (simpl in *; auto; lia). f_equal.
  destruct (Z.eqb_spec p 0); auto. destruct (Z.eqb_spec pA 0); auto. tauto.
Qed.

Theorem regrid_fresh : forall g nit tol (sA sA' sB sF : fp (T:=R)) h o dimsA perA coordsA dimsB perB coordsB,
  grid_data dimsA coordsA -> grid_data dimsB coordsB -> length dimsA = length dimsB ->
  length perA = length dimsA -> length perB = length dimsB ->
  finite_coords coordsA -> finite_coords coordsB ->
  fp_setGrid (fp_new nit tol) dimsA perA coordsA = Ret sA ->
  fp_ops g h sA = Ret (o, sA') ->
  fp_setGrid sA' dimsB perB coordsB = Ret sB ->
  fp_setGrid (fp_new nit tol) dimsB perB coordsB = Ret sF ->
  box_within (length dimsB) coordsA coordsB ->
  Forall2 (fun a b => a <> 0%Z -> b <> 0%Z) perA perB ->
  forall guess target fuel,
  bind (fp_reset sB guess target) (fp_trace g fuel) = bind (fp_reset sF guess target) (fp_trace g fuel).
Proof.
  intros g nit tol sA sA' sB sF h o dimsA perA coordsA dimsB perB coordsB HA HB EL PA PB FA FB SA OP SB SF BW FP.
  destruct (setGrid_ok (fp_new nit tol) dimsA perA coordsA HA) as (t & E & HhA & _ & WA & _ & _ & XA & XB & PeA & NA & TA & _).
  rewrite SA in E. injection E as <-.
  destruct (setGrid_ok sA' dimsB perB coordsB HB) as (t & E & HhB & CB & WB & _ & _ & _ & _ & PeB & NB & TB & _).
  rewrite SB in E. injection E as <-.
  destruct (setGrid_ok (fp_new nit tol) dimsB perB coordsB HB) as (t & E & HhF & CF & WF & _ & _ & _ & _ & PeF & NF & TF & _).
  rewrite SF in E. injection E as <-.
  destruct (ops_invariant g h sA o sA') as [SG WA']; auto.
  { assert (E : fp_dims sA = dimsA) by apply HhA. rewrite E. apply HA. }
  destruct SG as (_ & Gmin & Gmax & _ & _ & Gper & _ & Gn & Gt).
  destruct (fresh_box nit tol sA dimsA perA coordsA HA FA SA) as (LA1 & LA2 & BA).
  destruct (box_after _ sB dimsB perB coordsB HB SB) as (LB1 & LB2 & BB).
  destruct (box_after _ sF dimsB perB coordsB HB SF) as (LF1 & LF2 & BF).
  intros guess target fuel. apply reset_traces; auto.
  - assert (E : fp_dims sB = dimsB) by apply HhB. rewrite E. apply HB.
  - assert (NE : forall i, (i < length dimsB)%nat -> exists v, In v (nth i coordsB [])).
    { intros i Hi. assert (Gc := good_coord dimsB coordsB i HB Hi).
      assert (SP := grid_size_pos dimsB (proj1 (proj1 (proj2 HB)))).
      destruct (nth i coordsB []) as [|v c]; [simpl in Gc; lia|]. exists v. simpl. auto. }
    assert (INB : forall i, (i < length dimsB)%nat -> In (nth i coordsB []) coordsB)
      by (intros i Hi; apply nth_In; destruct HB as (_ & _ & L & _); lia).
    assert (RN : forall (l : list R) v, length l = length dimsB -> resize l (length dimsB) v = l).
    { intros l v L. unfold resize. rewrite firstn_all2 by lia.
      replace (length dimsB - length l)%nat with 0%nat by lia. simpl. apply app_nil_r. }
    unfold same_grid. rewrite CB, CF. destruct HhB as (-> & -> & ->). destruct HhF as (-> & -> & ->).
    rewrite NB, NF, TB, TF, <- Gn, <- Gt, NA, TA.
    split; auto. split; [|split; [|split; auto; split; auto; split; auto]].
    + apply (list_eq_nth _ _ (length dimsB)); auto. intros i Hi.
      destruct (BB i Hi) as [-> _]. destruct (BF i Hi) as [-> _]. rewrite <- Gmin, RN by lia.
      destruct (BA i ltac:(lia)) as [[Imin _] _]. destruct (BW i _ Hi Imin) as [W _].
      apply runmin_absorb; auto. cbn [fp_new fp_xmins]. rewrite resize_nil, nth_repeat' by auto.
      destruct (NE i Hi) as [v Hv]. exists v. split; auto. apply (FB _ v (INB i Hi) Hv).
    + apply (list_eq_nth _ _ (length dimsB)); auto. intros i Hi.
      destruct (BB i Hi) as [_ ->]. destruct (BF i Hi) as [_ ->]. rewrite <- Gmax, RN by lia.
      destruct (BA i ltac:(lia)) as [_ [Imax _]]. destruct (BW i _ Hi Imax) as [_ W].
      apply runmax_absorb; auto. cbn [fp_new fp_xmaxs]. rewrite resize_nil, nth_repeat' by auto.
      destruct (NE i Hi) as [v Hv]. exists v. split; auto. apply (FB _ v (INB i Hi) Hv).
    + rewrite PeB, PeF, <- Gper, PeA. cbn [fp_new fp_period]. rewrite !resize_nil.
      rewrite RN by (rewrite periods_length, repeat_length; auto).
      rewrite EL. apply periods_again; auto.
Qed.

(** ** C16 *)
Definition congruent (p x y : R) : Prop := exists k, x - y = IZR k * p.

Theorem wrap_congruent : forall d x, (2 <= d < 2 ^ 31)%Z ->
  (exists y, 0 <= y <= IZR (d - 1) /\ congruent (IZR d) x y) ->
  congruent (IZR d) x (fp_truncate1 (IZR d) d x).
Proof.
  intros d x Hd (y & Hy & K). unfold fp_truncate1. rewrite wrap64_small by lia.
  assert (Ed : IZR (d - 1) = IZR d - 1) by (rewrite minus_IZR; reflexivity).
  assert (2 <= IZR d) by (apply IZR_le; lia).
  assert (E : (if neq (IZR d) n0 then x else nfmod (nadd (nfmod x (IZR d)) (IZR d)) (IZR d)) =
    Rfmod (Rfmod x (IZR d) + IZR d) (IZR d)).
  { cbn [neq nfmod nadd NumR]. change (n0 : R) with 0. rcase; auto. lra. }
  rewrite E. clear E. destruct (wrap_spec x (IZR d) ltac:(lra)) as [B [k Hk]].
  set (z := Rfmod (Rfmod x (IZR d) + IZR d) (IZR d)) in *. clearbody z.
  assert (EZ : z = y).
  { destruct K as [k' Hk'].
    assert (D : z - y = IZR (k' - k) * IZR d) by (rewrite minus_IZR; lra).
    assert (KZ : (k' - k = 0)%Z).
    { assert (A1 : IZR (k' - k) * IZR d < 1 * IZR d) by lra. assert (A2 : -1 * IZR d < IZR (k' - k) * IZR d) by lra.
      apply Rmult_lt_reg_r in A1; [|lra]. apply Rmult_lt_reg_r in A2; [|lra].
      apply lt_IZR in A1. apply lt_IZR in A2. lia. }
    rewrite KZ in D. lra. }
  subst z. cbn [nlt nofZ NumR]. change (n0 : R) with 0. exists k. repeat rcase; lra.
Qed.

Lemma wrap_quarter : forall d, (2 <= d < 2 ^ 31)%Z -> fp_truncate1 (IZR d) d (- (1 / 4)) = IZR (d - 1).
Proof.
  intros d Hd. unfold fp_truncate1. rewrite wrap64_small by lia.
  assert (Ed : IZR (d - 1) = IZR d - 1) by (rewrite minus_IZR; reflexivity).
  assert (2 <= IZR d) by (apply IZR_le; lia).
  assert (E : (if neq (IZR d) n0 then - (1/4) else nfmod (nadd (nfmod (- (1/4)) (IZR d)) (IZR d)) (IZR d)) =
    Rfmod (Rfmod (- (1/4)) (IZR d) + IZR d) (IZR d)).
  { cbn [neq nfmod nadd NumR]. change (n0 : R) with 0. rcase; auto. lra. }
  rewrite E. clear E. destruct (wrap_spec (- (1/4)) (IZR d) ltac:(lra)) as [B [k Hk]].
  set (z := Rfmod (Rfmod (- (1/4)) (IZR d) + IZR d) (IZR d)) in *. clearbody z.
  assert (KZ : (k = -1)%Z).
  { assert (A1 : IZR k * IZR d < 0 * IZR d) by lra. assert (A2 : -2 * IZR d < IZR k * IZR d) by lra.
    apply Rmult_lt_reg_r in A1; [|lra]. apply Rmult_lt_reg_r in A2; [|lra].
    apply lt_IZR in A1. apply lt_IZR in A2. lia. }
  subst k. cbn [nlt nofZ NumR]. change (n0 : R) with 0. repeat rcase; lra.
Qed.
