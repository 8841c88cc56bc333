(** Searches and node interpolation in IEEE double arithmetic are defined when the solver gives
    back finite doubles. *)
From Coq Require Import ZArith List Bool Reals Lra Lia Floats.SpecFloat.
From Flocq Require Import Core BinarySingleNaN.
From Verif Require Import Base Num NumR NumF M_LinearSolve M_BoxIterator M_FindPoint M_SideIterator M_NodeInterp M_FindOverlap S_Grid S_Interp
  L_LinearSolve L_Interp L_FindPoint L_FindPointB L_FindPointR L_FindPointG L_NodeInterp L_NodeInterpR L_Float L_FloatOps L_FindPointF L_FindOverlap L_FindOverlapF L_NodeInterpF.
Import ListNotations.
Open Scope R_scope.

(** Whatever the solver is given, it gives back finite doubles. *)
Definition gives_finite (g : gels spec_float) : Prop := forall m n a lda b ldb lw k, dbl (g_rhs (g m n a lda b ldb lw) k).

Lemma finite_doubles : forall g, gives_finite g -> gives_doubles g.
Proof. intros g H m n a lda b ldb lw k. apply (H m n a lda b ldb lw k). Qed.

Lemma run_finite : forall g sv a b info sv', gives_finite g -> ls_run g sv a b = Ret (info, sv') -> List.Forall dbl (ls_getSolution sv').
Proof.
  intros g sv a b info sv' G H. unfold ls_run in H. apply bind_ret_inv in H. destruct H as (s1 & _ & H). apply bind_ret_inv in H. destruct H as (s2 & _ & H).
  unfold ls_solve in H. destruct (ls_mat s2); [discriminate|]. destruct (ls_x s2); [discriminate|]. injection H as <- <-. unfold ls_getSolution. cbn [ls_x].
  apply Forall_forall. intros x [<-|I]; [apply G|]. apply in_map_iff in I. destruct I as (k & <- & _). apply G.
Qed.

Lemma grid_cast : forall dims xs, grid_ok dims -> in_gridF dims xs -> List.Forall castable xs.
Proof. intros dims xs Hok H. eapply Forall_impl; [|apply (grid_near dims); eauto]. apply near_castable. Qed.

Theorem next_def : forall g dims coords s, gives_finite g -> nearG dims coords s -> (0 <= fp_iter s < int_max)%Z ->
  exists code s', fp_next g s = Ret (code, s') /\ nearG dims coords s' /\ (fp_iter s <= fp_iter s' <= fp_iter s + 1)%Z.
Proof.
  intros g dims coords s GF G It. assert (G' := G). destruct G' as (RD & Pp & Lt & Li & NF).
  assert (RD' := RD). destruct RD' as (HD & Hh & Hc & Lp & So & Ni).
  assert (R := dims_range dims (proj1 (proj2 HD))).
  assert (DEF : exists code s', fp_next g s = Ret (code, s')).
  { destruct (next_steps g dims coords s (nearG_safe _ _ _ G) It) as [H|(jr & sv & info & sv' & steps & new & EJ & ES & ER & L & EN & S & H)]; [eauto|].
    destruct H as [(u & _ & NC)|(code & s' & X & _)]; [exfalso|eauto]. apply NC.
    assert (FD := run_finite _ _ _ _ _ _ GF ER).
    assert (DS : List.Forall dbl steps).
    { apply nth_error_Forall. intros k z K.
      assert (Hk : (k < length steps)%nat) by (apply nth_error_Some; congruence).
      destruct (nth_error (fp_dIndices s) k) as [x|] eqn:EX; [|apply nth_error_None in EX; lia].
      destruct (S k x EX) as (dx & K1 & K2). rewrite K in K2. injection K2 as ->.
      rewrite Forall_forall in NF. destruct (NF x) as [Dx Px]; [eapply nth_error_In; eauto|].
      apply add_finite; auto. rewrite Forall_forall in FD. apply FD. eapply nth_error_In; eauto. }
    apply (grid_cast dims); [apply HD|]. subst new. apply truncate_grid; auto. }
  destruct DEF as (code & s' & E). exists code, s'. split; auto.
  destruct (next_near g dims coords s code s' (finite_doubles g GF) G It E) as (A & B & _). auto.
Qed.

Lemma loop_def : forall g fuel dims coords s, gives_finite g -> nearG dims coords s -> (0 <= fp_iter s)%Z -> (fp_iter s + Z.of_nat fuel <= int_max)%Z ->
  exists r, fp_loop g fuel s = Ret r.
Proof.
  intros g. induction fuel as [|k IH]; intros dims coords s GF G H0 H1; [exists None; reflexivity|].
  destruct (next_def g dims coords s GF G ltac:(lia)) as (code & s' & E & G' & I).
  cbn [fp_loop]. rewrite E. cbn [bind snd fst]. destruct (Z.eqb_spec code 0) as [Q|Q]; [|eauto].
  apply (IH dims coords s'); auto; lia.
Qed.

(** reset and the search loop. *)
Lemma search_def : forall g dims coords (f : fp (T:=spec_float)) guess target, gives_finite g -> fp_ready dims coords f -> List.Forall period_ok (fp_period f) ->
  List.Forall nearF guess -> length guess = length dims -> length target = length dims ->
  exists f1 code f2, fp_reset f guess target = Ret f1 /\ fp_search g f1 = Ret (code, f2) /\ twin f f2 /\ nearG dims coords f2.
Proof.
  intros g dims coords f guess target GF F PO NG LG LT. assert (F' := F). destruct F' as (A1 & A2 & A3 & A4 & A5 & A6).
  assert (Hd : fp_dims f = dims) by apply A2. assert (D : fp_dims f <> []) by (rewrite Hd; apply A1).
  unfold fp_reset. rewrite !mapM_vget_prefix by congruence. cbn [bind].
  eexists. set (s := mkFp _ _ _ _ _ _ _ _ _ _ _ _ _ _ _).
  assert (TW0 : twin f s) by (split; [exact D|]; split; [repeat split|]; split; exact A5).
  assert (G : nearG dims coords s).
  { split; [apply (ready_twin _ _ f); auto|]. repeat split; auto. }
  assert (GD := finite_doubles g GF).
  set (n := Z.to_nat (Z.max 1 (fp_nitermax f))).
  assert (N1 : (fp_iter s + Z.of_nat n <= int_max)%Z) by (cbn [fp_iter s]; unfold n, int_max in *; lia).
  destruct (loop_def g n dims coords s GF G ltac:(cbn; lia) N1) as (r & E).
  destruct r as [[code s']|].
  - exists code, s'. split; [reflexivity|].
    assert (TW : twin s s') by (apply (loop_result g _ s (code, s')) in E; [apply E|exact D|exact A5]).
    destruct (loop_near g dims coords n s code s' GD G ltac:(cbn; lia) N1 E) as (G' & _).
    split; [|split; [exact (twin_trans f s s' TW0 TW)|exact G']].
    unfold fp_search. rewrite (loop_mono g n s (code, s') E) by (unfold n; cbn [fp_nitermax s]; lia). reflexivity.
  - exfalso. revert E. apply loop_terminates; unfold n; [lia|]. cbn [fp_nitermax fp_iter s]. lia.
Qed.

(** ** Node interpolation *)
Definition readyP (dims : list Z) (coords : list (list spec_float)) (f : fp (T:=spec_float)) : Prop :=
  fp_ready dims coords f /\ List.Forall period_ok (fp_period f).

Lemma readyP_twin : forall dims coords f f', readyP dims coords f -> twin f f' -> readyP dims coords f'.
Proof.
  intros dims coords f f' [A B] W. split; [eapply ready_twin; eauto|]. assert (E : fp_period f = fp_period f') by apply W. rewrite <- E. auto.
Qed.

Lemma periods_doubles : forall l, List.Forall period_ok l -> List.Forall fok l.
Proof. intros l H. eapply Forall_impl; [|exact H]. intros x [[V _] _]. exact V. Qed.

Lemma near_fok : forall l, List.Forall nearF l -> List.Forall fok l.
Proof. intros l H. eapply Forall_impl; [|exact H]. intros x [[V _] _]. exact V. Qed.

Lemma find_def : forall g d0 d1 coords f guess x y, gives_finite g -> readyP [d0; d1]%Z coords f -> List.Forall nearF guess -> length guess = 2%nat ->
  exists ier f', ni_findTarget g f guess [x; y] = Ret (ier, f') /\ readyP [d0; d1]%Z coords f' /\ nearG [d0; d1]%Z coords f' /\
    (ier = 0%Z -> in_gridF [d0; d1]%Z (fp_dIndices f')).
Proof.
  intros g d0 d1 coords f guess x y GF [F PO] NG LG.
  destruct (search_def g [d0; d1]%Z coords f guess [x; y] GF F PO NG LG eq_refl) as (f1 & code & f2 & E1 & E2 & TW & G).
  assert (ET : ni_findTarget g f guess [x; y] = Ret (if (0 <? code)%Z then (0%Z, f2) else (code, f2))).
  { unfold ni_findTarget. rewrite E1. cbn [bind]. rewrite E2. cbn [bind fst snd]. reflexivity. }
  exists (if (0 <? code)%Z then 0%Z else code), f2. rewrite ET. split; [destruct (0 <? code)%Z; reflexivity|].
  split; [apply (readyP_twin _ _ f); auto; split; auto|]. split; auto. intros H0.
  assert (E0 : ni_findTarget g f guess [x; y] = Ret (0%Z, f2)) by (rewrite ET; destruct (0 <? code)%Z; congruence).
  destruct (find_fok g f guess [x; y] f2 (finite_doubles g GF) (periods_doubles _ PO) (near_fok _ NG) E0) as (s0 & HN & SG & D0).
  destruct (next_fok g s0 1 f2 (finite_doubles g GF) HN) as [_ X]; auto.
  { assert (EP : fp_period f = fp_period s0) by apply SG. rewrite <- EP. apply periods_doubles. exact PO. }
  destruct (X ltac:(discriminate)) as (xs & Lx & Fx & EI).
  assert (EP : fp_period f = fp_period s0) by apply SG. assert (ED : fp_dims f = fp_dims s0) by apply SG. rewrite <- EP, <- ED in *.
  destruct F as (A1 & A2 & A3 & A4 & A5 & A6). assert (Hd : fp_dims f = [d0; d1]%Z) by apply A2. rewrite Hd in *.
  destruct G as (_ & _ & _ & _ & NF). rewrite EI in *.
  apply truncate_grid_fok; auto; [apply dims_range; apply A1|].
  eapply Forall_impl; [|exact NF]. apply near_castable.
Qed.

(** ** Guesses *)
Lemma near_div : forall z c, (0 <= z <= 2 ^ 31 - 1)%Z -> dbl c -> 1 <= fval c -> nearF (ndiv (nofZ z) c).
Proof.
  intros z c Hz Dc Pc. destruct (f_ofZ z ltac:(lia)) as [DD DV]. assert (B : 0 <= IZR z <= 2147483647) by (split; apply IZR_le; lia).
  assert (Q : 0 <= IZR z / fval c <= IZR z).
  { assert (I : 0 < / fval c <= 1) by (split; [apply Rinv_0_lt_compat; lra|rewrite <- Rinv_1; apply Rinv_le; lra]). unfold Rdiv. split; nra. }
  destruct (f_div (nofZ z) c DD Dc ltac:(lra)) as [E1 E2]; [rewrite DV; apply small_R; rewrite Rabs_pos_eq; lra|].
  split; auto. rewrite E2, DV. split.
  - rewrite <- (rnd_Z 0) by lia. apply rnd_le. apply Q.
  - apply Rle_trans with (rnd (IZR z)); [apply rnd_le; apply Q|rewrite rnd_Z by lia; lra].
Qed.

Lemma two_near : dbl n2 /\ 1 <= fval n2.
Proof. split; [split; reflexivity|]. unfold fval, n2. vm_compute (nofZ _). cbn [SF2R cond_Zopp]. unfold F2R. simpl. lra. Qed.

Lemma sideGuess_near : forall a b d0 d1, (-1 <= a <= 1)%Z -> (-1 <= b <= 1)%Z -> (2 <= d0 <= 2 ^ 30)%Z -> (2 <= d1 <= 2 ^ 30)%Z ->
  exists guess, ni_sideGuess (T:=spec_float) [a; b] (d0 - 1) (d1 - 1) = Ret guess /\ List.Forall nearF guess /\ length guess = 2%nat.
Proof.
  intros a b d0 d1 Ha Hb H0 H1. unfold ni_sideGuess.
  change (vget [a; b] 0) with (Ret a). change (vget [a; b] 1) with (Ret b). cbn [bind].
  assert (I : int_max = (2 ^ 31 - 1)%Z) by reflexivity. assert (J : int_min = (- 2 ^ 31)%Z) by reflexivity.
  rewrite chk_ok by lia. cbn [bind]. rewrite chk_ok by nia. cbn [bind].
  rewrite chk_ok by lia. cbn [bind]. rewrite chk_ok by nia. cbn [bind].
  eexists. split; [reflexivity|]. split; [|reflexivity]. destruct two_near as [T1 T2].
  constructor; [|constructor; [|constructor]]; apply near_div; auto; nia.
Qed.

Lemma retry_def : forall g d0 d1 coords x y fuel i f guess, gives_finite g -> readyP [d0; d1]%Z coords f -> (0 <= i < 9)%Z ->
  List.Forall nearF guess -> length guess = 2%nat ->
  exists ier f' guess', ni_retry g fuel (mkSide i 9 [3; 1]%Z) (d0 - 1) (d1 - 1) [x; y] f guess = Ret (ier, f', guess') /\
    readyP [d0; d1]%Z coords f' /\ List.Forall nearF guess' /\ length guess' = 2%nat /\ (fuel <> O -> nearG [d0; d1]%Z coords f').
Proof.
  intros g d0 d1 coords x y. induction fuel as [|fuel IH]; intros i f guess GF F Hi HG LG.
  - exists 1%Z, f, guess. split; [reflexivity|]. split; auto. split; auto. split; auto. congruence.
  - cbn [ni_retry]. destruct (side_cases i Hi) as (a & b & -> & Ha & Hb). cbn [bind].
    assert (D := dims2 d0 d1 ltac:(apply F)).
    destruct (sideGuess_near a b d0 d1) as (g' & -> & HG' & LG'); try lia. cbn [bind].
    destruct (find_def g d0 d1 coords f g' x y GF F HG' LG') as (ier & f' & -> & F' & G' & _). cbn [bind fst snd].
    unfold side_next at 1. cbn [sd_index sd_numElems sd_prodDims fst snd].
    assert (W : wrap64 (i + 1) = (i + 1)%Z) by (apply wrap64_small; lia). rewrite W.
    destruct ((if (i + 1 <? 9)%Z then 0%Z else 1%Z) =? 1)%Z eqn:E; cbn [orb].
    + exists ier, f', g'. auto.
    + destruct (Z.ltb_spec (i + 1) 9); [|discriminate].
      destruct (ier =? 0)%Z.
      * exists ier, f', g'. auto.
      * unfold side_next. cbn [sd_index sd_numElems sd_prodDims snd]. rewrite W.
        destruct fuel as [|fuel'].
        -- exists 1%Z, f', g'. split; [reflexivity|]. auto.
        -- destruct (IH (i + 1)%Z f' g' GF F' ltac:(lia) HG' LG') as (e & f2 & g2 & E2 & F2 & H2 & L2 & G2).
           exists e, f2, g2. split; [exact E2|]. split; [exact F2|]. split; [exact H2|]. split; [exact L2|]. intros _. apply G2. discriminate.
Qed.

Lemma error_near : forall dims coords s, nearG dims coords s -> exists e, fp_getError s = Ret e.
Proof.
  intros dims coords s (RD & _ & Lt & Li & NF). destruct RD as (HD & Hh & Hc & _). eapply error_cast; eauto.
  eapply Forall_impl; [|exact NF]. apply near_castable.
Qed.

Definition stF_ok (d0 d1 : Z) (coords : list (list spec_float)) (st : fp (T:=spec_float) * list spec_float * list (Z * list (Z * spec_float))) : Prop :=
  readyP [d0; d1]%Z coords (fst (fst st)) /\ List.Forall nearF (snd (fst st)) /\ length (snd (fst st)) = 2%nat.

Lemma node_def : forall g dc d0 d1 coords st k, gives_finite g -> stF_ok d0 d1 coords st ->
  (0 <= k)%Z -> (k * 2 + 1 < Z.of_nat (length dc))%Z ->
  exists st', ni_node g dc (d0 - 1) (d1 - 1) st k = Ret st' /\ stF_ok d0 d1 coords st'.
Proof.
  intros g dc d0 d1 coords [[f guess] ws] k GF (F & HG & LG) H0 H1. cbn [fst snd] in *. unfold ni_node.
  rewrite (vget_nth dc (k * 2) n0) by lia. rewrite (vget_nth dc (k * 2 + 1) n0) by lia. cbn [bind].
  generalize (nth (Z.to_nat (k * 2)) dc n0) (nth (Z.to_nat (k * 2 + 1)) dc n0). intros x y.
  destruct (find_def g d0 d1 coords f guess x y GF F HG LG) as (ier & f' & -> & F' & G' & IG). cbn [bind fst snd].
  destruct (Z.eqb_spec ier 0) as [E0|E0].
  - destruct (weights_held [d0; d1]%Z f' _ ltac:(apply F') ltac:(apply F') (IG E0)) as (c & iw & -> & _).
    cbn [bind]. eexists. split; [reflexivity|]. split; auto.
  - destruct (ier =? -3)%Z; [eexists; split; [reflexivity|split; auto]|].
    change (side_new 2) with (Ret (mkSide 0 9 [3; 1]%Z)). cbn [bind].
    change (side_reset (mkSide 0 9 [3; 1]%Z)) with (mkSide 0 9 [3; 1]%Z).
    destruct (retry_def g d0 d1 coords x y 10 0 f' guess GF F' ltac:(lia) HG LG) as (e & f2 & g2 & -> & F2 & HG2 & LG2 & G2).
    cbn [bind]. destruct (e =? 0)%Z; [eexists; split; [reflexivity|split; auto]|].
    destruct (error_near _ _ _ (G2 ltac:(discriminate))) as [er ->]. cbn [bind].
    eexists; split; [reflexivity|split; auto].
Qed.

Lemma lit_guess : (dbl (lit 214423 100000) /\ 1 <= fval (lit 214423 100000)) /\ (dbl (lit 193265 100000) /\ 1 <= fval (lit 193265 100000)).
Proof.
  assert (K : forall x : spec_float, dbl x -> nle n1 x = true -> dbl x /\ 1 <= fval x).
  { intros x D L. split; auto. destruct one_val as [OD OV]. rewrite f_le in L by auto. rewrite OV in L. apply Rleb_true in L. exact L. }
  split; apply K; try (vm_compute; reflexivity); split; vm_compute; reflexivity.
Qed.

Theorem compute_def : forall g (s : ni (T:=spec_float)) d0 d1 coords n dc, gives_finite g ->
  readyP [d0; d1]%Z coords (ni_finder s) -> ni_src s = Some (d0, d1) -> ni_dst s = Some (n, dc) ->
  (Z.of_nat (length dc) = 2 * n)%Z ->
  exists s', ni_computeWeights g s = Ret s' /\ readyP [d0; d1]%Z coords (ni_finder s') /\ ni_src s' = ni_src s /\ ni_dst s' = ni_dst s.
Proof.
  intros g s d0 d1 coords n dc GF F ES ED LD. unfold ni_computeWeights. rewrite ES, ED.
  assert (D := dims2 d0 d1 ltac:(apply F)).
  assert (I : int_max = (2 ^ 31 - 1)%Z) by reflexivity. assert (J : int_min = (- 2 ^ 31)%Z) by reflexivity.
  rewrite !chk_ok by lia. cbn [bind].
  destruct lit_guess as ((A1 & A2) & (A3 & A4)).
  set (guess := [_; _]).
  assert (HG : List.Forall nearF guess) by (unfold guess; constructor; [|constructor; [|constructor]]; apply near_div; auto; lia).
  destruct (foldM_total (stF_ok d0 d1 coords) (ni_node g dc (d0 - 1) (d1 - 1)) (range n) (ni_finder s, guess, []))
    as ([[f' g'] ws'] & E & P1 & P2).
  - split; auto.
  - intros st k P Hk. apply in_range in Hk. apply node_def; auto; lia.
  - rewrite E. cbn [bind]. eexists. split; [reflexivity|]. cbn. auto.
Qed.

(** ** Histories of calls *)
Definition dstF_ok (s : ni (T:=spec_float)) : Prop :=
  match ni_dst s with None => True | Some (n, dc) => (Z.of_nat (length dc) = 2 * n)%Z end.

Definition ni_invP (nit : Z) (s : ni (T:=spec_float)) : Prop :=
  dstF_ok s /\ fp_nitermax (ni_finder s) = nit /\ List.Forall period_ok (fp_period (ni_finder s)) /\
  match ni_src s with None => True | Some (d0, d1) => exists coords, readyP [d0; d1]%Z coords (ni_finder s) end.

Lemma setDst_lenF : forall (s s' : ni (T:=spec_float)) d0 d1 c0 c1, ni_setDstGrid s d0 d1 c0 c1 = Ret s' ->
  dstF_ok s' /\ ni_finder s' = ni_finder s /\ ni_src s' = ni_src s.
Proof.
  intros s s' d0 d1 c0 c1 HS. unfold ni_setDstGrid in HS.
  apply bind_ret_inv in HS. destruct HS as (? & _ & HS). apply bind_ret_inv in HS. destruct HS as (? & _ & HS).
  apply bind_ret_inv in HS. destruct HS as (cs & HC & HS). injection HS as <-. split; [|auto].
  unfold dstF_ok. cbn [ni_dst]. set (n := wrap64 _) in *.
  assert (0 <= n)%Z by (unfold n, wrap64; apply Z.mod_pos_bound; lia).
  unfold ni_copy in HC. apply bind_ret_inv in HC. destruct HC as (l & HM & HC). injection HC as <-.
  assert (L := mapM_length _ _ _ HM). unfold range in L. rewrite zseq_length in L.
  assert (F : List.Forall (fun v => length v = 2%nat) l).
  { apply mapM_inv in HM. clear - HM. induction HM as [|k v ks vs E _ IH]; constructor; auto.
    apply bind_ret_inv in E. destruct E as (? & _ & E). apply bind_ret_inv in E. destruct E as (? & _ & E).
    injection E as <-. reflexivity. }
  assert (LC : length (concat l) = (2 * length l)%nat).
  { clear - F. induction F; simpl; auto. rewrite app_length. lia. }
  lia.
Qed.

Lemma run_invP : forall g nit tol ops s, gives_finite g -> (nit <= int_max)%Z -> List.Forall opF_ok ops ->
  ni_run g ops (ni_new nit tol) = Ret s -> ni_invP nit s.
Proof.
  intros g nit tol ops s GF Hn HO H. rewrite Forall_forall in HO. unfold ni_run in H.
  apply (foldM_inv (ni_invP nit)) in H; auto.
  - unfold ni_invP, dstF_ok. cbn. auto.
  - intros s1 o s2 (P1 & P2 & P3 & P4) Hin HS. apply HO in Hin.
    destruct o as [d0 d1 c0 c1|d0 d1 p0 p1 c0 c1|]; cbn [ni_step] in HS.
    + apply setDst_lenF in HS. destruct HS as (A & B & C). unfold ni_invP. rewrite B, C. auto.
    + cbn [opF_ok] in Hin. destruct (setSrc_result _ _ _ _ _ _ _ _ Hin HS) as (A0 & A1 & A2 & A3 & A4 & A5 & A6 & A7 & A8).
      assert (FP : List.Forall period_ok (fp_period (ni_finder s2))).
      { destruct (setGrid_ok (ni_finder s1) [d0; d1]%Z [p0; p1] [c0; c1] Hin) as (f & E & _ & _ & _ & _ & _ & _ & _ & Pe & _). rewrite A0 in E. injection E as <-.
        rewrite Pe. apply periods_ok; [apply resize_periods; auto|apply dims_range; apply Hin]. }
      unfold ni_invP, dstF_ok. rewrite A5, A7, A8. split; auto. split; auto. split; auto. exists [c0; c1].
      split; auto. unfold fp_ready. rewrite A5, P2. tauto.
    + destruct (ni_src s1) as [[d0 d1]|] eqn:E1; [|unfold ni_computeWeights in HS; rewrite E1 in HS; discriminate].
      destruct P4 as (coords & RF). assert (RF' := RF). destruct RF' as [(F & (F2 & _) & _ & _ & F3 & _) _].
      apply compute_keeps in HS; auto; [|rewrite F2; discriminate].
      destruct HS as (A & B & C). unfold ni_invP, dstF_ok. rewrite B, C, E1. assert (Q := readyP_twin _ _ _ _ RF A).
      split; auto. split; [rewrite <- P2; symmetry; apply A|]. split; [apply Q|]. exists coords. auto.
Qed.

(** ** Cells under a polygon *)
Lemma points_def : forall g d0 d1 coords (f0 : fp (T:=spec_float)) poly m0 m1, gives_finite g -> readyP [d0; d1]%Z coords f0 ->
  forall rest k f b0 b1, skipn k poly = rest -> twin f0 f ->
  exists r, foldM (fo_point g d0 d1 m0 m1 (flat_points poly)) (map Z.of_nat (seq k (length rest))) (f, (b0, b1)) = Ret r.
Proof.
  intros g d0 d1 coords f0 poly m0 m1 GF F0. induction rest as [|[x y] rest IH]; intros k f b0 b1 SK TW; [eexists; reflexivity|].
  destruct (readyP_twin _ _ _ _ F0 TW) as [F PO]. assert (HD := F). destruct HD as (HD & HH & _). assert (R := dims_range _ (proj1 (proj2 HD))).
  apply Forall_cons_iff in R. destruct R as [D0 R]. apply Forall_cons_iff in R. destruct R as [D1 _].
  cbn [length seq map foldM]. unfold fo_point at 1. cbn [fst snd].
  replace (Z.to_nat (Z.of_nat k * 2)) with (2 * k)%nat by lia. rewrite flat_skip, SK. cbn [flat_points flat_map app fst snd].
  assert (LD : length (fp_dims f) = 2%nat) by (destruct HH as (-> & _); reflexivity).
  rewrite reset_prefix by auto.
  destruct (search_def g [d0; d1]%Z coords f (fo_guess d0 d1) [x; y] GF F PO (guessF d0 d1 D0 D1) eq_refl eq_refl) as (f1 & code & f2 & -> & ES & TW2 & G).
  cbn [bind]. rewrite ES. cbn [bind snd].
  destruct G as (_ & _ & _ & L2 & _). remember (fp_dIndices f2) as q eqn:EQ. destruct q as [|qx [|qy [|]]]; try discriminate L2.
  rewrite vget2_0, vget2_1. cbn [bind]. apply IH; [|exact (twin_trans _ _ _ TW TW2)].
  clear - SK. revert poly SK. induction k as [|k IHk]; intros poly SK; [cbn [skipn] in *; rewrite SK; reflexivity|]. destruct poly as [|p poly]; [discriminate|]. apply IHk. exact SK.
Qed.

Theorem find_cells_def : forall g d0 d1 coords poly (s : fo spec_float) f0, gives_finite g -> readyP [d0; d1]%Z coords f0 -> (1 <= fp_nitermax f0 < int_max)%Z ->
  fo_nodeDims s = [d0; d1]%Z -> fo_prodDims s = [d1; 1%Z] -> twin f0 (fo_finder s) ->
  fo_points s = flat_points poly -> fo_numPoints s = Some (Z.of_nat (length poly)) -> poly <> [] ->
  exists s', fo_findSrcCellIndices g s = Ret s'.
Proof.
  intros g d0 d1 coords poly s f0 GF F0 NI ED EP TW EPT EN NE.
  assert (HD : grid_data [d0; d1]%Z coords) by apply F0. assert (Hok : grid_ok [d0; d1]%Z) by apply HD.
  assert (R := dims_range _ Hok). apply Forall_cons_iff in R. destruct R as [D0 R]. apply Forall_cons_iff in R. destruct R as [D1 _].
  assert (DM : (d0 * d1 <= int_max)%Z) by (destruct Hok as [_ Hok]; cbn [grid_size] in Hok; unfold int_max; lia).
  unfold fo_findSrcCellIndices, fo_indexBox. rewrite ED, EN, EPT, EP.
  rewrite !vget2_0, !vget2_1. cbn [bind].
  rewrite (chk_ok (d0 - 1)) by (unfold int_min, int_max; lia). cbn [bind]. rewrite (chk_ok (d1 - 1)) by (unfold int_min, int_max; lia). cbn [bind].
  assert (RG : range (Z.of_nat (length poly)) = map Z.of_nat (seq 0 (length poly))) by (unfold range, zseq; rewrite Nat2Z.id; reflexivity).
  rewrite RG. 
  destruct (points_def g d0 d1 coords f0 poly (nofZ (d0 - 1)) (nofZ (d1 - 1)) GF F0 poly 0 (fo_finder s) (nofZ (d0 - 1), n0) (nofZ (d1 - 1), n0) eq_refl TW) as ([f' [b0 b1]] & E).
  assert (AB : forall d, (2 <= d <= 2 ^ 31 - 1)%Z -> axis_boxF (IZR (d - 1)) [] (nofZ (d - 1), n0)).
  { intros d Hd. assert (B := dim_R d Hd). destruct (f_ofZ (d - 1) ltac:(lia)) as [DD DV]. destruct zero_val as [ZD ZV]. split; [exact DD|]. split; [exact ZD|].
    unfold axis_box, box_val. cbn [fst snd]. rewrite DV, ZV. split; [lra|]. split; [intros q []|]. split; [auto|]. split; [intros q []|auto]. }
  destruct (points_F g d0 d1 coords f0 poly (finite_doubles g GF) (proj1 F0) (proj2 F0) NI poly 0 (fo_finder s) _ _ [] f' b0 b1 eq_refl TW (AB d0 D0) (AB d1 D1) E)
    as (qs & TW' & FO & IG & B0 & B1).
  rewrite E. cbn [app bind fst snd] in *.
  assert (QN : qs <> []) by (inversion FO; subst; congruence).
  assert (NRJ : forall j, (j < 2)%nat -> List.Forall nearF (map (fun q => nth j q n0) qs)).
  { intros j Hj. apply Forall_forall. intros x Hx. apply in_map_iff in Hx. destruct Hx as (q & <- & Iq). rewrite Forall_forall in IG. destruct (IG q Iq) as (_ & NQ & LQ).
    rewrite Forall_forall in NQ. apply NQ. apply nth_In. lia. }
  assert (NE' : forall j : nat, map (fun q => nth j q n0) qs <> []) by (intros j C; destruct qs; [congruence|discriminate]).
  assert (PM : forall j, positionsF qs j = map fval (map (fun q => nth j q n0) qs)) by (intros j; unfold positionsF; rewrite map_map; reflexivity).
  rewrite PM in B0, B1.
  destruct (intBoxF d0 _ b0 D0 (NE' 0%nat) (NRJ 0%nat ltac:(lia)) B0) as (a0 & h0 & E0 & R0 & I0).
  destruct (intBoxF d1 _ b1 D1 (NE' 1%nat) (NRJ 1%nat ltac:(lia)) B1) as (a1 & h1 & E1 & R1 & I1).
  rewrite E0, E1. cbn [bind fst snd].
  destruct (fo_cells_ok d0 d1 a0 a1 h0 h1) as (it & EB & EM); auto; try lia. rewrite EB. cbn [bind]. rewrite EM. cbn [bind]. eauto.
Qed.
