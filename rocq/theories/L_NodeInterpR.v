(** Node interpolation in exact arithmetic. *)
From Coq Require Import ZArith List Bool Lia Reals Lra.
From Verif Require Import Base Num NumR M_LinearSolve M_FindPoint M_SideIterator M_NodeInterp S_Grid S_Interp
  L_LinearSolve L_Interp L_FindPoint L_FindPointR L_FindPointA L_FindPointB L_NodeInterp.
Import ListNotations.
Open Scope R_scope.

Definition fp_ready {T} {N : Num T} (dims : list Z) (coords : list (list T)) (f : fp (T:=T)) : Prop :=
  grid_data dims coords /\ fp_holds dims f /\ fp_coords f = coords /\
  length (fp_period f) = length dims /\ solver_ok f /\ (fp_nitermax f <= int_max)%Z.

Lemma ready_twin : forall {T} {N : Num T} dims coords (f f' : fp (T:=T)), fp_ready dims coords f -> twin f f' -> fp_ready dims coords f'.
Proof.
  intros T N dims coords f f' (A1 & A2 & A3 & A4 & A5 & A6) (D & G & W1 & W2).
  destruct G as (Gc & Gmin & Gmax & Gp & Gnp & Gper & Gd & Gn & Gt).
  unfold fp_ready, fp_holds in *. rewrite <- Gd, <- Gp, <- Gnp, <- Gc, <- Gper, <- Gn. tauto.
Qed.

Lemma find_total : forall g dims coords f guess target, fp_ready dims coords f -> in_grid dims guess ->
  length target = length dims ->
  exists ier f', ni_findTarget g f guess target = Ret (ier, f') /\ fp_ready dims coords f' /\ fp_good dims coords f'.
Proof.
  intros g dims coords f guess target F HG HT. assert (F' := F). destruct F' as (A1 & A2 & A3 & A4 & A5 & A6).
  assert (Hd : fp_dims f = dims) by apply A2. assert (L := in_grid_length _ _ HG).
  assert (D : fp_dims f <> []) by (rewrite Hd; apply A1).
  unfold ni_findTarget. assert (RO := reset_ok f guess target ltac:(congruence) ltac:(congruence)).
  rewrite RO. cbn [bind]. set (s := mkFp _ _ _ _ _ _ _ _ _ _ _ _ _ _ _) in *.
  assert (Gs : fp_good dims coords s).
  { unfold fp_good. repeat (split; [first [exact A1|exact A2|exact A3|exact A4|exact HT|exact A5]|]). exact HG. }
  destruct (loop_ends g dims coords s Gs eq_refl A6) as (code & s' & E & C & G').
  assert (E' : fp_loop g (S (Z.to_nat (fp_nitermax s))) s = Ret (Some (code, s'))).
  { eapply loop_mono; [exact E|]. lia. }
  unfold fp_search. rewrite E'. cbn [bind fst snd].
  assert (TW : twin s s').
  { apply (loop_result g _ s (code, s')) in E'; [apply E'| |apply Gs]. exact D. }
  assert (TF : fp_ready dims coords s').
  { apply (ready_twin _ _ s); [|exact TW]. unfold fp_ready. split; auto. }
  destruct (0 <? code)%Z; eexists; eexists; (split; [reflexivity|auto]).
Qed.

Lemma side_cases : forall i, (0 <= i < 9)%Z -> exists a b, side_get (mkSide i 9 [3; 1]%Z) = Ret [a; b] /\
  (-1 <= a <= 1)%Z /\ (-1 <= b <= 1)%Z.
Proof.
  intros i H. assert (C : (i = 0 \/ i = 1 \/ i = 2 \/ i = 3 \/ i = 4 \/ i = 5 \/ i = 6 \/ i = 7 \/ i = 8)%Z) by lia.
  repeat (destruct C as [-> |C]; [eexists; eexists; split; [vm_compute; reflexivity|lia]|]).
  subst. eexists; eexists; split; [vm_compute; reflexivity|lia].
Qed.

Lemma sideGuess_ok : forall a b d0 d1, (-1 <= a <= 1)%Z -> (-1 <= b <= 1)%Z ->
  (2 <= d0)%Z -> (2 <= d1)%Z -> (d0 <= 2 ^ 30)%Z -> (d1 <= 2 ^ 30)%Z ->
  exists guess, ni_sideGuess (T:=R) [a; b] (d0 - 1) (d1 - 1) = Ret guess /\ in_grid [d0; d1] guess.
Proof.
  intros a b d0 d1 Ha Hb H0 H1 H2 H3. unfold ni_sideGuess.
  change (vget [a; b] 0) with (Ret a). change (vget [a; b] 1) with (Ret b). cbn [bind].
  assert (I : int_max = (2 ^ 31 - 1)%Z) by reflexivity. assert (J : int_min = (- 2 ^ 31)%Z) by reflexivity.
  rewrite chk_ok by lia. cbn [bind]. rewrite chk_ok by nia. cbn [bind].
  rewrite chk_ok by lia. cbn [bind]. rewrite chk_ok by nia. cbn [bind].
  eexists. split; [reflexivity|].
  assert (B : forall a d, (-1 <= a <= 1)%Z -> (2 <= d)%Z -> 0 <= IZR ((a + 1) * (d - 1)) / 2 <= IZR (d - 1)).
  { intros x d Hx Hd. assert (0 <= IZR ((x + 1) * (d - 1))) by (apply IZR_le; nia).
    assert (IZR ((x + 1) * (d - 1)) <= 2 * IZR (d - 1)) by (rewrite <- mult_IZR; apply IZR_le; nia). lra. }
  constructor; [apply B; auto|]. constructor; [apply B; auto|constructor].
Qed.

Lemma dims2 : forall d0 d1, grid_ok [d0; d1] -> (2 <= d0 <= 2 ^ 30 /\ 2 <= d1 <= 2 ^ 30)%Z.
Proof.
  intros d0 d1 [H1 H2]. inversion H1 as [|? ? A H3]; subst. inversion H3 as [|? ? B H4]; subst.
  cbn [grid_size] in H2. nia.
Qed.

Lemma retry_total : forall g d0 d1 coords x y fuel i f guess, fp_ready [d0; d1]%Z coords f ->
  (0 <= i < 9)%Z -> in_grid [d0; d1] guess ->
  exists ier f' guess', ni_retry g fuel (mkSide i 9 [3; 1]%Z) (d0 - 1) (d1 - 1) [x; y] f guess = Ret (ier, f', guess') /\
    fp_ready [d0; d1] coords f' /\ in_grid [d0; d1] guess' /\ (fuel <> O -> fp_good [d0; d1] coords f').
Proof.
  intros g d0 d1 coords x y. induction fuel as [|fuel IH]; intros i f guess F Hi HG.
  - exists 1%Z, f, guess. split; [reflexivity|]. split; auto. split; auto. congruence.
  - cbn [ni_retry]. destruct (side_cases i Hi) as (a & b & -> & Ha & Hb). cbn [bind].
    assert (D := dims2 d0 d1 ltac:(apply F)).
    destruct (sideGuess_ok a b d0 d1) as (g' & -> & HG'); try lia. cbn [bind].
    destruct (find_total g _ _ _ g' [x; y] F HG' eq_refl) as (ier & f' & -> & F' & G'). cbn [bind fst snd].
    unfold side_next at 1. cbn [sd_index sd_numElems sd_prodDims fst snd].
    assert (W : wrap64 (i + 1) = (i + 1)%Z) by (apply wrap64_small; lia). rewrite W.
    destruct ((if (i + 1 <? 9)%Z then 0%Z else 1%Z) =? 1)%Z eqn:E; cbn [orb].
    + exists ier, f', g'. auto.
    + destruct (Z.ltb_spec (i + 1) 9); [|discriminate].
      destruct (ier =? 0)%Z.
      * exists ier, f', g'. auto.
      * unfold side_next. cbn [sd_index sd_numElems sd_prodDims snd]. rewrite W.
        destruct fuel as [|fuel'].
        -- exists 1%Z, f', g'. split; [reflexivity|]. auto.
        -- destruct (IH (i + 1)%Z f' g' F' ltac:(lia) HG') as (e & f2 & g2 & E2 & F2 & H2 & G2).
           exists e, f2, g2. auto.
Qed.

Lemma getError_total : forall dims coords f, fp_good dims coords f -> is_ret (fp_getError f).
Proof. intros dims coords f G. eexists. apply (getError_R dims coords). exact G. Qed.

Definition st_ok (d0 d1 : Z) (coords : list (list R)) (st : fp (T:=R) * list R * list (Z * list (Z * R))) : Prop :=
  fp_ready [d0; d1]%Z coords (fst (fst st)) /\ in_grid [d0; d1] (snd (fst st)) /\
  forall k iw, In (k, iw) (snd st) -> convex_weights (d0 * d1) iw.

Lemma node_total : forall g dc d0 d1 coords st k, st_ok d0 d1 coords st ->
  (0 <= k)%Z -> (k * 2 + 1 < Z.of_nat (length dc))%Z ->
  exists st', ni_node g dc (d0 - 1) (d1 - 1) st k = Ret st' /\ st_ok d0 d1 coords st'.
Proof.
  intros g dc d0 d1 coords [[f guess] ws] k (F & HG & CW) H0 H1. cbn [fst snd] in *. unfold ni_node.
  rewrite (vget_nth dc (k * 2) 0) by lia. rewrite (vget_nth dc (k * 2 + 1) 0) by lia. cbn [bind].
  set (x := nth (Z.to_nat (k * 2)) dc 0). set (y := nth (Z.to_nat (k * 2 + 1)) dc 0).
  destruct (find_total g _ _ _ guess [x; y] F HG eq_refl) as (ier & f' & -> & F' & G'). cbn [bind fst snd].
  destruct (ier =? 0)%Z.
  - destruct G' as (_ & Hh & _ & _ & _ & _ & Hx). assert (Hok : grid_ok [d0; d1]) by apply F.
    destruct (weights_partition_holds f' [d0; d1]%Z Hok Hh _ Hx) as (c & iw & -> & _ & _ & _ & _ & B & S).
    cbn [bind]. eexists. split; [reflexivity|]. split; auto. split; auto. cbn [snd].
    intros k' iw' Hin. apply insert_in in Hin. destruct Hin as [[_ ->]|Hin]; [|eauto].
    split; auto. intros k2 w Hk. apply B in Hk. cbn [grid_size] in Hk. rewrite Z.mul_1_r in Hk. auto.
  - destruct (ier =? -3)%Z; [eexists; split; [reflexivity|split; auto]|].
    change (side_new 2) with (Ret (mkSide 0 9 [3; 1]%Z)). cbn [bind].
    change (side_reset (mkSide 0 9 [3; 1]%Z)) with (mkSide 0 9 [3; 1]%Z).
    destruct (retry_total g d0 d1 coords x y 10 0 f' guess F' ltac:(lia) HG) as (e & f2 & g2 & -> & F2 & HG2 & G2).
    cbn [bind]. destruct (e =? 0)%Z; [eexists; split; [reflexivity|split; auto]|].
    destruct (getError_total _ _ _ (G2 ltac:(discriminate))) as [er ->]. cbn [bind].
    eexists; split; [reflexivity|split; auto].
Qed.

Lemma compute_total : forall g (s : ni (T:=R)) d0 d1 coords n dc,
  fp_ready [d0; d1]%Z coords (ni_finder s) -> ni_src s = Some (d0, d1) -> ni_dst s = Some (n, dc) ->
  (Z.of_nat (length dc) = 2 * n)%Z ->
  exists s', ni_computeWeights g s = Ret s' /\ fp_ready [d0; d1]%Z coords (ni_finder s') /\
    forall k iw, In (k, iw) (ni_weights s') -> convex_weights (d0 * d1) iw.
Proof.
  intros g s d0 d1 coords n dc F ES ED LD. unfold ni_computeWeights. rewrite ES, ED.
  assert (D := dims2 d0 d1 ltac:(apply F)).
  assert (I : int_max = (2 ^ 31 - 1)%Z) by reflexivity. assert (J : int_min = (- 2 ^ 31)%Z) by reflexivity.
  rewrite !chk_ok by lia. cbn [bind].
  set (guess := [_; _]).
  assert (HG : in_grid [d0; d1] guess).
  { assert (0 < IZR (d0 - 1)) by (apply IZR_lt; lia). assert (0 < IZR (d1 - 1)) by (apply IZR_lt; lia).
    unfold guess. rewrite !lit_R. cbn [ndiv nofZ NumR].
    constructor; [|constructor; [|constructor]].
    - replace (IZR (d0 - 1) / (214423 / 100000)) with (IZR (d0 - 1) * (100000 / 214423)) by (field; lra). lra.
    - replace (IZR (d1 - 1) / (193265 / 100000)) with (IZR (d1 - 1) * (100000 / 193265)) by (field; lra). lra. }
  destruct (foldM_total (st_ok d0 d1 coords) (ni_node g dc (d0 - 1) (d1 - 1)) (range n) (ni_finder s, guess, []))
    as ([[f' g'] ws'] & E & P1 & P2 & P3).
  - split; auto. split; auto. intros k iw [].
  - intros st k P Hk. apply in_range in Hk. apply node_total; auto; lia.
  - rewrite E. cbn [bind]. eexists. split; [reflexivity|]. cbn. auto.
Qed.

(** Number and coordinates of the destination nodes fit. *)
Definition dst_ok (s : ni (T:=R)) : Prop :=
  match ni_dst s with None => True | Some (n, dc) => (Z.of_nat (length dc) = 2 * n)%Z end.

Definition op_ok (o : ni_op (T:=R)) : Prop :=
  match o with NSetSrc d0 d1 _ _ c0 c1 => grid_data [d0; d1]%Z [c0; c1] | _ => True end.

Definition ni_inv (nit : Z) (s : ni (T:=R)) : Prop :=
  dst_ok s /\ fp_nitermax (ni_finder s) = nit /\
  match ni_src s with
  | None => True
  | Some (d0, d1) => exists coords, fp_ready [d0; d1]%Z coords (ni_finder s)
  end.

Lemma setDst_len : forall (s s' : ni (T:=R)) d0 d1 c0 c1, ni_setDstGrid s d0 d1 c0 c1 = Ret s' ->
  dst_ok s' /\ ni_finder s' = ni_finder s /\ ni_src s' = ni_src s.
Proof.
  intros s s' d0 d1 c0 c1 HS. unfold ni_setDstGrid in HS.
  apply bind_ret_inv in HS. destruct HS as (? & _ & HS). apply bind_ret_inv in HS. destruct HS as (? & _ & HS).
  apply bind_ret_inv in HS. destruct HS as (cs & HC & HS). injection HS as <-. split; [|auto].
  unfold dst_ok. cbn [ni_dst]. set (n := wrap64 _) in *.
  assert (0 <= n)%Z by (unfold n, wrap64; apply Z.mod_pos_bound; lia).
  unfold ni_copy in HC. apply bind_ret_inv in HC. destruct HC as (l & HM & HC). injection HC as <-.
  assert (L := mapM_length _ _ _ HM). unfold range in L. rewrite zseq_length in L.
  assert (F : Forall (fun v => length v = 2%nat) l).
  { apply mapM_inv in HM. clear - HM. induction HM as [|k v ks vs E _ IH]; constructor; auto.
    apply bind_ret_inv in E. destruct E as (? & _ & E). apply bind_ret_inv in E. destruct E as (? & _ & E).
    injection E as <-. reflexivity. }
  assert (LC : length (concat l) = (2 * length l)%nat).
  { clear - F. induction F; simpl; auto. rewrite app_length. lia. }
  lia.
Qed.

Lemma run_inv : forall g nit tol ops s, (nit <= int_max)%Z -> Forall op_ok ops ->
  ni_run g ops (ni_new nit tol) = Ret s -> ni_inv nit s.
Proof.
  intros g nit tol ops s Hn HO H. rewrite Forall_forall in HO. unfold ni_run in H.
  apply (foldM_inv (ni_inv nit)) in H; auto.
  - unfold ni_inv, dst_ok. cbn. auto.
  - intros s1 o s2 (P1 & P2 & P3) Hin HS. apply HO in Hin.
    destruct o as [d0 d1 c0 c1|d0 d1 p0 p1 c0 c1|]; cbn [ni_step] in HS.
    + apply setDst_len in HS. destruct HS as (A & B & C). unfold ni_inv. rewrite B, C. auto.
    + cbn [op_ok] in Hin. destruct (setSrc_result _ _ _ _ _ _ _ _ Hin HS) as (_ & A1 & A2 & A3 & A4 & A5 & A6 & A7 & A8).
      unfold ni_inv, dst_ok. rewrite A5, A7, A8. split; auto. split; auto. exists [c0; c1].
      unfold fp_ready. rewrite A5, P2. tauto.
    + destruct (ni_src s1) as [[d0 d1]|] eqn:E1; [|unfold ni_computeWeights in HS; rewrite E1 in HS; discriminate].
      destruct P3 as (coords & F). apply compute_keeps in HS; [| |apply F].
      * destruct HS as (A & B & C). unfold ni_inv, dst_ok. rewrite B, C, E1. split; auto. split.
        -- rewrite <- P2. symmetry. apply A.
        -- exists coords. eapply ready_twin; eauto.
      * destruct F as (F & (F2 & _) & _). rewrite F2. apply F.
Qed.

(** Weighted sums over the reals. *)
Lemma weighted_R : forall size iw field, convex_weights size iw -> Z.of_nat (length field) = size ->
  weighted iw field = Ret (lsum (map (fun kw => snd kw * nth (Z.to_nat (fst kw)) field 0) iw)).
Proof.
  intros size iw field [H _] L. unfold weighted.
  rewrite (foldM_lsum _ (fun kw => snd kw * nth (Z.to_nat (fst kw)) field 0)).
  - change (n0 : R) with 0. rewrite Rplus_0_l. reflexivity.
  - intros acc [k w] Hin. apply H in Hin. cbn [fst snd].
    rewrite (vget_nth field k 0) by lia. reflexivity.
Qed.

Lemma weighted_bounds : forall size iw field lo hi r, convex_weights size iw -> Z.of_nat (length field) = size ->
  (forall v, In v field -> lo <= v <= hi) -> weighted iw field = Ret r -> lo <= r <= hi.
Proof.
  intros size iw field lo hi r C L B H. rewrite (weighted_R size) in H by auto. injection H as <-.
  destruct C as [C S]. 
  assert (A : forall l : list (Z * R), (forall k w, In (k, w) l -> (0 <= k < size)%Z /\ 0 <= w <= 1) ->
    lo * lsum (map snd l) <= lsum (map (fun kw => snd kw * nth (Z.to_nat (fst kw)) field 0) l) <= hi * lsum (map snd l)).
  { induction l as [|[k w] l IH]; intros HL; cbn [map lsum fst snd]; [lra|].
    destruct (HL k w ltac:(simpl; auto)) as [Hk Hw].
    assert (Bk := B (nth (Z.to_nat k) field 0) ltac:(apply nth_In; lia)).
    assert (I := IH ltac:(intros; apply HL; simpl; auto)).
    assert (w * lo <= w * nth (Z.to_nat k) field 0) by (apply Rmult_le_compat_l; lra).
    assert (w * nth (Z.to_nat k) field 0 <= w * hi) by (apply Rmult_le_compat_l; lra). lra. }
  assert (A' := A iw C). rewrite S in A'. lra.
Qed.

Lemma weighted_linear : forall size iw f1 f2 f3 a b r1 r2, convex_weights size iw ->
  Z.of_nat (length f1) = size -> Z.of_nat (length f2) = size -> Z.of_nat (length f3) = size ->
  (forall i, (i < length f3)%nat -> nth i f3 0 = a * nth i f1 0 + b * nth i f2 0) ->
  weighted iw f1 = Ret r1 -> weighted iw f2 = Ret r2 -> weighted iw f3 = Ret (a * r1 + b * r2).
Proof.
  intros size iw f1 f2 f3 a b r1 r2 C L1 L2 L3 H E1 E2.
  rewrite (weighted_R size) in E1, E2 by auto. injection E1 as <-. injection E2 as <-.
  rewrite (weighted_R size) by auto. f_equal. destruct C as [C _].
  revert C. induction iw as [|[k w] iw IH]; intros C; cbn [map lsum fst snd]; [ring|].
  rewrite IH by (intros; apply C; simpl; auto). destruct (C k w ltac:(simpl; auto)) as [Hk _].
  rewrite H by lia. ring.
Qed.

Theorem node_interp_bounds : forall g nit tol ops s d0 d1 n dc, (nit <= int_max)%Z -> Forall op_ok ops ->
  ni_run g ops (ni_new nit tol) = Ret s -> ni_src s = Some (d0, d1) -> ni_dst s = Some (n, dc) ->
  exists s', ni_computeWeights g s = Ret s' /\
  (forall k iw, In (k, iw) (ni_weights s') -> (0 <= k < n)%Z /\ convex_weights (d0 * d1) iw) /\
  NoDup (map fst (ni_weights s')).
Proof.
  intros g nit tol ops s d0 d1 n dc Hn HO HR ES ED.
  destruct (run_inv _ _ _ _ _ Hn HO HR) as (P1 & P2 & P3). rewrite ES in P3. destruct P3 as (coords & F).
  unfold dst_ok in P1. rewrite ED in P1.
  destruct (compute_total g s d0 d1 coords n dc F ES ED P1) as (s' & E & F' & CW).
  exists s'. split; auto.
  assert (K : keys_ok 0 n (ni_weights s')).
  { unfold ni_computeWeights in E. rewrite ES, ED in E.
    apply bind_ret_inv in E. destruct E as (e0 & _ & E). apply bind_ret_inv in E. destruct E as (e1 & _ & E).
    apply bind_ret_inv in E. destruct E as ([[f' g'] w'] & HF & E). injection E as <-. cbn [ni_weights].
    destruct F as (F1 & (F2 & _) & F3 & _ & F4 & _).
    assert (L2 : length coords = 2%nat) by apply F1.
    destruct coords as [|cx [|cy [|]]]; try discriminate.
    unfold range in HF. apply nodes_result with (cx := cx) (cy := cy) in HF; auto.
    - destruct HF as (_ & B & _). rewrite Z2Nat.id in B by lia. auto.
    - rewrite F2. discriminate.
    - rewrite F2. reflexivity. }
  split; [|apply K]. intros k iw Hin. split; [|eauto]. apply K in Hin. auto.
Qed.
