(** Point search, any arithmetic: no reading out of bounds as long as indices can be converted to int. *)
From Coq Require Import ZArith List Bool Lia.
From Verif Require Import Base Num M_LinearSolve M_FindPoint S_Grid L_LinearSolve L_Interp L_FindPoint L_FindPointR.
Import ListNotations.
Open Scope Z_scope.

Section Any.
Context {T : Type} {N : Num T}.

Definition castable (x : T) : Prop := exists z, to_int (nfloor x) = Ret z.

Lemma loCorner_cast : forall d x, 2 <= d <= 2 ^ 31 - 1 -> castable x ->
  exists c, fp_loCorner d x = Ret c /\ 0 <= c <= d - 2.
Proof.
  intros d x Hd (z & E). unfold fp_loCorner. rewrite E. cbn [bind].
  rewrite to_int32_small by lia. rewrite chk_ok by (unfold int_min, int_max; lia). cbn [bind].
  rewrite wrap64_small, to_int32_small by lia. eexists. split; [reflexivity|].
  destruct (Z.leb_spec 0 z); cbv iota; match goal with |- context [?a <=? ?b] => destruct (Z.leb_spec a b) end; lia.
Qed.

Lemma nodeWeight_cast : forall dims xs j acc w, grid_ok dims -> length xs = length dims -> Forall castable xs ->
  0 <= acc -> acc + grid_size dims <= 2 ^ 62 ->
  exists k w', fp_nodeWeight dims (fp_mkProd dims) (fp_mkNodeProd (length dims)) xs j acc w = Ret (k, w') /\ acc <= k < acc + grid_size dims.
Proof.
  induction dims as [|d ds IH]; intros xs j acc w Hok Lx Hx Hacc Hs.
  - exists acc, w. split; [reflexivity|]. simpl. lia.
  - destruct xs as [|x xs]; [discriminate|]. apply Forall_cons_iff in Hx. destruct Hx as [Hx Hxs].
    assert (HL := grid_ok_length _ Hok). cbn [length] in *.
    assert (Hok' := Hok). apply grid_ok_cons in Hok'. destruct Hok' as (Hd & Hok' & P & Q).
    rewrite mkProd_spec by auto. rewrite mkNodeProd_spec by lia. cbn [fp_nodeWeight].
    destruct (loCorner_cast d x ltac:(lia) Hx) as (c & E & C). rewrite E. cbn [bind].
    assert (P2 : 0 < 2 ^ Z.of_nat (length ds)) by (apply Z.pow_pos_nonneg; lia).
    destruct (2 ^ Z.of_nat (length ds) =? 0) eqn:E2; [apply Z.eqb_eq in E2; lia|].
    set (b := j / 2 ^ Z.of_nat (length ds) mod 2).
    assert (B : 0 <= b < 2) by (apply Z.mod_pos_bound; lia).
    rewrite (wrap64_small (c + b)) by lia. rewrite (to_int32_small (c + b)) by lia.
    cbn [grid_size] in *.
    assert (N0 : 0 <= grid_size ds * (c + b)) by (apply Z.mul_nonneg_nonneg; lia).
    assert (N1 : grid_size ds * (c + b) <= grid_size ds * (d - 1)) by (apply Z.mul_le_mono_nonneg_l; lia).
    assert (N2 : grid_size ds * (d - 1) + grid_size ds = d * grid_size ds) by ring.
    rewrite wrap64_small by (change (2 ^ 64) with (4 * 2 ^ 62); lia).
    match goal with |- context [fp_nodeWeight _ _ _ _ _ ?a ?v] => destruct (IH xs j a v) as (k & w' & EK & K); auto; try lia end.
    exists k, w'. split; auto. lia.
Qed.

Lemma weights_cast : forall dims (s : fp (T:=T)) xs, grid_ok dims -> fp_holds dims s -> length xs = length dims -> Forall castable xs ->
  exists iw, fp_getSrcIndicesAndWeights s xs = Ret iw /\ Forall (fun kw => 0 <= fst kw < grid_size dims) iw.
Proof.
  intros dims s xs Hok (H1 & H2 & H3) L Hx. unfold fp_getSrcIndicesAndWeights. rewrite H1, H2, H3.
  induction (range (2 ^ Z.of_nat (length dims))) as [|j js IH]; [exists []; split; [reflexivity|constructor]|].
  cbn [mapM]. destruct (nodeWeight_cast dims xs j 0 n1) as (k & w & E & K); auto; [lia|destruct Hok; lia|].
  destruct IH as (iw & IE & IF). rewrite E, IE. cbn [bind]. eexists. split; [reflexivity|]. constructor; auto.
Qed.

Lemma interp_cast : forall dims (s : fp (T:=T)) xs field, grid_ok dims -> fp_holds dims s -> length xs = length dims -> Forall castable xs ->
  Z.of_nat (length field) = grid_size dims -> exists v, fp_interp s xs field = Ret v.
Proof.
  intros dims s xs field Hok Hs L Hx Hf. unfold fp_interp.
  destruct (weights_cast dims s xs Hok Hs L Hx) as (iw & E & F). rewrite E. cbn [bind]. clear E. generalize (n0 : T).
  induction F as [|[k w] iw K F IH]; intros acc; [eexists; reflexivity|]. cbn [foldM fst snd] in *.
  assert (exists f, vget field k = Ret f) as [f Ef].
  { destruct field as [|d0 fl] eqn:EF; [simpl in Hf; lia|]. rewrite <- EF in *. exists (nth (Z.to_nat k) field d0). apply vget_nth. lia. }
  rewrite Ef. cbn [bind]. apply IH.
Qed.

(** The ends of the finite differences. *)
Definition fd_hi (d : Z) (x : T) : T := let h := nadd x nhalf in if nle h (nofZ (d - 1)) then h else nofZ (d - 1).
Definition fd_lo (x : T) : T := let l := nsub x nhalf in if nle n0 l then l else n0.

(** A search object that can take a step. *)
Definition fp_safe (dims : list Z) (coords : list (list T)) (s : fp (T:=T)) : Prop :=
  grid_data dims coords /\ fp_holds dims s /\ fp_coords s = coords /\
  length (fp_period s) = length dims /\ length (fp_target s) = length dims /\ solver_ok s /\
  length (fp_dIndices s) = length dims /\ Forall castable (fp_dIndices s) /\
  Forall2 (fun d x => castable (fd_hi d x) /\ castable (fd_lo x)) dims (fp_dIndices s).

Lemma coord_length : forall dims (coords : list (list T)) c, grid_data dims coords -> In c coords -> Z.of_nat (length c) = grid_size dims.
Proof. intros dims coords c (_ & _ & _ & F) I. rewrite Forall_forall in F. auto. Qed.

Lemma Forall_upd : forall {A} (P : A -> Prop) l j x, Forall P l -> P x -> Forall P (upd l j x).
Proof.
  induction l as [|a l IH]; intros j x F Px; destruct j; cbn [upd]; auto; apply Forall_cons_iff in F; destruct F; constructor; auto.
Qed.

Lemma upd_len : forall {A} (l : list A) j x, length (upd l j x) = length l.
Proof. induction l; intros [|j] x; cbn [upd length]; auto. Qed.

Lemma Forall2_nth' : forall {A B} (P : A -> B -> Prop) l r i da db, Forall2 P l r -> (i < length l)%nat -> P (nth i l da) (nth i r db).
Proof. intros A B P l r i da db F. revert i. induction F; intros i Hi; simpl in *; [lia|]. destruct i; auto. apply IHF. lia. Qed.

Lemma jacEntry_safe : forall dims coords s c j, fp_safe dims coords s -> In c coords -> (j < length dims)%nat ->
  exists v, fp_jacEntry s c j = Ret v.
Proof.
  intros dims coords s c j (HD & Hh & Hc & _ & _ & _ & L & FC & F2) I Hj.
  assert (Hok : grid_ok dims) by apply HD. unfold fp_jacEntry.
  destruct (fp_dIndices s) as [|x0 xs] eqn:EX; [simpl in L; lia|]. rewrite <- EX in *. clear xs EX.
  rewrite (vget_nth (fp_dIndices s) _ x0) by lia. cbn [bind].
  assert (Hd : fp_dims s = dims) by apply Hh. rewrite Hd. rewrite (vget_nth dims _ 0) by lia. cbn [bind].
  rewrite !Nat2Z.id. assert (D := dims_ge2 dims j Hok Hj). rewrite wrap64_small by lia.
  destruct (Forall2_nth' _ _ _ j 0 x0 F2 Hj) as [C1 C2].
  change (if nle (nadd (nth j (fp_dIndices s) x0) nhalf) (nofZ (nth j dims 0 - 1)) then nadd (nth j (fp_dIndices s) x0) nhalf else nofZ (nth j dims 0 - 1)) with (fd_hi (nth j dims 0) (nth j (fp_dIndices s) x0)).
  change (if nle n0 (nsub (nth j (fp_dIndices s) x0) nhalf) then nsub (nth j (fp_dIndices s) x0) nhalf else n0) with (fd_lo (nth j (fp_dIndices s) x0)).
  assert (LC := coord_length dims coords c HD I).
  destruct (interp_cast dims s (upd (fp_dIndices s) j (fd_hi (nth j dims 0) (nth j (fp_dIndices s) x0))) c) as (v1 & E1); auto; [rewrite upd_len; auto|apply Forall_upd; auto|].
  destruct (interp_cast dims s (upd (fp_dIndices s) j (fd_lo (nth j (fp_dIndices s) x0))) c) as (v2 & E2); auto; [rewrite upd_len; auto|apply Forall_upd; auto|].
  rewrite E1, E2. cbn [bind]. eexists. reflexivity.
Qed.

Lemma mapM_defined : forall {A B} (f : A -> exec B) l, (forall x, In x l -> exists y, f x = Ret y) -> exists r, mapM f l = Ret r.
Proof.
  intros A B f. induction l as [|a l IH]; intros H; [exists []; reflexivity|]. cbn [mapM].
  destruct (H a) as (y & ->); [left; reflexivity|]. destruct IH as (r & ->); [intros; apply H; right; auto|]. cbn [bind]. eauto.
Qed.

Lemma jacobian_safe : forall dims coords s, fp_safe dims coords s -> exists jr, fp_jacobianAndRHS s = Ret jr.
Proof.
  intros dims coords s G. assert (G' := G). destruct G' as (HD & Hh & Hc & _ & Ht & _ & L & FC & _).
  unfold fp_jacobianAndRHS. assert (Hd : fp_dims s = dims) by apply Hh. rewrite Hd.
  match goal with |- context [mapM ?f ?l] => destruct (mapM_defined f l) as (rows & E) end.
  2:{ rewrite E. cbn [bind]. eauto. }
  intros i Hi. apply in_seq in Hi. rewrite Hc. assert (LC : length coords = length dims) by apply HD.
  rewrite (vget_nth coords _ []) by lia. cbn [bind]. rewrite Nat2Z.id.
  assert (IC : In (nth i coords []) coords) by (apply nth_In; lia).
  destruct (interp_cast dims s (fp_dIndices s) (nth i coords [])) as (p & Ep); auto; [apply HD|eapply coord_length; eauto|].
  rewrite Ep. cbn [bind]. destruct (fp_target s) as [|t0 ts] eqn:ET; [simpl in Ht; lia|]. rewrite <- ET in *.
  rewrite (vget_nth (fp_target s) _ t0) by lia. cbn [bind].
  destruct (mapM_defined (fp_jacEntry s (nth i coords [])) (seq 0 (length dims))) as (row & ER).
  { intros j Hj. apply in_seq in Hj. eapply jacEntry_safe; eauto. lia. }
  rewrite ER. cbn [bind]. eauto.
Qed.

Lemma foldM_defined : forall {A S} (f : S -> A -> exec S) l s, (forall s x, In x l -> exists s1, f s x = Ret s1) -> exists s', foldM f l s = Ret s'.
Proof.
  intros A S f. induction l as [|a l IH]; intros s H; [eexists; reflexivity|]. cbn [foldM].
  destruct (H s a) as (s1 & ->); [left; reflexivity|]. cbn [bind]. apply IH. intros. apply H. right. auto.
Qed.

Lemma nodeWeight_inv : forall dims (xs : list T) j acc w r, grid_ok dims -> length xs = length dims ->
  fp_nodeWeight dims (fp_mkProd dims) (fp_mkNodeProd (length dims)) xs j acc w = Ret r -> Forall castable xs.
Proof.
  induction dims as [|d ds IH]; intros xs j acc w r Hok L E.
  - destruct xs; [constructor|discriminate].
  - destruct xs as [|x xs]; [discriminate|]. assert (HL := grid_ok_length _ Hok). cbn [length] in *.
    assert (Hok' := Hok). apply grid_ok_cons in Hok'. destruct Hok' as (Hd & Hok' & _).
    rewrite mkProd_spec in E by auto. rewrite mkNodeProd_spec in E by lia. cbn [fp_nodeWeight] in E.
    apply bind_ret_inv in E. destruct E as (c & EC & E). destruct (2 ^ Z.of_nat (length ds) =? 0); [discriminate|].
    constructor; [|eapply IH; eauto]. unfold fp_loCorner in EC. apply bind_ret_inv in EC. destruct EC as (z & EZ & _). exists z. exact EZ.
Qed.

Lemma error_inv : forall dims coords (s : fp (T:=T)) e, grid_data dims coords -> fp_holds dims s -> fp_coords s = coords ->
  length (fp_dIndices s) = length dims -> fp_getError s = Ret e -> Forall castable (fp_dIndices s).
Proof.
  intros dims coords s e HD (Hd & HP & HN) Hc L EE. unfold fp_getError in EE. apply bind_ret_inv in EE. destruct EE as (pos & EP & _).
  unfold fp_getPosition in EP. rewrite Hc in EP.
  assert (LC : length coords = length dims) by apply HD. assert (ND : dims <> []) by apply HD.
  destruct coords as [|c cs]; [destruct dims; [congruence|discriminate]|]. cbn [mapM] in EP. apply bind_ret_inv in EP. destruct EP as (v & EV & _).
  unfold fp_interp in EV. apply bind_ret_inv in EV. destruct EV as (iw & EW & _). unfold fp_getSrcIndicesAndWeights in EW. rewrite Hd, HP, HN in EW.
  assert (R0 : exists js, range (2 ^ Z.of_nat (length dims)) = 0 :: js).
  { assert (P : 0 < 2 ^ Z.of_nat (length dims)) by (apply Z.pow_pos_nonneg; lia). unfold range, zseq.
    destruct (Z.to_nat (2 ^ Z.of_nat (length dims))) eqn:E; [lia|]. cbn [seq map]. eauto. }
  destruct R0 as (js & RJ). rewrite RJ in EW. cbn [mapM] in EW. apply bind_ret_inv in EW. destruct EW as (kw & EW & _).
  eapply nodeWeight_inv; [apply HD|exact L|exact EW].
Qed.

(** The error is defined exactly when the indices can be converted. *)
Lemma error_cast : forall dims coords s, grid_data dims coords -> fp_holds dims s -> fp_coords s = coords ->
  length (fp_target s) = length dims -> length (fp_dIndices s) = length dims -> Forall castable (fp_dIndices s) ->
  exists e, fp_getError s = Ret e.
Proof.
  intros dims coords s HD Hh Hc Ht L FC. unfold fp_getError, fp_getPosition.
  destruct (mapM_defined (fp_interp s (fp_dIndices s)) (fp_coords s)) as (pos & E).
  { rewrite Hc. intros c I. eapply interp_cast; eauto; [apply HD|eapply coord_length; eauto]. }
  assert (LP := mapM_length _ _ _ E). rewrite E. cbn [bind].
  assert (Hd : fp_dims s = dims) by apply Hh. rewrite Hd. rewrite Hc in LP. assert (LC : length coords = length dims) by apply HD.
  match goal with |- context [foldM ?f ?l ?a] => destruct (foldM_defined f l a) as (r & ER) end.
  2:{ rewrite ER. cbn [bind]. eauto. }
  intros acc i Hi. unfold zseq in Hi. apply in_map_iff in Hi. destruct Hi as (k & <- & Hk). apply in_seq in Hk.
  destruct pos as [|p0 ps] eqn:EP; [simpl in LP; lia|]. rewrite <- EP in *.
  destruct (fp_target s) as [|t0 ts] eqn:ET; [simpl in Ht; lia|]. rewrite <- ET in *.
  rewrite (vget_nth pos _ p0) by lia. rewrite (vget_nth (fp_target s) _ t0) by lia. cbn [bind]. eauto.
Qed.

Lemma addsteps_any : forall (xs ys : list T) n, length xs = n -> (n <= length ys)%nat ->
  exists zs, mapM (fun i => let! x := vget xs i in let! dx := vget ys i in Ret (nadd x dx)) (zseq n) = Ret zs /\ length zs = n /\
  forall k x dx, nth_error xs k = Some x -> nth_error ys k = Some dx -> nth_error zs k = Some (nadd x dx).
Proof.
  intros xs ys n H1 H2.
  destruct (mapM_defined (fun i => let! x := vget xs i in let! dx := vget ys i in Ret (nadd x dx)) (zseq n)) as (zs & E).
  { intros i Hi. unfold zseq in Hi. apply in_map_iff in Hi. destruct Hi as (k & <- & Hk). apply in_seq in Hk.
    destruct xs as [|x0 xs'] eqn:EX; [simpl in H1; lia|]. rewrite <- EX in *. rewrite (vget_nth xs _ x0) by lia.
    destruct ys as [|y0 ys'] eqn:EY; [simpl in H2; lia|]. rewrite <- EY in *. rewrite (vget_nth ys _ y0) by lia. cbn [bind]. eauto. }
  exists zs. split; auto. assert (L := mapM_length _ _ _ E). unfold zseq in L. rewrite map_length, seq_length in L. split; auto.
  intros k x dx Kx Kd. assert (Hk : (k < n)%nat) by (rewrite <- H1; apply nth_error_Some; congruence).
  apply mapM_inv in E.
  assert (Q := Forall2_nth' _ _ _ k 0 (nadd x dx) E ltac:(unfold zseq; rewrite map_length, seq_length; lia)).
  cbv beta in Q. unfold zseq in Q. rewrite (nth_indep _ 0 (Z.of_nat 0)) in Q by (rewrite map_length, seq_length; lia).
  rewrite map_nth, seq_nth in Q by lia. cbn [Nat.add] in Q.
  rewrite (vget_nth xs _ x), (vget_nth ys _ dx) in Q by (assert (k < length ys)%nat by (apply nth_error_Some; congruence); lia).
  rewrite Nat2Z.id in Q. cbn [bind] in Q. rewrite (nth_error_nth _ _ x Kx), (nth_error_nth _ _ dx Kd) in Q. injection Q as Q.
  rewrite (nth_error_nth' _ (nadd x dx)) by lia. f_equal. auto.
Qed.

(** One step: rejected, or undefined because an index of the new position cannot be converted, or done. *)
Theorem next_steps : forall g dims coords s, fp_safe dims coords s -> (0 <= fp_iter s < int_max)%Z ->
  (fp_next g s = Ret (-3, s)) \/
  exists jr sv info sv' steps new, fp_jacobianAndRHS s = Ret jr /\ fp_slvr s = Some sv /\ ls_run g sv (fst jr) (snd jr) = Ret (info, sv') /\
    length steps = length dims /\ new = fp_truncate (fp_period s) dims steps /\
    (forall k x, nth_error (fp_dIndices s) k = Some x -> exists dx, nth_error (ls_getSolution sv') k = Some dx /\ nth_error steps k = Some (nadd x dx)) /\
    ((exists u, fp_next g s = Undef u /\ ~ Forall castable new) \/
     exists code s', fp_next g s = Ret (code, s') /\ fp_dIndices s' = new /\ Forall castable new /\ same_grid s s' /\
       fp_target s' = fp_target s /\ solver_ok s' /\ fp_iter s' = fp_iter s + 1 /\ In code [0; 1; -1; -2]).
Proof.
  intros g dims coords s G It. assert (G' := G). destruct G' as (HD & Hh & Hc & Hp & Ht & (sv & Hsv & W) & Lx & FC & F2).
  destruct (fp_inside (fp_target s) (fp_xmins s) (fp_xmaxs s)) eqn:IN.
  2:{ left. unfold fp_next. rewrite IN. reflexivity. }
  right. destruct (jacobian_safe dims coords s G) as (jr & EJ). destruct (jac_lengths s jr EJ) as [LJ Lr].
  assert (Hd : fp_dims s = dims) by apply Hh. rewrite Hd in *.
  assert (Hn : (0 < length dims)%nat) by (destruct HD as (H & _); destruct dims; [congruence|simpl; lia]).
  destruct (ls_run_history (length dims) g sv sv (fst jr) (snd jr) W W LJ Lr Hn) as [_ [[info sv'] RR]].
  assert (W' := ls_run_wf _ _ _ _ _ _ _ W LJ Lr Hn RR).
  destruct (addsteps_any (fp_dIndices s) (ls_getSolution sv') (length dims)) as (zs & EZ & LZ & NZ); auto.
  { unfold ls_getSolution. destruct W' as (_ & _ & _ & _ & _ & -> & _). lia. }
  exists jr, sv, info, sv', zs, (fp_truncate (fp_period s) dims zs). do 5 (split; auto). split.
  { intros k x Kx. assert (Hk : (k < length dims)%nat) by (rewrite <- Lx; apply nth_error_Some; congruence).
    assert (LS : (k < length (ls_getSolution sv'))%nat) by (unfold ls_getSolution; destruct W' as (_ & _ & _ & _ & _ & -> & _); lia).
    destruct (nth_error (ls_getSolution sv') k) as [dx|] eqn:ED; [|apply nth_error_None in ED; lia]. exists dx. split; auto. }
  assert (GO : forall errs old, let s1 := mkFp (Some sv') (fp_coords s) (fp_xmins s) (fp_xmaxs s) (fp_prodDims s) (fp_nodeProdDims s)
       (fp_period s) dims (fp_target s) (fp_nitermax s) (fp_tolpos s) (fp_iter s + 1) (fp_truncate (fp_period s) dims zs) errs old in
     same_grid s s1 /\ fp_target s1 = fp_target s /\ solver_ok s1 /\ fp_iter s1 = fp_iter s + 1 /\ fp_holds dims s1).
  { intros errs old. cbv zeta. unfold same_grid, fp_holds, solver_ok. cbn. destruct Hh as (_ & Hh). repeat split; auto; try apply Hh. eauto. }
  destruct (fp_getError (mkFp (Some sv') (fp_coords s) (fp_xmins s) (fp_xmaxs s) (fp_prodDims s) (fp_nodeProdDims s)
       (fp_period s) dims (fp_target s) (fp_nitermax s) (fp_tolpos s) (fp_iter s + 1) (fp_truncate (fp_period s) dims zs) (fp_errors s) (fp_oldError s))) as [err|u] eqn:EE.
  - right. destruct (GO (fp_errors s) (fp_oldError s)) as (_ & _ & _ & _ & GH).
    assert (CN := error_inv dims coords _ err HD GH Hc ltac:(cbn [fp_dIndices]; rewrite truncate_length; exact LZ) EE). cbn [fp_dIndices] in CN.
    unfold fp_next. rewrite IN, EJ. cbn [bind fst snd negb]. rewrite Hsv, RR. cbn [bind snd]. rewrite Hd, EZ. cbn [bind].
    rewrite chk_ok by (unfold int_min, int_max in *; lia). cbn [bind]. rewrite EE. cbn [bind].
    assert (FIN : forall (code : Z) errs old, In code [0; 1; -1; -2] -> exists code' s', Ret (code, mkFp (Some sv') (fp_coords s) (fp_xmins s) (fp_xmaxs s) (fp_prodDims s) (fp_nodeProdDims s)
       (fp_period s) dims (fp_target s) (fp_nitermax s) (fp_tolpos s) (fp_iter s + 1) (fp_truncate (fp_period s) dims zs) errs old) = Ret (code', s') /\
       fp_dIndices s' = fp_truncate (fp_period s) dims zs /\ Forall castable (fp_truncate (fp_period s) dims zs) /\ same_grid s s' /\
       fp_target s' = fp_target s /\ solver_ok s' /\ fp_iter s' = fp_iter s + 1 /\ In code' [0; 1; -1; -2]).
    { intros code errs old IC. destruct (GO errs old) as (A1 & A2 & A3 & A4 & _). eexists _, _. split; [reflexivity|]. split; [reflexivity|]. auto 10. }
    repeat match goal with |- context [if ?c then _ else _] => destruct c end; apply FIN; simpl; auto 10.
  - left. exists u. split.
    + unfold fp_next. rewrite IN, EJ. cbn [bind fst snd negb]. rewrite Hsv, RR. cbn [bind snd]. rewrite Hd, EZ. cbn [bind].
      rewrite chk_ok by (unfold int_min, int_max in *; lia). cbn [bind]. rewrite EE. reflexivity.
    + intros CN. destruct (GO (fp_errors s) (fp_oldError s)) as (_ & A2 & _ & _ & GH).
      destruct (error_cast dims coords _ HD GH Hc ltac:(exact Ht) ltac:(cbn [fp_dIndices]; rewrite truncate_length; exact LZ) CN) as (e & E).
      rewrite E in EE. discriminate.
Qed.

Theorem next_safe : forall g dims coords s, fp_safe dims coords s -> (0 <= fp_iter s < int_max)%Z ->
  (fp_next g s = Ret (-3, s)) \/
  exists steps new, length steps = length dims /\ new = fp_truncate (fp_period s) dims steps /\
    (forall k x, nth_error (fp_dIndices s) k = Some x -> exists dx, nth_error steps k = Some (nadd x dx)) /\
    ((exists u, fp_next g s = Undef u /\ ~ Forall castable new) \/
     exists code s', fp_next g s = Ret (code, s') /\ fp_dIndices s' = new /\ Forall castable new /\ same_grid s s' /\
       fp_target s' = fp_target s /\ solver_ok s' /\ fp_iter s' = fp_iter s + 1 /\ In code [0; 1; -1; -2]).
Proof.
  intros g dims coords s G It. destruct (next_steps g dims coords s G It) as [H|(jr & sv & info & sv' & steps & new & _ & _ & _ & L & E & S & H)]; [left; auto|right].
  exists steps, new. split; auto. split; auto. split; auto. intros k x K. destruct (S k x K) as (dx & _ & D). eauto.
Qed.
End Any.
