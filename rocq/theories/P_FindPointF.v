(** Property theorems C07-C10 once more: point search in IEEE double arithmetic, every
    operation rounded. *)
From Coq Require Import ZArith List Bool Reals Lra Lia Floats.SpecFloat.
From Flocq Require Import Core BinarySingleNaN.
From Verif Require Import Base Num NumR NumF M_LinearSolve M_FindPoint S_Grid L_LinearSolve L_Interp L_FindPoint L_FindPointR L_FindPointB L_Float L_FloatOps L_Cramer L_FindPointA L_FindPointF P_FindPoint.
Import ListNotations.
Open Scope R_scope.

(** A search object: new, then any sequence of calls that returned. *)
Inductive search_object : fp (T:=spec_float) -> Prop :=
| so_new : forall nit tol, search_object (fp_new nit tol)
| so_setGrid : forall s dims per coords s', search_object s -> grid_data dims coords -> fp_setGrid s dims per coords = Ret s' -> search_object s'
| so_reset : forall s guess target s', search_object s -> fp_reset s guess target = Ret s' -> search_object s'
| so_next : forall g s code s', search_object s -> fp_next g s = Ret (code, s') -> search_object s'.

Lemma next_period : forall {T} {N : Num T} (g : gels T) s code s', fp_next g s = Ret (code, s') -> fp_period s' = fp_period s.
Proof.
  intros T N g s code s' H. unfold fp_next in H.
  destruct (negb _); [injection H as _ <-; auto|]. apply bind_ret_inv in H. destruct H as (jr & _ & H).
  destruct (fp_slvr s); [|discriminate]. apply bind_ret_inv in H. destruct H as (r & _ & H). apply bind_ret_inv in H. destruct H as (xs & _ & H).
  apply bind_ret_inv in H. destruct H as (it & _ & H). apply bind_ret_inv in H. destruct H as (err & _ & H).
  destruct (_ && _ && _)%bool; [injection H as _ <-; reflexivity|]. destruct (_ <=? _)%Z; [injection H as _ <-; reflexivity|].
  destruct (nlt _ _); injection H as _ <-; reflexivity.
Qed.

Lemma object_periods : forall s, search_object s -> Forall period_ok (fp_period s).
Proof.
  induction 1 as [nit tol|s dims per coords s' H IH HD HS|s guess target s' H IH HS|g s code s' H IH HN].
  - constructor.
  - destruct (setGrid_ok s dims per coords HD) as (s1 & E & _ & _ & _ & _ & _ & _ & _ & Pe & _). rewrite HS in E. injection E as <-.
    rewrite Pe. apply periods_ok; [apply resize_periods; auto|]. apply dims_range. apply HD.
  - unfold fp_reset in HS. apply bind_ret_inv in HS. destruct HS as (a & _ & HS). apply bind_ret_inv in HS. destruct HS as (b & _ & HS).
    injection HS as <-. exact IH.
  - rewrite (next_period _ _ _ _ HN). exact IH.
Qed.

(** C07, rounded: at every in-grid index vector of doubles, one entry per corner of the
    enclosing cell with the right node number, every weight a double in [0, 1] within
    n 2^-51 of the exact weight, and the weights sum to 1 within n 2^-52, n the number
    of axes. *)
Theorem C07_weights_ieee : forall s0 s dims per coords, grid_data dims coords -> fp_setGrid s0 dims per coords = Ret s ->
  forall xs, in_gridF dims xs ->
  exists c iw, fp_getSrcIndicesAndWeights s xs = Ret iw /\ is_cell dims c (map fval xs) /\
    NoDup (map fst iw) /\ Z.of_nat (length iw) = (2 ^ Z.of_nat (length dims))%Z /\
    (forall k w, In (k, w) iw -> (0 <= k < grid_size dims)%Z /\ dbl w /\ 0 <= fval w <= 1 /\
       exists v, is_corner c v /\ k = flat dims v /\ Rabs (fval w - hat (map fval xs) v) <= INR (length dims) * bpow radix2 (-51)) /\
    (forall v, is_corner c v -> In (flat dims v) (map fst iw)) /\
    Rabs (lsum (map (fun kw => fval (snd kw)) iw) - 1) <= INR (length dims) * bpow radix2 (-52).
Proof. exact weights_ieee. Qed.
Print Assumptions C07_weights_ieee.

(** C08, rounded: at a node the interpolated value is the stored value, without any
    rounding error, for every field of finite doubles. *)
Theorem C08_nodes_ieee : forall s0 s dims per coords, grid_data dims coords -> fp_setGrid s0 dims per coords = Ret s ->
  forall field, Z.of_nat (length field) = grid_size dims -> Forall dbl field ->
  forall v xs, is_node dims v -> Forall dbl xs -> map fval xs = map IZR v ->
  exists r, fp_interp s xs field = Ret r /\ dbl r /\ fval r = fval (nth (Z.to_nat (flat dims v)) field n0).
Proof. exact nodes_ieee. Qed.
Print Assumptions C08_nodes_ieee.

(** C09, rounded: as long as the solver delivers finite steps, every number of calls of
    next is defined and the indices stay inside the grid. *)
Theorem C09_indices_ieee : forall g s0 s dims per coords guess target s1 k, search_object s0 -> grid_data dims coords ->
  fp_setGrid s0 dims per coords = Ret s -> in_gridF dims guess -> length target = length dims ->
  fp_reset s guess target = Ret s1 -> (Z.of_nat k <= int_max)%Z ->
  (forall j codes s', (j < k)%nat -> fp_steps g j s1 = Ret (codes, s') -> finite_step g s') ->
  exists codes s', fp_steps g k s1 = Ret (codes, s') /\ in_gridF dims (fp_dIndices s').
Proof. intros g s0 s dims per coords guess target s1 k SO HD. apply indices_F; auto. apply object_periods. exact SO. Qed.
Print Assumptions C09_indices_ieee.

(** C10, rounded: under the same condition on the solver the loop of calls of next ends
    with a code, within max(1, nitermax) calls and with the indices inside the grid. *)
Lemma loop_F : forall g fuel dims coords s, goodF dims coords s -> (0 <= fp_iter s)%Z -> (fp_iter s + Z.of_nat fuel <= int_max)%Z ->
  (forall j codes s', (j < fuel)%nat -> fp_steps g j s = Ret (codes, s') -> finite_step g s') ->
  exists r, fp_loop g fuel s = Ret r /\ forall code s', r = Some (code, s') -> code <> 0%Z /\ goodF dims coords s'.
Proof.
  intros g. induction fuel as [|k IH]; intros dims coords s G H0 H1 F; [exists None; split; [auto|discriminate]|].
  destruct (next_F g dims coords s G ltac:(lia)) as (code & s' & E & G' & I).
  { apply (F 0%nat [] s); [lia|reflexivity]. }
  cbn [fp_loop]. rewrite E. cbn [bind snd fst]. destruct (Z.eqb_spec code 0) as [Q|Q].
  - subst code. apply (IH dims coords s'); auto; try lia.
    intros j codes s1 Hj ES. apply (F (S j) (0%Z :: codes) s1); [lia|]. cbn [fp_steps]. rewrite E. cbn [bind snd fst]. rewrite ES. reflexivity.
  - eexists. split; [reflexivity|]. intros c t W. injection W as <- <-. auto.
Qed.

Theorem C10_search_ieee : forall g s0 s dims per coords guess target s1, search_object s0 -> grid_data dims coords ->
  fp_setGrid s0 dims per coords = Ret s -> in_gridF dims guess -> length target = length dims ->
  fp_reset s guess target = Ret s1 -> (fp_nitermax s0 <= int_max)%Z ->
  (forall j codes s', (Z.of_nat j < Z.max 1 (fp_nitermax s0))%Z -> fp_steps g j s1 = Ret (codes, s') -> finite_step g s') ->
  exists code s', fp_loop g (Z.to_nat (Z.max 1 (fp_nitermax s0))) s1 = Ret (Some (code, s')) /\ code <> 0%Z /\ in_gridF dims (fp_dIndices s').
Proof.
  intros g s0 s dims per coords guess target s1 SO HD HS HG HT HR HN F.
  destruct (reset_F s0 s dims per coords guess target HD (object_periods _ SO) HS HG HT) as (_ & s2 & E & G & I & _ & N).
  rewrite HR in E. injection E as <-.
  destruct (loop_F g (Z.to_nat (Z.max 1 (fp_nitermax s0))) dims coords s1 G) as (r & E & Q); [lia|unfold int_max in *; lia|intros; eapply F; eauto; lia|].
  destruct r as [[code s']|].
  - destruct (Q code s' eq_refl) as [Q1 Q2]. exists code, s'. split; auto. split; auto. apply Q2.
  - exfalso. revert E. apply (C10_search_terminates _ _ g s s1 guess target); auto.
    destruct (setGrid_ok s0 dims per coords HD) as (t & E & _ & _ & _ & _ & _ & _ & _ & _ & Hn & _). rewrite HS in E. injection E as <-. rewrite Hn. lia.
Qed.
Print Assumptions C10_search_ieee.

(** Concrete case: the curved grid of P_FindPoint, with the solver of P_FindPoint
    (Cramer's rule), whose steps are all finite; four calls of next, the last one
    returning 1. *)
Lemma cv_data : grid_data [3; 2]%Z cvC.
Proof. split; [discriminate|split; [split; [repeat constructor; lia|simpl; lia]|split; [reflexivity|repeat constructor]]]. Qed.

Definition dblb (x : spec_float) : bool := SpecFloat.valid_binary fprec femax x && is_finite_SF x.
Definition finite_stepb (g : gels spec_float) (s : fp (T:=spec_float)) : bool :=
  match fp_jacobianAndRHS s, fp_slvr s with
  | Ret jr, Some sv => match ls_run g sv (fst jr) (snd jr) with Ret (_, sv') => forallb dblb (ls_getSolution sv') | _ => true end
  | _, _ => true
  end.

Lemma finite_stepb_ok : forall g s, finite_stepb g s = true -> finite_step g s.
Proof.
  intros g s H jr sv info sv' E1 E2 E3. unfold finite_stepb in H. rewrite E1, E2, E3 in H. apply Forall_forall. intros x Hx.
  rewrite forallb_forall in H. apply H in Hx. unfold dblb in Hx. apply andb_true_iff in Hx. exact Hx.
Qed.

Lemma lit_dbl : forall x, dblb x = true -> dbl x.
Proof. intros x H. unfold dblb in H. apply andb_true_iff in H. exact H. Qed.

Definition cv_start : exec (fp (T:=spec_float)) :=
  let! s := fp_setGrid (fp_new 10 (Fq 1 1000000)) [3; 2]%Z [0; 0]%Z cvC in fp_reset s [Fq 0 1; Fq 0 1] [Fq 7 4; Fq 3 4].

Definition steps_finiteb (j : nat) : bool :=
  match cv_start with Ret s => match fp_steps cramer j s with Ret (_, s') => finite_stepb cramer s' | _ => true end | _ => true end.

Lemma cv_finite : forallb steps_finiteb (seq 0 4) = true.
Proof. vm_compute. reflexivity. Qed.

Lemma cv_grid : in_gridF [3; 2]%Z [Fq 0 1; Fq 0 1].
Proof.
  destruct zero_val as [Z1 Z2]. assert (E : Fq 0 1 = n0) by (vm_compute; reflexivity). rewrite E.
  assert (A : forall d, (1 <= d)%Z -> on_axis d n0) by (intros d Hd; split; [exact Z1|rewrite Z2; split; [lra|apply IZR_le; lia]]).
  apply Forall2_cons; [apply A; lia|]. apply Forall2_cons; [apply A; lia|]. apply Forall2_nil.
Qed.

Example C09_ieee_nonvacuous : exists s s1 codes s',
  fp_setGrid (fp_new 10 (Fq 1 1000000)) [3; 2]%Z [0; 0]%Z cvC = Ret s /\ fp_reset s [Fq 0 1; Fq 0 1] [Fq 7 4; Fq 3 4] = Ret s1 /\
  (forall j codes s', (j < 4)%nat -> fp_steps cramer j s1 = Ret (codes, s') -> finite_step cramer s') /\
  fp_steps cramer 4 s1 = Ret (codes, s') /\ codes = [0; 0; 0; 1]%Z /\ in_gridF [3; 2]%Z (fp_dIndices s').
Proof.
  destruct (C07_setGrid_defined _ NumF (fp_new 10 (Fq 1 1000000)) [3; 2]%Z [0; 0]%Z cvC cv_data) as [s E].
  destruct (reset_F (fp_new 10 (Fq 1 1000000)) s [3; 2]%Z [0; 0]%Z cvC [Fq 0 1; Fq 0 1] [Fq 7 4; Fq 3 4] cv_data (object_periods _ (so_new _ _)) E cv_grid eq_refl) as (_ & s1 & ER & _).
  assert (F : forall j codes s', (j < 4)%nat -> fp_steps cramer j s1 = Ret (codes, s') -> finite_step cramer s').
  { intros j codes s' Hj ES. apply finite_stepb_ok. assert (Q := cv_finite). rewrite forallb_forall in Q. specialize (Q j ltac:(apply in_seq; lia)).
    unfold steps_finiteb, cv_start in Q. rewrite E in Q. cbn [bind] in Q. rewrite ER, ES in Q. exact Q. }
  destruct (C09_indices_ieee cramer (fp_new 10 (Fq 1 1000000)) s [3; 2]%Z [0; 0]%Z cvC [Fq 0 1; Fq 0 1] [Fq 7 4; Fq 3 4] s1 4 (so_new _ _) cv_data E cv_grid eq_refl ER ltac:(unfold int_max; lia) F) as (codes & s' & ES & IG).
  exists s, s1, codes, s'. split; [auto|]. split; [auto|]. split; [auto|]. split; [auto|]. split; [|auto].
  assert (Q : (let! s := cv_start in let! r := fp_steps cramer 4 s in Ret (fst r)) = Ret [0; 0; 0; 1]%Z) by (vm_compute; reflexivity).
  unfold cv_start in Q. rewrite E in Q. cbn [bind] in Q. rewrite ER in Q. cbn [bind] in Q. rewrite ES in Q. cbn [bind fst] in Q. injection Q. auto.
Qed.

(** The condition on the solver is needed: after a step that is not a number the next
    call converts it to int. *)
Definition nan_gels : gels spec_float := fun m n mem lda b ldb lwork => mkGels 0 (fun _ => S754_nan) (fun _ => S754_nan).

Example C09_ieee_nan_undefined : exists ub,
  (let! s := cv_start in fp_steps nan_gels 2 s) = Undef ub.
Proof. eexists. vm_compute. reflexivity. Qed.

(** C07, C08: at (1/3, 2/3) rounded, the weights of the curved grid; and one third stored at a
    node is returned unchanged. *)
Example C07_ieee_nonvacuous : in_gridF [3; 2]%Z [Fq 1 3; Fq 2 3] /\ exists s iw,
  fp_setGrid (fp_new 10 (Fq 1 1000000)) [3; 2]%Z [0; 0]%Z cvC = Ret s /\ fp_getSrcIndicesAndWeights s [Fq 1 3; Fq 2 3] = Ret iw /\
  map fst iw = [0; 1; 2; 3]%Z /\ Rabs (lsum (map (fun kw => fval (snd kw)) iw) - 1) <= 2 * bpow radix2 (-52).
Proof.
  assert (G : in_gridF [3; 2]%Z [Fq 1 3; Fq 2 3]).
  { apply Forall2_cons; [|apply Forall2_cons; [|apply Forall2_nil]]; (split; [apply lit_dbl; vm_compute; reflexivity|]).
    - replace (Fq 1 3) with (S754_finite false 6004799503160661 (-54)) by (vm_compute; reflexivity). unfold fval, SF2R, F2R, cond_Zopp. simpl Fnum. simpl Fexp.
      change (bpow radix2 (-54)) with (/ 18014398509481984). change (IZR (3 - 1)) with 2. simpl (IZR (Zpos _)). lra.
    - replace (Fq 2 3) with (S754_finite false 6004799503160661 (-53)) by (vm_compute; reflexivity). unfold fval, SF2R, F2R, cond_Zopp. simpl Fnum. simpl Fexp.
      change (bpow radix2 (-53)) with (/ 9007199254740992). change (IZR (2 - 1)) with 1. simpl (IZR (Zpos _)). lra. }
  split; auto.
  destruct (C07_setGrid_defined _ NumF (fp_new 10 (Fq 1 1000000)) [3; 2]%Z [0; 0]%Z cvC cv_data) as [s E].
  destruct (C07_weights_ieee _ s _ _ _ cv_data E _ G) as (c & iw & EW & _ & _ & _ & _ & _ & S).
  exists s, iw. split; [auto|]. split; [auto|]. split; [|exact S].
  assert (Q : (let! s := fp_setGrid (fp_new 10 (Fq 1 1000000)) [3; 2]%Z [0; 0]%Z cvC in let! iw := fp_getSrcIndicesAndWeights s [Fq 1 3; Fq 2 3] in Ret (map fst iw)) = Ret [0; 1; 2; 3]%Z) by (vm_compute; reflexivity).
  rewrite E in Q. cbn [bind] in Q. rewrite EW in Q. cbn [bind] in Q. injection Q. auto.
Qed.

Example C08_ieee_nonvacuous : is_node [3; 2]%Z [1; 1]%Z /\ map fval [Fq 1 1; Fq 1 1] = map IZR [1; 1]%Z /\ Forall dbl (nth 0 cvC []) /\
  (let! s := fp_setGrid (fp_new 10 (Fq 1 1000000)) [3; 2]%Z [0; 0]%Z cvC in fp_interp s [Fq 1 1; Fq 1 1] [Fq 1 3; Fq 1 5; Fq 1 7; Fq 1 9; Fq 1 11; Fq 1 13]) = Ret (Fq 1 9).
Proof.
  split; [repeat constructor; lia|]. split; [|split].
  - assert (E : fval (Fq 1 1) = 1) by apply one_val. cbn [map]. rewrite E. reflexivity.
  - repeat constructor; vm_compute; reflexivity.
  - vm_compute. reflexivity.
Qed.
