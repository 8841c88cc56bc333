(** C68, C69: the Python class for conservative interpolation. *)
From Coq Require Import ZArith List Bool Reals Lra Lia Floats.SpecFloat.
From Verif Require Import Base Num NumR NumF S_Array S_ConserveTable M_LinearSolve M_Triangulate M_Quad M_ConserveInterp M_PyConserve
  L_Cramer L_Conserve L_ConserveTable L_ConserveApply L_ConserveAgain P_Conserve.
Import ListNotations.
Open Scope Z_scope.

(** ** Specification: what the caller has done *)
Definition gives_dst {T} (c : pcall T) : Prop := match c with PSetDst k0 k1 _ _ => 1 <= k0 /\ 1 <= k1 | _ => False end.
Definition gives_src {T} (c : pcall T) : Prop := match c with PSetSrc _ _ _ _ => True | _ => False end.
(** Both grids were given. *)
Definition ready {T} (cs : list (pcall T)) : Prop := List.Exists gives_dst cs /\ List.Exists gives_src cs.
(** Weights were computed, after both grids had been given. *)
Definition computed {T} (cs : list (pcall T)) : Prop := exists a m1 m2 b, cs = a ++ PCompute m1 m2 :: b /\ ready a.
(** Calls with d0 x d1 destination nodes, e0 x e1 source nodes and fields of the size of the source grid. *)
Definition sized {T} (d0 d1 e0 e1 : Z) (c : pcall T) : Prop :=
  match c with
  | PSetDst k0 k1 xs ys => k0 = d0 /\ k1 = d1 /\ Z.of_nat (length xs) = d0 * d1 /\ Z.of_nat (length ys) = d0 * d1
  | PSetSrc k0 k1 xs ys => k0 = e0 /\ k1 = e1 /\ Z.of_nat (length xs) = e0 * e1 /\ Z.of_nat (length ys) = e0 * e1
  | PCompute _ _ => True
  | PApply src => Z.of_nat (length src) = (e0 - 1) * (e1 - 1)
  end.

Section Py.
Context {T : Type} {N : Num T}.
Variable srt : (nat -> nat -> bool) -> list nat -> list nat.
Variable g : gels T.

Lemma py_run_snoc : forall cs c w, py_run srt g w (cs ++ [c]) =
  let! w1 := py_run srt g w cs in let! r := py_step srt g w1 c in Ret (fst r).
Proof.
  induction cs as [|c' cs IH]; intros c w; cbn [app py_run bind].
  - destruct (py_step srt g w c) as [r|u]; reflexivity.
  - destruct (py_step srt g w c') as [r|u]; cbn [bind]; [apply IH|reflexivity].
Qed.

Lemma computed_snoc : forall (cs : list (pcall T)) c, computed (cs ++ [c]) <->
  computed cs \/ (ready cs /\ match c with PCompute _ _ => True | _ => False end).
Proof.
  intros cs c. split.
  - intros (a & m1 & m2 & b & E & R). destruct b as [|x b] using rev_ind.
    + apply app_inj_tail in E. destruct E as [-> ->]. right. now split.
    + left. replace (a ++ PCompute m1 m2 :: b ++ [x]) with ((a ++ PCompute m1 m2 :: b) ++ [x]) in E by (now rewrite <- app_assoc).
      apply app_inj_tail in E. destruct E as [-> ->]. exists a, m1, m2, b. now split.
  - intros [(a & m1 & m2 & b & -> & R)|[R C]].
    + exists a, m1, m2, (b ++ [c]). split; [now rewrite <- app_assoc|exact R].
    + destruct c; try contradiction. eexists cs, _, _, []. now split.
Qed.

Definition knows (cs : list (pcall T)) (w : world T) : Prop :=
  (py_hasSrc (fst w) = true <-> List.Exists gives_src cs) /\ (py_dst (fst w) <> None <-> List.Exists gives_dst cs) /\
  (py_hasW (fst w) = true <-> computed cs).

Lemma exists_snoc : forall {A} (P : A -> Prop) l x, List.Exists P (l ++ [x]) <-> List.Exists P l \/ P x.
Proof.
  intros A P l x. rewrite Exists_app. split; intros [H|H]; auto.
  inversion H as [? ? H1|? ? H1]; subst; auto. inversion H1.
Qed.

Lemma py_knows : forall cs w, py_run srt g py_new cs = Ret w -> knows cs w.
Proof.
  induction cs as [|c cs IH] using rev_ind; intros w E.
  - injection E as <-. unfold knows. cbn. split; [|split]; split; intros H; try discriminate; try congruence; try (now inversion H).
    destruct H as ([|? ?] & m1 & m2 & b & H & _); discriminate.
  - rewrite py_run_snoc in E. apply bind_ret_inv in E. destruct E as ([s arrays] & E1 & E).
    apply bind_ret_inv in E. destruct E as ([w' ans] & E2 & E). injection E as <-. cbn [fst].
    destruct (IH _ E1) as (K1 & K2 & K3). cbn [fst] in *. unfold knows. rewrite !exists_snoc, computed_snoc.
    destruct c as [k0 k1 xs ys|k0 k1 xs ys|m1 m2|src]; cbn [py_step gives_dst gives_src] in *.
    + apply bind_ret_inv in E2. destruct E2 as (h & _ & E2).
      destruct ((k0 - 1 <? 0) || (k1 - 1 <? 0)) eqn:B; injection E2 as <- <-; cbn [fst py_hasSrc py_dst py_hasW].
      * apply orb_true_iff in B. rewrite !Z.ltb_lt in B. rewrite K1, K2, K3. intuition lia.
      * apply orb_false_iff in B. rewrite !Z.ltb_ge in B. rewrite K1, K3. intuition (congruence || lia).
    + apply bind_ret_inv in E2. destruct E2 as (h & _ & E2). injection E2 as <- <-. cbn [fst py_hasSrc py_dst py_hasW].
      rewrite K2, K3. intuition.
    + assert (R : ready cs <-> py_hasSrc s = true /\ py_dst s <> None) by (unfold ready; rewrite K1, K2; tauto).
      destruct (py_hasSrc s) eqn:HS, (py_dst s) as [a|] eqn:HD.
      * apply bind_ret_inv in E2. destruct E2 as (h & _ & E2). injection E2 as <- <-. cbn [fst py_hasSrc py_dst py_hasW].
        rewrite ?HS, ?HD. assert (ready cs) by (apply R; split; congruence). intuition congruence.
      * injection E2 as <- <-. cbn [fst]. rewrite ?HS, ?HD, ?K3. assert (~ ready cs) by (rewrite R; intuition congruence). intuition congruence.
      * injection E2 as <- <-. cbn [fst]. rewrite ?HS, ?HD, ?K3. assert (~ ready cs) by (rewrite R; intuition congruence). intuition congruence.
      * injection E2 as <- <-. cbn [fst]. rewrite ?HS, ?HD, ?K3. assert (~ ready cs) by (rewrite R; intuition congruence). intuition congruence.
    + destruct (py_hasW s) eqn:HW, (py_dst s) as [a|] eqn:HD.
      * apply bind_ret_inv in E2. destruct E2 as (h & _ & E2). injection E2 as <- <-. cbn [fst]. rewrite ?HD, ?HW. intuition congruence.
      * injection E2 as <- <-. cbn [fst]. rewrite ?HD, ?HW. intuition congruence.
      * injection E2 as <- <-. cbn [fst]. rewrite ?HD, ?HW. intuition congruence.
      * injection E2 as <- <-. cbn [fst]. rewrite ?HD, ?HW. intuition congruence.
Qed.

Lemma computed_ready : forall cs : list (pcall T), computed cs -> ready cs.
Proof. intros cs (a & m1 & m2 & b & -> & [R1 R2]). split; apply Exists_app; now left. Qed.

(** ** C68: calls in the wrong order raise an exception and change nothing, calls in the right order do not raise one. *)
Theorem C68_order : forall cs w, py_run srt g py_new cs = Ret w ->
  (forall m1 m2, py_step srt g w (PCompute m1 m2) = Ret (w, PRaise) <-> ~ ready cs) /\
  (forall src, py_step srt g w (PApply src) = Ret (w, PRaise) <-> ~ computed cs).
Proof.
  intros cs [s arrays] E. destruct (py_knows _ _ E) as (K1 & K2 & K3). cbn [fst] in *. split.
  - intros m1 m2. unfold ready. rewrite <- K1, <- K2. cbn [py_step].
    destruct (py_hasSrc s) eqn:HS, (py_dst s) as [a|] eqn:HD; split; intros H; try reflexivity; try (intuition congruence).
    exfalso. destruct (ci_computeWeights srt m1 m2 g (py_handle s)); discriminate.
  - intros src. assert (Q : computed cs -> py_dst s <> None) by (intros H; apply K2; apply (computed_ready cs H)).
    rewrite <- K3 in *. cbn [py_step].
    destruct (py_hasW s) eqn:HW, (py_dst s) as [a|] eqn:HD; split; intros H; try reflexivity; try (intuition congruence).
    exfalso. destruct (ci_apply (py_handle s) src (map (fun x => nmul x n0) (nth a arrays []))); discriminate.
Qed.

(** ** Safety for grids that keep their sizes *)
Section Sized.
Variables d0 d1 e0 e1 : Z.
Hypothesis D0 : 2 <= d0. Hypothesis D1 : 2 <= d1. Hypothesis DD : d0 * d1 <= int_max.
Hypothesis E0 : 2 <= e0. Hypothesis E1 : 2 <= e1. Hypothesis EE : e0 * e1 <= int_max.
Notation nd := ((d0 - 1) * (d1 - 1)).
Notation ns := ((e0 - 1) * (e1 - 1)).

Record safe (w : world T) : Prop := {
  sf_dst : py_dst (fst w) <> None -> exists dg nx ny, ci_dst (py_handle (fst w)) = Some dg /\ grid_ok d0 d1 nx ny dg;
  sf_src : py_hasSrc (fst w) = true -> exists sg nx ny, ci_src (py_handle (fst w)) = Some sg /\ grid_ok e0 e1 nx ny sg;
  sf_tab : table_ok nd ns (ci_weights (py_handle (fst w)));
  sf_arr : forall a, py_dst (fst w) = Some a -> (a < length (snd w))%nat /\ Z.of_nat (length (nth a (snd w) [])) = nd
}.

Lemma to_int32_id : forall z, 0 <= z <= int_max -> to_int32 z = z.
Proof. intros z H. unfold to_int32, int_max in *. rewrite Z.mod_small; lia. Qed.

Lemma apply_ok : forall w src a, safe w -> Z.of_nat (length src) = ns -> py_dst (fst w) = Some a ->
  exists out, ci_apply (py_handle (fst w)) src (map (fun x => nmul x n0) (nth a (snd w) [])) = Ret out /\
    Z.of_nat (length out) = nd /\
    forall k d, 0 <= k < nd -> nth (Z.to_nat k) out d =
      match row_of (ci_weights (py_handle (fst w))) k with
      | [] => nth (Z.to_nat k) (map (fun x => nmul x n0) (nth a (snd w) [])) d
      | r => weighted n0 r (fun j => nth (Z.to_nat j) src n0)
      end.
Proof.
  intros w src a S LS HD. destruct (sf_arr w S a HD) as [_ LA]. destruct (sf_tab w S) as (A1 & A2 & A3).
  destruct (apply_rows (py_handle (fst w)) src (map (fun x => nmul x n0) (nth a (snd w) [])) A1) as (out & X1 & X2 & X3).
  { intros k r I. destruct (A3 k r I) as (B1 & B2 & B3). split; [exact (A2 k r I)|]. rewrite map_length. split; [lia|].
    intros e J. pose proof (asc_in _ _ _ B2 J). specialize (B3 e J). lia. }
  rewrite map_length in X2. exists out. split; [exact X1|]. split; [lia|].
  intros k d Hk. apply X3. rewrite map_length. lia.
Qed.

Lemma safe_step : forall w c, safe w -> sized d0 d1 e0 e1 c -> exists w' ans, py_step srt g w c = Ret (w', ans) /\ safe w'.
Proof.
  intros [s arrays] c S Z0. assert (Bs : d0 <= int_max /\ d1 <= int_max /\ e0 <= int_max /\ e1 <= int_max) by (unfold int_max in *; nia).
  destruct c as [k0 k1 xs ys|k0 k1 xs ys|m1 m2|src]; cbn [py_step sized] in *.
  - destruct Z0 as (-> & -> & LX & LY). rewrite !to_int32_id by lia. unfold ci_setDstGrid.
    destruct (ci_grid_ok d0 d1 _ _ xs ys D0 D1 DD (stores_nth d0 d1 xs ltac:(lia) ltac:(lia) LX) (stores_nth d0 d1 ys ltac:(lia) ltac:(lia) LY)) as (dg & E & O).
    rewrite E. cbn [bind]. replace ((d0 - 1 <? 0) || (d1 - 1 <? 0)) with false.
    2:{ symmetry. apply orb_false_iff. rewrite !Z.ltb_ge. lia. }
    do 2 eexists. split; [reflexivity|]. destruct S as [S1 S2 S3 S4]. constructor; cbn [fst snd py_dst py_handle py_hasSrc ci_dst ci_src ci_weights] in *.
    + intros _. exists dg. eauto.
    + exact S2.
    + exact S3.
    + intros a H. injection H as <-. rewrite app_length. cbn [length]. split; [lia|].
      rewrite app_nth2 by lia. rewrite Nat.sub_diag. cbn [nth]. rewrite repeat_length. nia.
  - destruct Z0 as (-> & -> & LX & LY). rewrite !to_int32_id by lia. unfold ci_setSrcGrid.
    destruct (ci_grid_ok e0 e1 _ _ xs ys E0 E1 EE (stores_nth e0 e1 xs ltac:(lia) ltac:(lia) LX) (stores_nth e0 e1 ys ltac:(lia) ltac:(lia) LY)) as (sg & E & O).
    rewrite E. cbn [bind]. do 2 eexists. split; [reflexivity|].
    destruct S as [S1 S2 S3 S4]. constructor; cbn [fst snd py_dst py_handle py_hasSrc ci_dst ci_src ci_weights] in *; auto.
    intros _. exists sg. eauto.
  - destruct (py_hasSrc s) eqn:HS, (py_dst s) as [a|] eqn:HD; try (do 2 eexists; split; [reflexivity|exact S]).
    destruct (sf_dst _ S) as (dg & nx & ny & ED & OD); [cbn; congruence|]. destruct (sf_src _ S) as (sg & mx & my & ES & OS); [cbn; congruence|].
    cbn [fst] in *.
    destruct (computeWeights_total srt g m1 m2 (py_handle s) dg sg ED ES) as (s' & E).
    { intros c Hc. rewrite (ci_cell_ok d0 d1 _ _ dg c OD Hc). eauto. } { intros c Hc. rewrite (ci_cell_ok e0 e1 _ _ sg c OS Hc). eauto. }
    rewrite E. cbn [bind]. do 2 eexists. split; [reflexivity|].
    destruct (sf_tab _ S) as (A1 & A2 & A3). cbn [fst] in *.
    destruct (computeWeights_rows srt m1 m2 g (py_handle s) s' dg sg ED ES A1 A2 E) as (B1 & B2 & B3 & B4 & B5 & B6).
    assert (EN : g_numCells dg = nd) by apply OD. assert (EN' : g_numCells sg = ns) by apply OS. rewrite EN, EN' in B6.
    constructor; cbn [fst snd py_dst py_handle py_hasSrc].
    + intros _. exists dg, nx, ny. split; [congruence|exact OD].
    + intros _. exists sg, mx, my. split; [congruence|exact OS].
    + apply (rows_table _ _ (ci_weights (py_handle s))); auto. split; auto.
    + intros b H. apply (sf_arr _ S b). cbn. congruence.
  - destruct (py_hasW s) eqn:HW, (py_dst s) as [a|] eqn:HD; try (do 2 eexists; split; [reflexivity|exact S]).
    destruct (apply_ok (s, arrays) src a S Z0 HD) as (out & X & L & _). cbn [fst snd] in X. rewrite X. cbn [bind].
    do 2 eexists. split; [reflexivity|]. destruct S as [S1 S2 S3 S4]. constructor; cbn [fst snd] in *; auto.
    intros b H. rewrite upd_length. destruct (S4 b H) as [L1 L2]. split; [exact L1|].
    assert (b = a) by congruence. subst b. rewrite upd_nth_same by exact L1. exact L.
Qed.

Lemma safe_run : forall cs w, safe w -> List.Forall (sized d0 d1 e0 e1) cs -> exists w', py_run srt g w cs = Ret w' /\ safe w'.
Proof.
  induction cs as [|c cs IH]; intros w S F; cbn [py_run]; [eauto|].
  inversion F as [|? ? F1 F2]; subst. destruct (safe_step w c S F1) as (w' & ans & E & S'). rewrite E. cbn [bind fst]. now apply IH.
Qed.

Lemma safe_new : safe py_new.
Proof.
  constructor; cbn; try congruence. split; [exact I|]. split; [intros ? ? []|intros ? ? []].
Qed.
End Sized.

(** No undefined behaviour in any sequence of calls, as long as the sizes of the grids do not change. *)
Theorem C68_safe_partial : forall d0 d1 e0 e1 cs, 2 <= d0 -> 2 <= d1 -> d0 * d1 <= int_max -> 2 <= e0 -> 2 <= e1 -> e0 * e1 <= int_max ->
  List.Forall (sized d0 d1 e0 e1) cs -> exists w, py_run srt g py_new cs = Ret w.
Proof.
  intros d0 d1 e0 e1 cs H0 H1 H2 H3 H4 H5 F. destruct (safe_run d0 d1 e0 e1 H0 H1 H2 H3 H4 H5 cs py_new (safe_new d0 d1 e0 e1) F) as (w & E & _). eauto.
Qed.

(** ** C69: an array changes only when apply is called, and then only the array made for the present destination grid. *)
Theorem C69_kept_partial : forall w c w' ans, py_step srt g w c = Ret (w', ans) ->
  (forall b, (b < length (snd w))%nat -> nth b (snd w') [] <> nth b (snd w) [] ->
     ans = PArray b /\ py_dst (fst w) = Some b /\ exists src, c = PApply src) /\
  (forall k0 k1 xs ys a, c = PSetDst k0 k1 xs ys -> ans = PNone -> py_dst (fst w') = Some a -> (length (snd w) <= a)%nat).
Proof.
  intros [s arrays] c w' ans E. cbn [fst snd]. split.
  - intros b L NE. destruct c as [k0 k1 xs ys|k0 k1 xs ys|m1 m2|src]; cbn [py_step] in E.
    + apply bind_ret_inv in E. destruct E as (h & _ & E). destruct (_ || _); injection E as <- <-; cbn [snd] in NE; [congruence|].
      exfalso. apply NE. now rewrite app_nth1.
    + apply bind_ret_inv in E. destruct E as (h & _ & E). injection E as <- <-. cbn in NE. congruence.
    + destruct (py_hasSrc s), (py_dst s); try (injection E as <- <-; cbn in NE; congruence).
      apply bind_ret_inv in E. destruct E as (h & _ & E). injection E as <- <-. cbn in NE. congruence.
    + destruct (py_hasW s), (py_dst s) as [a|] eqn:HD; try (injection E as <- <-; cbn in NE; congruence).
      apply bind_ret_inv in E. destruct E as (out & _ & E). injection E as <- <-. cbn [snd] in NE.
      destruct (Nat.eq_dec a b) as [->|X]; [eauto|]. exfalso. apply NE. now rewrite upd_nth_other.
  - intros k0 k1 xs ys a -> -> HD. cbn [py_step] in E. apply bind_ret_inv in E. destruct E as (h & _ & E).
    destruct (_ || _); [discriminate|]. injection E as <-. cbn in HD. injection HD as <-. lia.
Qed.

(** Two calls of apply in a row return the same array: the first result is overwritten by the second. *)
Theorem C69_alias_refuted : forall w w1 w2 f h a1 a2,
  py_step srt g w (PApply f) = Ret (w1, PArray a1) -> py_step srt g w1 (PApply h) = Ret (w2, PArray a2) -> a1 = a2.
Proof.
  intros [s arrays] w1 w2 f h a1 a2 E1 E2. cbn [py_step] in E1.
  destruct (py_hasW s) eqn:HW, (py_dst s) as [a|] eqn:HD; try discriminate.
  apply bind_ret_inv in E1. destruct E1 as (out & _ & E1). injection E1 as <- <-.
  cbn [py_step] in E2. rewrite HW, HD in E2. apply bind_ret_inv in E2. destruct E2 as (out2 & _ & E2). now injection E2 as <- <-.
Qed.
End Py.
Print Assumptions C68_order.
Print Assumptions C68_safe_partial.
Print Assumptions C69_kept_partial.
Print Assumptions C69_alias_refuted.

(** Exact arithmetic: what apply returns, whatever was called before. *)
Theorem C69_value : forall srt (g : gels R) d0 d1 e0 e1 cs src, 2 <= d0 -> 2 <= d1 -> d0 * d1 <= int_max -> 2 <= e0 -> 2 <= e1 -> e0 * e1 <= int_max ->
  List.Forall (sized d0 d1 e0 e1) cs -> computed cs -> Z.of_nat (length src) = (e0 - 1) * (e1 - 1) ->
  exists w w' a, py_run srt g py_new cs = Ret w /\ py_step srt g w (PApply src) = Ret (w', PArray a) /\
    let out := nth a (snd w') [] in
    Z.of_nat (length out) = (d0 - 1) * (d1 - 1) /\
    forall k, 0 <= k < (d0 - 1) * (d1 - 1) -> nth (Z.to_nat k) out 0%R =
      weighted 0%R (row_of (ci_weights (py_handle (fst w))) k) (fun j => nth (Z.to_nat j) src 0%R).
Proof.
  intros srt g d0 d1 e0 e1 cs src H0 H1 H2 H3 H4 H5 F C LS.
  destruct (safe_run srt g d0 d1 e0 e1 H0 H1 H2 H3 H4 H5 cs py_new (safe_new d0 d1 e0 e1) F) as ([s arrays] & E & S).
  destruct (py_knows srt g _ _ E) as (K1 & K2 & K3). cbn [fst] in *.
  assert (HW : py_hasW s = true) by (apply K3; exact C).
  destruct (py_dst s) as [a|] eqn:HD. 2:{ exfalso. apply (proj2 K2); [|reflexivity]. apply (computed_ready cs C). }
  destruct (apply_ok d0 d1 e0 e1 (s, arrays) src a S LS HD) as (out & X & L & V). cbn [fst snd] in *.
  exists (s, arrays), (s, upd arrays a out), a. split; [exact E|]. cbn [py_step]. rewrite HW, HD, X. split; [reflexivity|].
  destruct (sf_arr _ _ _ _ _ S a HD) as [LA LN]. cbn [snd fst] in *. rewrite upd_nth_same by exact LA. split; [exact L|].
  intros k Hk. rewrite (V k 0%R Hk). destruct (row_of (ci_weights (py_handle s)) k) as [|e r] eqn:ER; [|reflexivity].
  cbn [weighted]. change (@n0 R NumR) with 0%R in *.
  rewrite (nth_indep _ 0%R (0 * 0)%R) by (rewrite map_length; lia).
  change (nth (Z.to_nat k) (map (fun x : R => nmul x n0) (nth a arrays [])) ((fun x : R => nmul x n0) 0%R) = 0%R).
  rewrite map_nth. cbn. apply Rmult_0_r.
Qed.
Print Assumptions C69_value.

(** C68 is false when a grid gets smaller: the class still takes its weights for valid, and apply writes past the
    end of the array made for the new grid. *)
Definition py_example : list (pcall spec_float) :=
  [PSetSrc 2 2 (map FZ [0; 0; 4; 4]) (map FZ [0; 2; 0; 2]); PSetDst 3 2 (map FZ [0; 0; 2; 2; 4; 4]) (map FZ [0; 2; 0; 2; 0; 2]);
   PCompute (fst zeros) (snd zeros)].
Theorem C68_smaller_grid_refuted : exists w,
  py_run isort cramer py_new (py_example ++ [PSetDst 2 2 (map FZ [0; 0; 2; 2]) (map FZ [0; 2; 0; 2])]) = Ret w /\
  py_step isort cramer w (PApply [FZ 7]) = Undef OutOfBounds.
Proof. eexists. split; [vm_compute; reflexivity|]. vm_compute. reflexivity. Qed.
Print Assumptions C68_smaller_grid_refuted.

(** A session in binary64: the first result is 7, 7; after the second call it reads 9, 9. *)
Example C68_nonvacuous : List.Forall (sized 3 2 2 2) py_example /\ computed py_example /\
  exists w w1 w2, py_run isort cramer py_new py_example = Ret w /\ py_step isort cramer w (PApply [FZ 7]) = Ret (w1, PArray 0) /\
    nth 0 (snd w1) [] = [FZ 7; FZ 7] /\ py_step isort cramer w1 (PApply [FZ 9]) = Ret (w2, PArray 0) /\ nth 0 (snd w2) [] = [FZ 9; FZ 9].
Proof.
  split; [repeat constructor|]. split.
  - exists (firstn 2 py_example), (fst zeros), (snd zeros), []. split; [reflexivity|]. split.
    + apply Exists_cons_tl. apply Exists_cons_hd. cbn. lia.
    + apply Exists_cons_hd. exact I.
  - do 3 eexists. split; [vm_compute; reflexivity|]. split; [vm_compute; reflexivity|]. split; [vm_compute; reflexivity|]. split; vm_compute; reflexivity.
Qed.
