(** Properties C37 to C43: conservative interpolation.

    Constructing the object reads past the end of an empty map (C41); the other theorems are about the
    object as it is when this read is harmless: no weights. *)
From Coq Require Import ZArith List Bool Reals Lra Lia Floats.SpecFloat.
From Verif Require Import Base Num NumR NumF S_LinAlg S_Array S_Geometry S_Quad S_Area S_Overlap S_Sort S_ConserveGrid S_Rectilinear
  M_LinearSolve M_Triangulate M_Quad M_QuadIntersect M_ConserveInterp S_ConserveTable L_LinearSolve L_Cramer
  L_Conserve L_ConserveTable L_ConserveApply L_ConserveAgain L_ConserveIter L_ConserveArea L_ConserveRect.
Import ListNotations.
Open Scope R_scope.

(** Contents of the memory behind the vectors of the triangulations in one call of computeWeights: for
    the destination cells and for the pairs of cells. *)
Definition memory (T : Type) : Type := ((Z -> nat -> pt T) * (Z -> Z -> nat -> pt T))%type.

(** A client: set both grids, compute the weights once for each element of ms. *)
Definition conserve_run {T} {N : Num T} srt (g : gels T) (d0 d1 : Z) (xs ys : list T) (e0 e1 : Z) (us vs : list T) (ms : list (memory T)) : exec (ci T) :=
  let! s1 := ci_setDstGrid ci_blank d0 d1 [xs; ys] in
  let! s2 := ci_setSrcGrid s1 e0 e1 [us; vs] in
  foldM (fun s m => ci_computeWeights srt (fst m) (snd m) g s) ms s2.

Section Client.
Context {T : Type} {N : Num T}.
Variable srt : (nat -> nat -> bool) -> list nat -> list nat.
Variable g : gels T.

Lemma run_grids : forall d0 d1 nx ny xs ys e0 e1 mx my us vs, (2 <= d0)%Z -> (2 <= d1)%Z -> (d0 * d1 <= int_max)%Z -> (2 <= e0)%Z -> (2 <= e1)%Z -> (e0 * e1 <= int_max)%Z ->
  stores d0 d1 nx xs -> stores d0 d1 ny ys -> stores e0 e1 mx us -> stores e0 e1 my vs ->
  exists dg sg, grid_ok d0 d1 nx ny dg /\ grid_ok e0 e1 mx my sg /\
    forall ms, conserve_run srt g d0 d1 xs ys e0 e1 us vs ms = foldM (fun s m => ci_computeWeights srt (fst m) (snd m) g s) ms (mkCi (Some dg) (Some sg) [] None).
Proof.
  intros d0 d1 nx ny xs ys e0 e1 mx my us vs H0 H1 H2 H3 H4 H5 SX SY SU SV.
  destruct (ci_grid_ok d0 d1 nx ny xs ys) as (dg & E1 & O1); auto. destruct (ci_grid_ok e0 e1 mx my us vs) as (sg & E2 & O2); auto.
  exists dg, sg. split; auto. split; auto. intros ms. unfold conserve_run, ci_setDstGrid, ci_setSrcGrid. rewrite E1. cbn [bind]. rewrite E2. reflexivity.
Qed.

Lemma run_again : forall m ms s s', ascending (-1) (ci_weights s') -> ci_computeWeights srt (fst m) (snd m) g s = Ret s' ->
  foldM (fun s m => ci_computeWeights srt (fst m) (snd m) g s) (m :: ms) s = Ret s'.
Proof.
  intros m ms s s' A H. cbn [foldM]. rewrite H. cbn [bind].
  induction ms as [|m' ms IH]; [reflexivity|]. cbn [foldM]. rewrite (computeWeights_again srt g (fst m) (fst m') (snd m) (snd m') s s' A H). cbn [bind]. exact IH.
Qed.

Lemma stores_nth : forall n0' n1' (l : list T), (0 <= n0')%Z -> (0 <= n1')%Z -> Z.of_nat (length l) = (n0' * n1')%Z ->
  stores n0' n1' (fun i j => nth (Z.to_nat (i * n1' + j)) l n0) l.
Proof. intros a b l Ha Hb L. split; auto. intros i j Hi Hj. apply nth_error_nth'. nia. Qed.

(** ** C37 *)
Theorem C37_valid_rows : forall d0 d1 xs ys e0 e1 us vs ms, (2 <= d0)%Z -> (2 <= d1)%Z -> (d0 * d1 <= int_max)%Z -> (2 <= e0)%Z -> (2 <= e1)%Z -> (e0 * e1 <= int_max)%Z ->
  Z.of_nat (length xs) = (d0 * d1)%Z -> Z.of_nat (length ys) = (d0 * d1)%Z -> Z.of_nat (length us) = (e0 * e1)%Z -> Z.of_nat (length vs) = (e0 * e1)%Z ->
  exists s, conserve_run srt g d0 d1 xs ys e0 e1 us vs ms = Ret s /\
    ascending (-1) (ci_weights s) /\
    forall d r, In (d, r) (ci_weights s) -> (0 <= d < (d0 - 1) * (d1 - 1))%Z /\ r <> [] /\ ascending (-1) r /\
      forall k w, In (k, w) r -> (0 <= k < (e0 - 1) * (e1 - 1))%Z.
Proof.
  intros d0 d1 xs ys e0 e1 us vs ms H0 H1 H2 H3 H4 H5 LX LY LU LV.
  destruct (run_grids d0 d1 _ _ xs ys e0 e1 _ _ us vs H0 H1 H2 H3 H4 H5 (stores_nth d0 d1 xs ltac:(lia) ltac:(lia) LX) (stores_nth d0 d1 ys ltac:(lia) ltac:(lia) LY)
    (stores_nth e0 e1 us ltac:(lia) ltac:(lia) LU) (stores_nth e0 e1 vs ltac:(lia) ltac:(lia) LV)) as (dg & sg & O1 & O2 & RN).
  rewrite RN. assert (EN : g_numCells dg = ((d0 - 1) * (d1 - 1))%Z) by apply O1. assert (EN' : g_numCells sg = ((e0 - 1) * (e1 - 1))%Z) by apply O2.
  assert (X : forall ms s, ci_dst s = Some dg -> ci_src s = Some sg -> table_ok (g_numCells dg) (g_numCells sg) (ci_weights s) ->
    exists s', foldM (fun s m => ci_computeWeights srt (fst m) (snd m) g s) ms s = Ret s' /\ table_ok (g_numCells dg) (g_numCells sg) (ci_weights s')).
  { induction ms0 as [|m ms0 IH]; intros s D S TB; cbn [foldM]; [eauto|].
    destruct (computeWeights_total srt g (fst m) (snd m) s dg sg D S) as (s1 & E).
    { intros c Hc. rewrite (ci_cell_ok d0 d1 _ _ dg c O1 Hc). eauto. } { intros c Hc. rewrite (ci_cell_ok e0 e1 _ _ sg c O2 Hc). eauto. }
    rewrite E. cbn [bind]. destruct TB as (A1 & A2 & A3).
    destruct (computeWeights_rows srt (fst m) (snd m) g s s1 dg sg D S A1 A2 E) as (B1 & B2 & B3 & B4 & B5 & B6).
    apply IH; try congruence. apply (rows_table _ _ (ci_weights s)); auto. split; auto. }
  destruct (X ms (mkCi (Some dg) (Some sg) [] None)) as (s & E & TB); auto.
  { split; [exact I|]. split; [intros ? ? []|intros ? ? []]. }
  exists s. split; auto. destruct TB as (A1 & A2 & A3). split; auto. intros d r I. destruct (A3 d r I) as [B1 [B2 B3]].
  assert (P := asc_in _ _ _ A1 I). cbn [fst] in P. split; [lia|]. split; [apply (A2 d r I)|]. split; auto.
  intros k w J. assert (P2 := asc_in _ _ _ B2 J). specialize (B3 _ J). cbn [fst] in *. lia.
Qed.

(** ** C40: when the crossings do not depend on the direction in which edges are followed. *)
Theorem C40_transparent_partial : forall d0 d1 nx ny xs ys e0 e1 mx my us vs m ms, (2 <= d0)%Z -> (2 <= d1)%Z -> (d0 * d1 <= int_max)%Z -> (2 <= e0)%Z -> (2 <= e1)%Z -> (e0 * e1 <= int_max)%Z ->
  stores d0 d1 nx xs -> stores d0 d1 ny ys -> stores e0 e1 mx us -> stores e0 e1 my vs ->
  (forall c k e f, (0 <= c < (d0 - 1) * (d1 - 1))%Z -> (0 <= k < (e0 - 1) * (e1 - 1))%Z -> In e (qedges (cell_at d1 nx ny c)) -> In f (qedges (cell_at e1 mx my k)) ->
    direction_free g (fst e) (snd e) (fst f) (snd f)) ->
  exists s, conserve_run srt g d0 d1 xs ys e0 e1 us vs (m :: ms) = Ret s /\ ascending (-1) (ci_weights s) /\
    forall c, row_of (ci_weights s) c = if ((0 <=? c) && (c <? (d0 - 1) * (d1 - 1)))%Z
      then tested_row srt (fst m c) (snd m c) g (cell_at d1 nx ny c) (cell_at e1 mx my) ((e0 - 1) * (e1 - 1)) else [].
Proof.
  intros d0 d1 nx ny xs ys e0 e1 mx my us vs m ms H0 H1 H2 H3 H4 H5 SX SY SU SV DF.
  destruct (run_grids d0 d1 nx ny xs ys e0 e1 mx my us vs H0 H1 H2 H3 H4 H5 SX SY SU SV) as (dg & sg & O1 & O2 & RN).
  assert (EN : g_numCells dg = ((d0 - 1) * (d1 - 1))%Z) by apply O1. assert (EN' : g_numCells sg = ((e0 - 1) * (e1 - 1))%Z) by apply O2.
  destruct (computeWeights_tested srt (fst m) (snd m) g d0 d1 e0 e1 nx ny mx my dg sg O1 O2 (mkCi (Some dg) (Some sg) [] None)) as (s & E & _ & _ & _ & A & _ & B); auto.
  { intros c k e f Hc Hk He Hf. rewrite EN in Hc. rewrite EN' in Hk. apply (DF c k e f); auto. } { exact I. } { intros ? ? []. }
  exists s. split; [rewrite RN; apply run_again; auto|]. split; auto. intros c. destruct (B c) as [B1 B2]. rewrite EN, EN' in *.
  destruct ((0 <=? c) && _)%Z eqn:Q.
  - apply andb_true_iff in Q. destruct Q as [Q1 Q2]. apply Z.leb_le in Q1. apply Z.ltb_lt in Q2. apply B1. lia.
  - apply B2. intros [Q1 Q2]. apply andb_false_iff in Q. destruct Q as [Q|Q]; [apply Z.leb_gt in Q|apply Z.ltb_ge in Q]; lia.
Qed.

(** ** C42: computing again with the same grids changes nothing; after other grids are set the rows
    present are kept and the others are those of the new grids. *)
Theorem C42_same_grids_partial : forall d0 d1 xs ys e0 e1 us vs m ms, (2 <= d0)%Z -> (2 <= d1)%Z -> (d0 * d1 <= int_max)%Z -> (2 <= e0)%Z -> (2 <= e1)%Z -> (e0 * e1 <= int_max)%Z ->
  Z.of_nat (length xs) = (d0 * d1)%Z -> Z.of_nat (length ys) = (d0 * d1)%Z -> Z.of_nat (length us) = (e0 * e1)%Z -> Z.of_nat (length vs) = (e0 * e1)%Z ->
  conserve_run srt g d0 d1 xs ys e0 e1 us vs (m :: ms) = conserve_run srt g d0 d1 xs ys e0 e1 us vs [m].
Proof.
  intros d0 d1 xs ys e0 e1 us vs m ms H0 H1 H2 H3 H4 H5 LX LY LU LV.
  destruct (C37_valid_rows d0 d1 xs ys e0 e1 us vs [m] H0 H1 H2 H3 H4 H5 LX LY LU LV) as (s & E & A & _).
  destruct (run_grids d0 d1 _ _ xs ys e0 e1 _ _ us vs H0 H1 H2 H3 H4 H5 (stores_nth d0 d1 xs ltac:(lia) ltac:(lia) LX) (stores_nth d0 d1 ys ltac:(lia) ltac:(lia) LY)
    (stores_nth e0 e1 us ltac:(lia) ltac:(lia) LU) (stores_nth e0 e1 vs ltac:(lia) ltac:(lia) LV)) as (dg & sg & O1 & O2 & RN).
  rewrite E. rewrite RN in *. apply run_again; auto. cbn [foldM] in E. apply bind_ret_inv in E. destruct E as (s' & E & F). injection F as <-. exact E.
Qed.

Theorem C42_other_grids_partial : forall d0 d1 xs ys e0 e1 us vs ms d0' d1' xs' ys' e0' e1' us' vs' m',
  (2 <= d0)%Z -> (2 <= d1)%Z -> (d0 * d1 <= int_max)%Z -> (2 <= e0)%Z -> (2 <= e1)%Z -> (e0 * e1 <= int_max)%Z ->
  Z.of_nat (length xs) = (d0 * d1)%Z -> Z.of_nat (length ys) = (d0 * d1)%Z -> Z.of_nat (length us) = (e0 * e1)%Z -> Z.of_nat (length vs) = (e0 * e1)%Z ->
  (2 <= d0')%Z -> (2 <= d1')%Z -> (d0' * d1' <= int_max)%Z -> (2 <= e0')%Z -> (2 <= e1')%Z -> (e0' * e1' <= int_max)%Z ->
  Z.of_nat (length xs') = (d0' * d1')%Z -> Z.of_nat (length ys') = (d0' * d1')%Z -> Z.of_nat (length us') = (e0' * e1')%Z -> Z.of_nat (length vs') = (e0' * e1')%Z ->
  exists s s1 s2 s' f, conserve_run srt g d0 d1 xs ys e0 e1 us vs ms = Ret s /\
    ci_setDstGrid s d0' d1' [xs'; ys'] = Ret s1 /\ ci_setSrcGrid s1 e0' e1' [us'; vs'] = Ret s2 /\ ci_computeWeights srt (fst m') (snd m') g s2 = Ret s' /\
    conserve_run srt g d0' d1' xs' ys' e0' e1' us' vs' [m'] = Ret f /\
    forall d, row_of (ci_weights s') d = match row_of (ci_weights s) d with [] => row_of (ci_weights f) d | r => r end.
Proof.
  intros d0 d1 xs ys e0 e1 us vs ms d0' d1' xs' ys' e0' e1' us' vs' m' H0 H1 H2 H3 H4 H5 LX LY LU LV G0 G1 G2 G3 G4 G5 KX KY KU KV.
  destruct (C37_valid_rows d0 d1 xs ys e0 e1 us vs ms H0 H1 H2 H3 H4 H5 LX LY LU LV) as (s & E & A & B).
  destruct (C37_valid_rows d0' d1' xs' ys' e0' e1' us' vs' [m'] G0 G1 G2 G3 G4 G5 KX KY KU KV) as (f & Ef & _).
  assert (SX := stores_nth d0' d1' xs' ltac:(lia) ltac:(lia) KX). assert (SY := stores_nth d0' d1' ys' ltac:(lia) ltac:(lia) KY).
  assert (SU := stores_nth e0' e1' us' ltac:(lia) ltac:(lia) KU). assert (SV := stores_nth e0' e1' vs' ltac:(lia) ltac:(lia) KV).
  destruct (ci_grid_ok d0' d1' _ _ xs' ys' G0 G1 G2 SX SY) as (dg & E1 & O1). destruct (ci_grid_ok e0' e1' _ _ us' vs' G3 G4 G5 SU SV) as (sg & E2 & O2).
  destruct (computeWeights_total srt g (fst m') (snd m') (mkCi (Some dg) (Some sg) (ci_weights s) (ci_it s)) dg sg eq_refl eq_refl) as (s' & E3).
  { intros c Hc. rewrite (ci_cell_ok d0' d1' _ _ dg c O1 Hc). eauto. } { intros c Hc. rewrite (ci_cell_ok e0' e1' _ _ sg c O2 Hc). eauto. }
  exists s, (mkCi (Some dg) (ci_src s) (ci_weights s) (ci_it s)), (mkCi (Some dg) (Some sg) (ci_weights s) (ci_it s)), s', f.
  split; auto. unfold ci_setDstGrid, ci_setSrcGrid. rewrite E1, E2. cbn [bind ci_dst ci_src ci_weights ci_it]. do 3 (split; auto).
  split; auto.
  destruct (computeWeights_merge srt g (fst m') (snd m') (mkCi (Some dg) (Some sg) (ci_weights s) (ci_it s)) s') as (f' & Ef' & M); auto.
  { intros d r I. apply (B d r I). }
  intros d. rewrite M. cbn [ci_weights]. destruct (row_of (ci_weights s) d); auto.
  unfold conserve_run, ci_setDstGrid, ci_setSrcGrid in Ef. rewrite E1, E2 in Ef. cbn [bind ci_dst ci_src ci_weights ci_it foldM] in Ef.
  apply bind_ret_inv in Ef. destruct Ef as (f2 & Ef & X). injection X as ->.
  unfold ci_computeWeights in Ef, Ef'. cbn [ci_dst ci_src ci_weights ci_it ci_blank] in Ef, Ef'.
  apply bind_ret_inv in Ef. destruct Ef as (r1 & F1 & Ef). apply bind_ret_inv in Ef'. destruct Ef' as (r2 & F2 & Ef'). rewrite F1 in F2.
  injection F2 as <-. injection Ef as <-. injection Ef' as <-. reflexivity.
Qed.

(** ** C43 *)
Theorem C43_apply : forall d0 d1 xs ys e0 e1 us vs ms src dst, (2 <= d0)%Z -> (2 <= d1)%Z -> (d0 * d1 <= int_max)%Z -> (2 <= e0)%Z -> (2 <= e1)%Z -> (e0 * e1 <= int_max)%Z ->
  Z.of_nat (length xs) = (d0 * d1)%Z -> Z.of_nat (length ys) = (d0 * d1)%Z -> Z.of_nat (length us) = (e0 * e1)%Z -> Z.of_nat (length vs) = (e0 * e1)%Z ->
  Z.of_nat (length src) = ((e0 - 1) * (e1 - 1))%Z -> Z.of_nat (length dst) = ((d0 - 1) * (d1 - 1))%Z ->
  exists s out, conserve_run srt g d0 d1 xs ys e0 e1 us vs ms = Ret s /\ ci_apply s src dst = Ret out /\ length out = length dst /\
    forall c x, (0 <= c < (d0 - 1) * (d1 - 1))%Z ->
      nth (Z.to_nat c) out x = match row_of (ci_weights s) c with
                               | [] => nth (Z.to_nat c) dst x
                               | r => weighted n0 r (fun k => nth (Z.to_nat k) src n0)
                               end.
Proof.
  intros d0 d1 xs ys e0 e1 us vs ms src dst H0 H1 H2 H3 H4 H5 LX LY LU LV LS LD.
  destruct (C37_valid_rows d0 d1 xs ys e0 e1 us vs ms H0 H1 H2 H3 H4 H5 LX LY LU LV) as (s & E & A & B).
  destruct (apply_rows s src dst A) as (out & E2 & L & V).
  { intros k r I. destruct (B k r I) as (B1 & B2 & _ & B3). split; auto. split; [lia|]. intros [a b] J. cbn [fst]. specialize (B3 a b J). lia. }
  exists s, out. split; auto. split; auto. split; auto. intros c x Hc. apply V. lia.
Qed.
End Client.
Print Assumptions C37_valid_rows.
Print Assumptions C40_transparent_partial.
Print Assumptions C42_same_grids_partial.
Print Assumptions C42_other_grids_partial.
Print Assumptions C43_apply.

(** ** C43: linear in the data (exact arithmetic). *)
Lemma weighted_linear : forall es a b (f h : Z -> R) acc acc', weighted (a * acc + b * acc') es (fun k => a * f k + b * h k) = a * weighted acc es f + b * weighted acc' es h.
Proof.
  induction es as [|[k w] es IH]; intros a b f h acc acc'; cbn [weighted]; [reflexivity|]. rewrite <- IH. f_equal. cbn [nadd nmul NumR]. ring.
Qed.

Theorem C43_linear : forall srt (g : gels R) d0 d1 xs ys e0 e1 us vs ms a b (f h fh dst : list R), (2 <= d0)%Z -> (2 <= d1)%Z -> (d0 * d1 <= int_max)%Z -> (2 <= e0)%Z -> (2 <= e1)%Z -> (e0 * e1 <= int_max)%Z ->
  Z.of_nat (length xs) = (d0 * d1)%Z -> Z.of_nat (length ys) = (d0 * d1)%Z -> Z.of_nat (length us) = (e0 * e1)%Z -> Z.of_nat (length vs) = (e0 * e1)%Z ->
  Z.of_nat (length f) = ((e0 - 1) * (e1 - 1))%Z -> Z.of_nat (length h) = ((e0 - 1) * (e1 - 1))%Z -> Z.of_nat (length fh) = ((e0 - 1) * (e1 - 1))%Z ->
  Z.of_nat (length dst) = ((d0 - 1) * (d1 - 1))%Z -> (forall k, nth k fh 0 = a * nth k f 0 + b * nth k h 0) ->
  exists s outf outh outfh, conserve_run srt g d0 d1 xs ys e0 e1 us vs ms = Ret s /\ ci_apply s f dst = Ret outf /\ ci_apply s h dst = Ret outh /\ ci_apply s fh dst = Ret outfh /\
    forall c, (0 <= c < (d0 - 1) * (d1 - 1))%Z -> row_of (ci_weights s) c <> [] ->
      nth (Z.to_nat c) outfh 0 = a * nth (Z.to_nat c) outf 0 + b * nth (Z.to_nat c) outh 0.
Proof.
  intros srt g d0 d1 xs ys e0 e1 us vs ms a b f h fh dst H0 H1 H2 H3 H4 H5 LX LY LU LV LF LH LFH LD E.
  destruct (C43_apply srt g d0 d1 xs ys e0 e1 us vs ms f dst H0 H1 H2 H3 H4 H5 LX LY LU LV LF LD) as (s & of & RN & A1 & _ & V1).
  destruct (C43_apply srt g d0 d1 xs ys e0 e1 us vs ms h dst H0 H1 H2 H3 H4 H5 LX LY LU LV LH LD) as (s' & oh & RN' & A2 & _ & V2).
  destruct (C43_apply srt g d0 d1 xs ys e0 e1 us vs ms fh dst H0 H1 H2 H3 H4 H5 LX LY LU LV LFH LD) as (s'' & ofh & RN'' & A3 & _ & V3).
  rewrite RN in RN', RN''. injection RN' as <-. injection RN'' as <-. exists s, of, oh, ofh. do 4 (split; [assumption|]). intros c Hc NE.
  rewrite V1, V2, V3 by auto. destruct (row_of (ci_weights s) c) as [|e r]; [congruence|].
  assert (W := weighted_linear (e :: r) a b (fun k => nth (Z.to_nat k) f 0) (fun k => nth (Z.to_nat k) h 0) 0 0).
  replace (a * 0 + b * 0) with 0 in W by ring. change (n0 : R) with 0. rewrite <- W.
  assert (X : forall l acc, weighted acc l (fun k => nth (Z.to_nat k) fh 0) = weighted acc l (fun k => a * nth (Z.to_nat k) f 0 + b * nth (Z.to_nat k) h 0)).
  { induction l as [|[k w] l IH]; intros acc; cbn [weighted]; auto. rewrite E. apply IH. }
  apply X.
Qed.
Print Assumptions C43_linear.

(** ** C40, exact arithmetic: when no two sides cross exactly at the tolerance. *)
Theorem C40_exact_partial : forall srt (g : gels R) d0 d1 nx ny xs ys e0 e1 mx my us vs m ms, gels_spec g 2 2 ->
  (2 <= d0)%Z -> (2 <= d1)%Z -> (d0 * d1 <= int_max)%Z -> (2 <= e0)%Z -> (2 <= e1)%Z -> (e0 * e1 <= int_max)%Z ->
  stores d0 d1 nx xs -> stores d0 d1 ny ys -> stores e0 e1 mx us -> stores e0 e1 my vs ->
  (forall c k e f, (0 <= c < (d0 - 1) * (d1 - 1))%Z -> (0 <= k < (e0 - 1) * (e1 - 1))%Z -> In e (sides4 (grid_cell d1 nx ny c)) -> In f (sides4 (grid_cell e1 mx my k)) ->
    off_tolerance (/ 10 ^ 12) e f) ->
  exists s, conserve_run srt g d0 d1 xs ys e0 e1 us vs (m :: ms) = Ret s /\ ascending (-1) (ci_weights s) /\
    forall c, row_of (ci_weights s) c = if ((0 <=? c) && (c <? (d0 - 1) * (d1 - 1)))%Z
      then tested_row srt (fst m c) (snd m c) g (cell_at d1 nx ny c) (cell_at e1 mx my) ((e0 - 1) * (e1 - 1)) else [].
Proof.
  intros srt g d0 d1 nx ny xs ys e0 e1 mx my us vs m ms G H0 H1 H2 H3 H4 H5 SX SY SU SV O.
  apply C40_transparent_partial; auto. intros c k e f Hc Hk He Hf. apply (off_direction g G). destruct e as [p q], f as [u v]. apply (O c k); auto.
Qed.
Print Assumptions C40_exact_partial.

(** ** C38 *)
Theorem C38_area_fractions_partial : forall srt (g : gels R) d0 d1 nx ny xs ys e0 e1 mx my us vs m ms,
  gels_spec g 2 2 -> sorts srt -> keeps_ties srt ->
  (2 <= d0)%Z -> (2 <= d1)%Z -> (d0 * d1 <= int_max)%Z -> (2 <= e0)%Z -> (2 <= e1)%Z -> (e0 * e1 <= int_max)%Z ->
  stores d0 d1 nx xs -> stores d0 d1 ny ys -> stores e0 e1 mx us -> stores e0 e1 my vs ->
  (forall c k, (0 <= c < (d0 - 1) * (d1 - 1))%Z -> (0 <= k < (e0 - 1) * (e1 - 1))%Z ->
    regular_pair (/ 10 ^ 12) (/ 10 ^ 12) (grid_cell d1 nx ny c) (grid_cell e1 mx my k)) ->
  (forall c, (0 <= c < (d0 - 1) * (d1 - 1))%Z -> separated (/ 10 ^ 12) (grid_cell d1 nx ny c)) ->
  exists s, conserve_run srt g d0 d1 xs ys e0 e1 us vs (m :: ms) = Ret s /\
    forall c, (0 <= c < (d0 - 1) * (d1 - 1))%Z -> exists A, has_area (in_hull (grid_cell d1 nx ny c)) A /\ 0 < A /\
      (forall k, (0 <= k < (e0 - 1) * (e1 - 1))%Z -> exists r, has_area (overlap (grid_cell d1 nx ny c) (grid_cell e1 mx my k)) r /\
        weight_of (row_of (ci_weights s) c) k = r / A /\ 0 <= r / A <= 1) /\
      (tiles ((e0 - 1) * (e1 - 1)) (grid_cell e1 mx my) (grid_cell d1 nx ny c) ->
        total (map snd (row_of (ci_weights s) c)) = 1 /\
        forall v src dst out, Z.of_nat (length src) = ((e0 - 1) * (e1 - 1))%Z -> Z.of_nat (length dst) = ((d0 - 1) * (d1 - 1))%Z ->
          (forall x, In x src -> x = v) -> ci_apply s src dst = Ret out -> nth (Z.to_nat c) out 0 = v).
Proof.
  intros srt g d0 d1 nx ny xs ys e0 e1 mx my us vs m ms G SRT TIES H0 H1 H2 H3 H4 H5 SX SY SU SV REG SEP.
  destruct (run_grids srt g d0 d1 nx ny xs ys e0 e1 mx my us vs H0 H1 H2 H3 H4 H5 SX SY SU SV) as (dg & sg & O1 & O2 & RN).
  destruct (conserve_weights g G srt (fst m) (snd m) d0 d1 e0 e1 nx ny mx my dg sg O1 O2 REG (mkCi (Some dg) (Some sg) [] None) eq_refl eq_refl eq_refl)
    as (s & E & _ & _ & _ & A1 & A2 & A3 & A4).
  exists s. split; [rewrite RN; apply run_again; auto|]. intros c Hc.
  assert (NS := ns_pos d0 d1 e0 e1 mx my sg O2).
  destruct (darea_area srt SRT (fst m) d0 d1 e0 e1 nx ny mx my REG SEP c Hc NS) as [AA AP].
  exists (darea srt (fst m) d1 nx ny c). split; auto. split; auto. split.
  - intros k Hk. exists (part g srt (snd m) d1 e1 nx ny mx my c k). split; [apply (part_area g G srt SRT TIES (snd m) d0 d1 e0 e1 nx ny mx my REG c k Hc Hk)|].
    split; [apply (fractions g srt (fst m) (snd m) d0 d1 e0 e1 nx ny mx my s A4 c k Hc Hk)|].
    apply (fraction_bounds g G srt SRT TIES (fst m) (snd m) d0 d1 e0 e1 nx ny mx my sg O2 REG SEP c k Hc Hk).
  - intros TI. assert (TOT := fractions_total g G srt SRT TIES (fst m) (snd m) d0 d1 e0 e1 nx ny mx my sg O2 REG SEP s A4 c Hc TI).
    split; auto. intros v src dst out LS LD CV AP'.
    destruct (apply_rows s src dst A1) as (out' & E2 & _ & V).
    { intros k r I. split; [apply (A2 k r I)|]. destruct (A3 k r I) as [B1 B2]. split; [lia|]. intros e J. specialize (B2 e J). lia. }
    rewrite AP' in E2. injection E2 as <-. rewrite V by lia.
    destruct (row_of (ci_weights s) c) as [|e r] eqn:RO; [cbn in TOT; lra|].
    assert (IN : forall e', In e' (e :: r) -> nth (Z.to_nat (fst e')) src 0 = v).
    { intros e' J. apply CV. apply nth_In. assert (RI : In (c, e :: r) (ci_weights s)) by (rewrite <- RO; apply row_found; rewrite RO; discriminate).
      destruct (A3 _ _ RI) as [_ B]. specialize (B e' J). lia. }
    assert (W : forall l acc, (forall e', In e' l -> nth (Z.to_nat (fst e')) src 0 = v) -> weighted acc l (fun k => nth (Z.to_nat k) src 0) = acc + total (map snd l) * v).
    { clear. induction l as [|[k w] l IH]; intros acc H; cbn [weighted map total snd]; [ring|]. rewrite IH by (intros; apply H; right; auto).
      assert (HK := H (k, w) (or_introl eq_refl)). cbn [fst] in HK. rewrite HK. cbn [nadd nmul NumR]. ring. }
    change (n0 : R) with 0. rewrite W by auto. rewrite TOT. ring.
Qed.
Print Assumptions C38_area_fractions_partial.

(** ** C39 *)
Theorem C39_conservation_partial : forall srt (g : gels R) d0 d1 nx ny xs ys e0 e1 mx my us vs m ms Ad As src dst,
  gels_spec g 2 2 -> sorts srt -> keeps_ties srt ->
  (2 <= d0)%Z -> (2 <= d1)%Z -> (d0 * d1 <= int_max)%Z -> (2 <= e0)%Z -> (2 <= e1)%Z -> (e0 * e1 <= int_max)%Z ->
  stores d0 d1 nx xs -> stores d0 d1 ny ys -> stores e0 e1 mx us -> stores e0 e1 my vs ->
  (forall c k, (0 <= c < (d0 - 1) * (d1 - 1))%Z -> (0 <= k < (e0 - 1) * (e1 - 1))%Z ->
    regular_pair (/ 10 ^ 12) (/ 10 ^ 12) (grid_cell d1 nx ny c) (grid_cell e1 mx my k)) ->
  (forall c, (0 <= c < (d0 - 1) * (d1 - 1))%Z -> separated (/ 10 ^ 12) (grid_cell d1 nx ny c) /\ has_area (in_hull (grid_cell d1 nx ny c)) (Ad c)) ->
  (forall k, (0 <= k < (e0 - 1) * (e1 - 1))%Z -> has_area (in_hull (grid_cell e1 mx my k)) (As k) /\
    tiles ((d0 - 1) * (d1 - 1)) (grid_cell d1 nx ny) (grid_cell e1 mx my k)) ->
  Z.of_nat (length src) = ((e0 - 1) * (e1 - 1))%Z -> Z.of_nat (length dst) = ((d0 - 1) * (d1 - 1))%Z -> (forall x, In x dst -> x = 0) ->
  exists s out, conserve_run srt g d0 d1 xs ys e0 e1 us vs (m :: ms) = Ret s /\ ci_apply s src dst = Ret out /\
    total (map (fun c => Ad c * nth (Z.to_nat c) out 0) (range ((d0 - 1) * (d1 - 1)))) =
    total (map (fun k => As k * nth (Z.to_nat k) src 0) (range ((e0 - 1) * (e1 - 1)))).
Proof.
  intros srt g d0 d1 nx ny xs ys e0 e1 mx my us vs m ms Ad As src dst G SRT TIES H0 H1 H2 H3 H4 H5 SX SY SU SV REG SEP SRC LS LD Z0.
  destruct (run_grids srt g d0 d1 nx ny xs ys e0 e1 mx my us vs H0 H1 H2 H3 H4 H5 SX SY SU SV) as (dg & sg & O1 & O2 & RN).
  destruct (conserve_weights g G srt (fst m) (snd m) d0 d1 e0 e1 nx ny mx my dg sg O1 O2 REG (mkCi (Some dg) (Some sg) [] None) eq_refl eq_refl eq_refl)
    as (s & E & _ & _ & _ & A1 & A2 & A3 & A4).
  destruct (apply_rows s src dst A1) as (out & E2 & L & V).
  { intros k r I. split; [apply (A2 k r I)|]. destruct (A3 k r I) as [B1 B2]. split; [lia|]. intros e J. specialize (B2 e J). lia. }
  exists s, out. split; [rewrite RN; apply run_again; auto|]. split; auto.
  rewrite <- (conservation g G srt SRT TIES (fst m) (snd m) d0 d1 e0 e1 nx ny mx my sg O2 REG (fun c Hc => proj1 (SEP c Hc)) s A4 (fun k => nth (Z.to_nat k) src 0) Ad As
    (fun c Hc => proj2 (SEP c Hc)) SRC).
  rewrite !total_rsum. apply rsum_ext. intros c Hc. apply in_range in Hc. f_equal. rewrite V by lia.
  destruct (row_of (ci_weights s) c); [|reflexivity]. cbn [weighted]. apply Z0. apply nth_In. lia.
Qed.
Print Assumptions C39_conservation_partial.

(** ** C38 and C39 for rectilinear grids: steps between 1e-6 and 1e5, lines of the two grids equal or
    1e-6 apart, and where the grids have common lines no source interval strictly inside a destination
    interval of the other direction. *)
Definition rectilinear_pair (d0 d1 : Z) (X Y : Z -> R) (e0 e1 : Z) (U V : Z -> R) : Prop :=
  lines (/ 10 ^ 6) (10 ^ 5) d0 X /\ lines (/ 10 ^ 6) (10 ^ 5) d1 Y /\ lines (/ 10 ^ 6) (10 ^ 5) e0 U /\ lines (/ 10 ^ 6) (10 ^ 5) e1 V /\
  lines_apart (/ 10 ^ 6) d0 X e0 U /\ lines_apart (/ 10 ^ 6) d1 Y e1 V /\ common_ok d0 X e0 U d1 Y e1 V /\ common_ok d1 Y e1 V d0 X e0 U.

Theorem C38_rectilinear : forall srt (g : gels R) d0 d1 X Y xs ys e0 e1 U V us vs m ms,
  gels_spec g 2 2 -> sorts srt -> keeps_ties srt ->
  (2 <= d0)%Z -> (2 <= d1)%Z -> (d0 * d1 <= int_max)%Z -> (2 <= e0)%Z -> (2 <= e1)%Z -> (e0 * e1 <= int_max)%Z ->
  stores d0 d1 (fun i _ => X i) xs -> stores d0 d1 (fun _ j => Y j) ys -> stores e0 e1 (fun i _ => U i) us -> stores e0 e1 (fun _ j => V j) vs ->
  rectilinear_pair d0 d1 X Y e0 e1 U V ->
  exists s, conserve_run srt g d0 d1 xs ys e0 e1 us vs (m :: ms) = Ret s /\
    forall i j, (0 <= i < d0 - 1)%Z -> (0 <= j < d1 - 1)%Z -> let row := row_of (ci_weights s) (i * (d1 - 1) + j) in
      (forall k l, (0 <= k < e0 - 1)%Z -> (0 <= l < e1 - 1)%Z -> weight_of row (k * (e1 - 1) + l) =
        common (X i) (X (i + 1)%Z) (U k) (U (k + 1)%Z) * common (Y j) (Y (j + 1)%Z) (V l) (V (l + 1)%Z) /
        ((X (i + 1)%Z - X i) * (Y (j + 1)%Z - Y j))) /\
      (U 0%Z <= X i -> X (i + 1)%Z <= U (e0 - 1)%Z -> V 0%Z <= Y j -> Y (j + 1)%Z <= V (e1 - 1)%Z -> total (map snd row) = 1).
Proof.
  intros srt g d0 d1 X Y xs ys e0 e1 U V us vs m ms G SRT TIES H0 H1 H2 H3 H4 H5 SX SY SU SV (LX & LY & LU & LV & AX & AY & CX & CY).
  assert (DP : 0 < dlt) by (unfold dlt; lra).
  destruct (C38_area_fractions_partial srt g d0 d1 _ _ xs ys e0 e1 _ _ us vs m ms G SRT TIES H0 H1 H2 H3 H4 H5 SX SY SU SV) as (s & RN & W).
  { apply rect_pairs; auto. }
  { intros c Hc. rewrite rect_cell. destruct (cell_split d0 d1 c H0 H1 Hc) as [S1 S2]. apply box_separated; [apply LX; auto|apply LY; auto]. }
  exists s. split; auto. intros i j Hi Hj row. set (c := (i * (d1 - 1) + j)%Z) in *.
  assert (Hc : (0 <= c < (d0 - 1) * (d1 - 1))%Z) by (unfold c; nia).
  destruct (W c Hc) as (A & AA & AP & WK & WT). rewrite rect_cell in *.
  replace (c / (d1 - 1))%Z with i in * by (apply (Z.div_unique_pos _ _ i j); unfold c; lia).
  replace (c mod (d1 - 1))%Z with j in * by (apply (Z.mod_unique_pos _ _ i j); unfold c; lia).
  assert (B1 := LX i Hi). assert (B2 := LY j Hj). fold dlt in B1, B2.
  assert (EA : A = (X (i + 1)%Z - X i) * (Y (j + 1)%Z - Y j)).
  { apply (L_Area.area_unique _ _ _ AA). apply (L_Area.area_ext (in_box (X i) (X (i + 1)%Z) (Y j) (Y (j + 1)%Z))); [intros p; symmetry; apply box_hull; lra|apply box_area; lra]. }
  split.
  - intros k l Hk Hl. assert (Hc' : (0 <= k * (e1 - 1) + l < (e0 - 1) * (e1 - 1))%Z) by nia.
    destruct (WK _ Hc') as (r & RA & RW & _). fold row in RW. rewrite RW, EA. f_equal. rewrite rect_cell in RA.
    replace ((k * (e1 - 1) + l) / (e1 - 1))%Z with k in * by (apply (Z.div_unique_pos _ _ k l); lia).
    replace ((k * (e1 - 1) + l) mod (e1 - 1))%Z with l in * by (apply (Z.mod_unique_pos _ _ k l); lia).
    assert (B3 := LU k Hk). assert (B4 := LV l Hl). fold dlt in B3, B4.
    apply (L_Area.area_unique _ _ _ RA). apply meet_area; lra.
  - intros. apply WT. apply rect_tiles; auto; lra.
Qed.
Print Assumptions C38_rectilinear.

Theorem C39_rectilinear : forall srt (g : gels R) d0 d1 X Y xs ys e0 e1 U V us vs m ms src dst,
  gels_spec g 2 2 -> sorts srt -> keeps_ties srt ->
  (2 <= d0)%Z -> (2 <= d1)%Z -> (d0 * d1 <= int_max)%Z -> (2 <= e0)%Z -> (2 <= e1)%Z -> (e0 * e1 <= int_max)%Z ->
  stores d0 d1 (fun i _ => X i) xs -> stores d0 d1 (fun _ j => Y j) ys -> stores e0 e1 (fun i _ => U i) us -> stores e0 e1 (fun _ j => V j) vs ->
  rectilinear_pair d0 d1 X Y e0 e1 U V ->
  X 0%Z <= U 0%Z -> U (e0 - 1)%Z <= X (d0 - 1)%Z -> Y 0%Z <= V 0%Z -> V (e1 - 1)%Z <= Y (d1 - 1)%Z ->
  Z.of_nat (length src) = ((e0 - 1) * (e1 - 1))%Z -> Z.of_nat (length dst) = ((d0 - 1) * (d1 - 1))%Z -> (forall x, In x dst -> x = 0) ->
  let size n1 X Y (c : Z) := (X (c / (n1 - 1) + 1)%Z - X (c / (n1 - 1))%Z) * (Y (c mod (n1 - 1) + 1)%Z - Y (c mod (n1 - 1))%Z) in
  exists s out, conserve_run srt g d0 d1 xs ys e0 e1 us vs (m :: ms) = Ret s /\ ci_apply s src dst = Ret out /\
    total (map (fun c => size d1 X Y c * nth (Z.to_nat c) out 0) (range ((d0 - 1) * (d1 - 1)))) =
    total (map (fun k => size e1 U V k * nth (Z.to_nat k) src 0) (range ((e0 - 1) * (e1 - 1)))).
Proof.
  intros srt g d0 d1 X Y xs ys e0 e1 U V us vs m ms src dst G SRT TIES H0 H1 H2 H3 H4 H5 SX SY SU SV (LX & LY & LU & LV & AX & AY & CX & CY) C1 C2 C3 C4 LS LD Z0 size.
  assert (DP : 0 < dlt) by (unfold dlt; lra).
  assert (AR : forall n0' n1' X Y c, (2 <= n0')%Z -> (2 <= n1')%Z -> lines dlt (10 ^ 5) n0' X -> lines dlt (10 ^ 5) n1' Y -> (0 <= c < (n0' - 1) * (n1' - 1))%Z ->
    has_area (in_hull (grid_cell n1' (fun i _ => X i) (fun _ j => Y j) c)) (size n1' X Y c)).
  { clear - DP. intros n0' n1' X Y c H0 H1 LX LY Hc. rewrite rect_cell. destruct (cell_split n0' n1' c H0 H1 Hc) as [S1 S2]. assert (B1 := LX _ S1). assert (B2 := LY _ S2).
    apply (L_Area.area_ext (in_box (X (c / (n1' - 1))%Z) (X (c / (n1' - 1) + 1)%Z) (Y (c mod (n1' - 1))%Z) (Y (c mod (n1' - 1) + 1)%Z))); [intros p; symmetry; apply box_hull; lra|apply box_area; lra]. }
  apply (C39_conservation_partial srt g d0 d1 (fun i _ => X i) (fun _ j => Y j) xs ys e0 e1 (fun i _ => U i) (fun _ j => V j) us vs m ms); auto.
  - apply rect_pairs; auto.
  - intros c Hc. split; [|apply (AR d0); auto]. rewrite rect_cell. destruct (cell_split d0 d1 c H0 H1 Hc) as [S1 S2]. apply box_separated; [apply LX; auto|apply LY; auto].
  - intros k Hk. split; [apply (AR e0); auto|]. rewrite rect_cell. destruct (cell_split e0 e1 k H3 H4 Hk) as [S1 S2].
    assert (B1 := LU _ S1). assert (B2 := LV _ S2). fold dlt in B1, B2. assert (MX := lines_le _ _ _ _ DP LU). assert (MY := lines_le _ _ _ _ DP LV).
    assert (Q1 := MX 0%Z (k / (e1 - 1))%Z ltac:(lia) ltac:(lia)). assert (Q2 := MX (k / (e1 - 1) + 1)%Z (e0 - 1)%Z ltac:(lia) ltac:(lia)).
    assert (Q3 := MY 0%Z (k mod (e1 - 1))%Z ltac:(lia) ltac:(lia)). assert (Q4 := MY (k mod (e1 - 1) + 1)%Z (e1 - 1)%Z ltac:(lia) ltac:(lia)).
    apply rect_tiles; auto; lra.
Qed.
Print Assumptions C39_rectilinear.

(** ** C41 *)
(** From reset, k calls of next return 0 and get then gives the entry number k of the table; but the
    call of next after the last entry reads past the end of the map, as does reset without weights. *)
Theorem C41_visits_partial : forall {T} {N : Num T} (s : ci T), ci_weights s <> [] ->
  (forall d r, In (d, r) (ci_weights s) -> r <> [] /\ (0 <= d <= int_max)%Z /\ forall e, In e r -> (0 <= fst e <= int_max)%Z) ->
  exists s0, ci_reset s = Ret s0 /\
  forall k, (k < length (listed (ci_weights s)))%nat ->
    exists s' e, ci_walk k s0 = Ret (repeat 0%Z k, s') /\ nth_error (listed (ci_weights s)) k = Some e /\ ci_get s' = Ret e.
Proof.
  intros T N s NE H. destruct (iterate s) as (s0 & E & V & _); auto; [intros d r I; apply (H d r I)|intros d r I; apply (H d r I)|]. eauto.
Qed.
Print Assumptions C41_visits_partial.

Theorem C41_end_refuted : forall {T} {N : Num T} (s : ci T), ci_weights s <> [] ->
  (forall d r, In (d, r) (ci_weights s) -> r <> [] /\ (0 <= d <= int_max)%Z /\ forall e, In e r -> (0 <= fst e <= int_max)%Z) ->
  exists s0, ci_reset s = Ret s0 /\ ci_walk (length (listed (ci_weights s))) s0 = Undef EndDeref.
Proof.
  intros T N s NE H. destruct (iterate s) as (s0 & E & _ & U); auto; [intros d r I; apply (H d r I)|intros d r I; apply (H d r I)|]. eauto.
Qed.
Print Assumptions C41_end_refuted.

Theorem C41_new_refuted : forall T (N : Num T), ci_new (T := T) = Undef EndDeref /\ forall s : ci T, ci_weights s = [] -> ci_reset s = Undef EndDeref.
Proof. intros T N. split; [reflexivity|]. intros s E. unfold ci_reset. rewrite E. reflexivity. Qed.
Print Assumptions C41_new_refuted.

(** ** Runs in IEEE arithmetic *)
Definition FZ (z : Z) : spec_float := nofZ z.
Definition F10 (z : Z) : spec_float := lit z 10.
Definition zeros : memory spec_float := (fun _ _ => (FZ 0, FZ 0), fun _ _ _ => (FZ 0, FZ 0)).

(** The destination cell [0, 2] x [0, 2] over two source cells. *)
Example C37_case : exists s, conserve_run isort cramer 2 2 (map FZ [0; 0; 2; 2]%Z) (map FZ [0; 2; 0; 2]%Z) 3 2 (map FZ [-1; -1; 1; 1; 3; 3]%Z) (map FZ [-1; 3; -1; 3; -1; 3]%Z) [zeros] = Ret s /\
  ci_weights s = [(0%Z, [(0%Z, lit 1 2); (1%Z, lit 1 2)])] /\ ci_apply s [FZ 4; FZ 6] [FZ 9] = Ret [FZ 5] /\
  exists s0, ci_reset s = Ret s0 /\ ci_get s0 = Ret (0%Z, 0%Z, lit 1 2) /\ ci_walk 2 s0 = Undef EndDeref.
Proof. eexists. split; [vm_compute; reflexivity|]. split; [vm_compute; reflexivity|]. split; [vm_compute; reflexivity|]. eexists. split; [vm_compute; reflexivity|]. split; vm_compute; reflexivity. Qed.

(** C38 is false: cells that touch along a side of the source cell.  The overlap is a segment but the
    weight is about 1/3 (the triangulation reads past its points; the memory there holds zeros). *)
Theorem C38_touching_refuted : exists s w, conserve_run isort cramer 2 2 (map FZ [1; 1; 2; 2]%Z) (map FZ [0; 3; 0; 3]%Z) 2 2 (map FZ [2; 2; 3; 3]%Z) (map FZ [1; 2; 1; 2]%Z) [zeros] = Ret s /\
  ci_weights s = [(0%Z, [(0%Z, w)])] /\ nlt (lit 33 100) w = true /\ nlt w (lit 34 100) = true.
Proof. do 2 eexists. split; [vm_compute; reflexivity|]. split; [vm_compute; reflexivity|]. split; vm_compute; reflexivity. Qed.
Print Assumptions C38_touching_refuted.

(** C39 is false in the same way: destination cells [1, 2] x [0, 3] and [2, 4] x [0, 3], source cell [2, 3] x [1, 2] with
    the value 1.  The integral of the source field is 1, that of the result (areas 3 and 6) is 2. *)
Theorem C39_touching_refuted : exists s a b,
  conserve_run isort cramer 3 2 (map FZ [1; 1; 2; 2; 4; 4]%Z) (map FZ [0; 3; 0; 3; 0; 3]%Z) 2 2 (map FZ [2; 2; 3; 3]%Z) (map FZ [1; 2; 1; 2]%Z) [zeros] = Ret s /\
  ci_apply s [FZ 1] [FZ 0; FZ 0] = Ret [a; b] /\ nlt (lit 199 100) (nadd (nmul (FZ 3) a) (nmul (FZ 6) b)) = true.
Proof. do 3 eexists. split; [vm_compute; reflexivity|]. split; vm_compute; reflexivity. Qed.
Print Assumptions C39_touching_refuted.

(** C40 is false in IEEE arithmetic: two destination cells share a side crossed by the source cell; the
    second one uses the crossing found along the opposite direction and its weight differs. *)
Definition nodes_of (n1 : Z) (l : list spec_float) (i j : Z) : spec_float := nth (Z.to_nat (i * n1 + j)) l (FZ 0).
Theorem C40_refuted : let xs := map F10 [0; 1; 10; 13; 21; 20]%Z in let ys := map F10 [0; 11; 1; 10; 0; 9]%Z in
  let us := map F10 [3; 4; 17; 18]%Z in let vs := map F10 [3; 8; 2; 7]%Z in
  exists s, conserve_run isort cramer 3 2 xs ys 2 2 us vs [zeros] = Ret s /\
    row_of (ci_weights s) 1 <> tested_row isort (fst zeros 1%Z) (snd zeros 1%Z) cramer (cell_at 2 (nodes_of 2 xs) (nodes_of 2 ys) 1) (cell_at 2 (nodes_of 2 us) (nodes_of 2 vs)) 1.
Proof. intros xs ys us vs. eexists. split; [vm_compute; reflexivity|]. vm_compute. discriminate. Qed.
Print Assumptions C40_refuted.

(** C42 is false: the destination cell [0, 2] x [0, 2]; first the two source cells of C37_case, then one
    source cell covering it.  The row is kept, and applying it reads past the end of the data. *)
Theorem C42_stale_refuted : exists s s1 s', conserve_run isort cramer 2 2 (map FZ [0; 0; 2; 2]%Z) (map FZ [0; 2; 0; 2]%Z) 3 2 (map FZ [-1; -1; 1; 1; 3; 3]%Z) (map FZ [-1; 3; -1; 3; -1; 3]%Z) [zeros] = Ret s /\
  ci_setSrcGrid s 2 2 [map FZ [-1; -1; 3; 3]%Z; map FZ [-1; 3; -1; 3]%Z] = Ret s1 /\ ci_computeWeights isort (fst zeros) (snd zeros) cramer s1 = Ret s' /\
  ci_weights s' = [(0%Z, [(0%Z, lit 1 2); (1%Z, lit 1 2)])] /\ ci_apply s' [FZ 4] [FZ 9] = Undef OutOfBounds /\
  exists f, conserve_run isort cramer 2 2 (map FZ [0; 0; 2; 2]%Z) (map FZ [0; 2; 0; 2]%Z) 2 2 (map FZ [-1; -1; 3; 3]%Z) (map FZ [-1; 3; -1; 3]%Z) [zeros] = Ret f /\
    ci_weights f = [(0%Z, [(0%Z, FZ 1)])].
Proof.
  do 3 eexists. split; [vm_compute; reflexivity|]. split; [vm_compute; reflexivity|]. split; [vm_compute; reflexivity|]. split; [vm_compute; reflexivity|]. split; [vm_compute; reflexivity|].
  eexists. split; vm_compute; reflexivity.
Qed.
Print Assumptions C42_stale_refuted.

(** ** Cases of the theorems in exact arithmetic: destination lines 0, 2 and source lines -1, 1, 3
    (both directions; C38, C40), and the other way round (C39). *)
Definition wide (i : Z) : R := 2 * IZR i.
Definition shifted (i : Z) : R := 2 * IZR i - 1.

Lemma odd_apart : forall i k, / 10 ^ 6 < Rabs (wide i - shifted k).
Proof.
  intros i k. unfold wide, shifted. replace (2 * IZR i - (2 * IZR k - 1)) with (IZR (2 * i - 2 * k + 1)) by (rewrite plus_IZR, minus_IZR, !mult_IZR; ring).
  rewrite Rabs_Zabs. assert (1 <= IZR (Z.abs (2 * i - 2 * k + 1))) by (apply IZR_le; lia). lra.
Qed.

Lemma wide_shifted : forall d0 d1 e0 e1, rectilinear_pair d0 d1 wide wide e0 e1 shifted shifted /\ rectilinear_pair d0 d1 shifted shifted e0 e1 wide wide.
Proof.
  intros. assert (A := odd_apart). assert (B : forall i k, wide i <> shifted k) by (intros i k E; specialize (A i k); rewrite E, Rminus_diag_eq, Rabs_R0 in A by auto; lra).
  assert (L1 : forall n, lines (/ 10 ^ 6) (10 ^ 5) n wide) by (intros n i _; unfold wide; rewrite plus_IZR; lra).
  assert (L2 : forall n, lines (/ 10 ^ 6) (10 ^ 5) n shifted) by (intros n i _; unfold shifted; rewrite plus_IZR; lra).
  split; (do 4 (split; [auto|])).
  - split; [right; auto|]. split; [right; auto|]. split; intros (i & k & _ & _ & E); exfalso; apply (B i k); auto.
  - split; [right; rewrite Rabs_minus_sym; auto|]. split; [right; rewrite Rabs_minus_sym; auto|]. split; intros (i & k & _ & _ & E); exfalso; apply (B k i); auto.
Qed.

Definition grid_array (n : nat) (f : Z -> Z -> R) : list R := flat_map (fun i => map (fun j => f i j) (zseq n)) (zseq n).
Lemma grid_stores : forall f, stores 2 2 f (grid_array 2 f) /\ stores 3 3 f (grid_array 3 f).
Proof.
  intros f. split; (split; [reflexivity|]); intros i j Hi Hj.
  - assert (I : (i = 0 \/ i = 1)%Z) by lia. assert (J : (j = 0 \/ j = 1)%Z) by lia. destruct I as [-> | ->], J as [-> | ->]; reflexivity.
  - assert (I : (i = 0 \/ i = 1 \/ i = 2)%Z) by lia. assert (J : (j = 0 \/ j = 1 \/ j = 2)%Z) by lia. destruct I as [-> | [-> | ->]], J as [-> | [-> | ->]]; reflexivity.
Qed.
Definition noise : memory R := (fun _ _ => (7, 9), fun _ _ _ => (8, -3)).

(** The cell [0, 2] x [0, 2] over four cells: a quarter each; the sum of the weights is one. *)
Example C38_case : exists s, conserve_run insertion gels2 2 2 (grid_array 2 (fun i _ => wide i)) (grid_array 2 (fun _ j => wide j))
    3 3 (grid_array 3 (fun i _ => shifted i)) (grid_array 3 (fun _ j => shifted j)) [noise; noise] = Ret s /\
  (forall k, (0 <= k < 4)%Z -> weight_of (row_of (ci_weights s) 0) k = 1 / 4) /\ total (map snd (row_of (ci_weights s) 0)) = 1.
Proof.
  destruct (C38_rectilinear insertion gels2 2 2 wide wide _ _ 3 3 shifted shifted _ _ noise [noise] gels2_spec22 (insertion_sorts nat) insertion_ties
    ltac:(lia) ltac:(lia) ltac:(unfold int_max; lia) ltac:(lia) ltac:(lia) ltac:(unfold int_max; lia)
    (proj1 (grid_stores _)) (proj1 (grid_stores _)) (proj2 (grid_stores _)) (proj2 (grid_stores _)) (proj1 (wide_shifted _ _ _ _))) as (s & RN & W).
  exists s. split; auto. destruct (W 0%Z 0%Z ltac:(lia) ltac:(lia)) as [W1 W2]. change (0 * (2 - 1) + 0)%Z with 0%Z in *. split.
  - assert (CM : common (wide 0) (wide (0 + 1)) (shifted 0) (shifted (0 + 1)) = 1 /\ common (wide 0) (wide (0 + 1)) (shifted 1) (shifted (1 + 1)) = 1).
    { unfold common, wide, shifted, Rmin, Rmax. change (0 + 1)%Z with 1%Z. change (1 + 1)%Z with 2%Z. split; repeat destruct (Rle_dec _ _); lra. }
    destruct CM as [C1 C2].
    assert (SZ : wide (0 + 1) - wide 0 = 2) by (unfold wide; change (0 + 1)%Z with 1%Z; lra).
    intros k Hk. assert (K : (k = 0 \/ k = 1 \/ k = 2 \/ k = 3)%Z) by lia.
    destruct K as [-> |[-> |[-> | ->]]]; [etransitivity; [apply (W1 0 0)%Z; lia|]|etransitivity; [apply (W1 0 1)%Z; lia|]|etransitivity; [apply (W1 1 0)%Z; lia|]|etransitivity; [apply (W1 1 1)%Z; lia|]]; rewrite ?C1, ?C2, SZ; lra.
  - apply W2; unfold wide, shifted; change (0 + 1)%Z with 1%Z; change (3 - 1)%Z with 2%Z; lra.
Qed.

(** One source cell [0, 2] x [0, 2] with value 5 over four destination cells: the total is kept. *)
Example C39_case : exists s out, conserve_run insertion gels2 3 3 (grid_array 3 (fun i _ => shifted i)) (grid_array 3 (fun _ j => shifted j))
    2 2 (grid_array 2 (fun i _ => wide i)) (grid_array 2 (fun _ j => wide j)) [noise] = Ret s /\
  ci_apply s [5] [0; 0; 0; 0] = Ret out /\ 4 * total out = 20.
Proof.
  destruct (C39_rectilinear insertion gels2 3 3 shifted shifted _ _ 2 2 wide wide _ _ noise [] [5] [0; 0; 0; 0] gels2_spec22 (insertion_sorts nat) insertion_ties
    ltac:(lia) ltac:(lia) ltac:(unfold int_max; lia) ltac:(lia) ltac:(lia) ltac:(unfold int_max; lia)
    (proj2 (grid_stores _)) (proj2 (grid_stores _)) (proj1 (grid_stores _)) (proj1 (grid_stores _)) (proj2 (wide_shifted _ _ _ _))) as (s & out & RN & A & T);
    try (unfold wide, shifted; change (2 - 1)%Z with 1%Z; change (3 - 1)%Z with 2%Z; lra); try reflexivity.
  { intros x I. cbn in I. intuition. }
  exists s, out. split; auto. split; auto.
  destruct (C43_apply insertion gels2 3 3 (grid_array 3 (fun i _ => shifted i)) (grid_array 3 (fun _ j => shifted j)) 2 2 (grid_array 2 (fun i _ => wide i)) (grid_array 2 (fun _ j => wide j)) [noise] [5] [0; 0; 0; 0])
    as (s' & out' & RN' & A' & L & _); try lia; try reflexivity; try (unfold int_max; lia).
  rewrite RN in RN'. injection RN' as <-. rewrite A in A'. injection A' as <-.
  destruct out as [|o0 [|o1 [|o2 [|o3 [|]]]]]; try discriminate L.
  change (range ((3 - 1) * (3 - 1))) with [0; 1; 2; 3]%Z in T. change (range ((2 - 1) * (2 - 1))) with [0]%Z in T.
  cbn [map total nth Z.to_nat] in *. unfold wide, shifted in T.
  change (0 / (3 - 1))%Z with 0%Z in T. change (0 mod (3 - 1))%Z with 0%Z in T. change (1 / (3 - 1))%Z with 0%Z in T. change (1 mod (3 - 1))%Z with 1%Z in T.
  change (2 / (3 - 1))%Z with 1%Z in T. change (2 mod (3 - 1))%Z with 0%Z in T. change (3 / (3 - 1))%Z with 1%Z in T. change (3 mod (3 - 1))%Z with 1%Z in T.
  change (0 / (2 - 1))%Z with 0%Z in T. change (0 mod (2 - 1))%Z with 0%Z in T. change (0 + 1)%Z with 1%Z in T. change (1 + 1)%Z with 2%Z in T.
  change (Z.to_nat 0) with 0%nat in T. change (Z.to_nat 1) with 1%nat in T. change (Z.to_nat 2) with 2%nat in T. change (Z.to_nat 3) with 3%nat in T. lra.
Qed.

(** The theorem of the caches applies to the grids of C38_case. *)
Example C40_case : exists s, conserve_run insertion gels2 2 2 (grid_array 2 (fun i _ => wide i)) (grid_array 2 (fun _ j => wide j))
    3 3 (grid_array 3 (fun i _ => shifted i)) (grid_array 3 (fun _ j => shifted j)) [noise] = Ret s /\
  row_of (ci_weights s) 0 = tested_row insertion (fst noise 0%Z) (snd noise 0%Z) gels2 (cell_at 2 (fun i _ => wide i) (fun _ j => wide j) 0) (cell_at 3 (fun i _ => shifted i) (fun _ j => shifted j)) 4.
Proof.
  destruct (C40_exact_partial insertion gels2 2 2 _ _ _ _ 3 3 _ _ _ _ noise [] gels2_spec22 ltac:(lia) ltac:(lia) ltac:(unfold int_max; lia) ltac:(lia) ltac:(lia) ltac:(unfold int_max; lia)
    (proj1 (grid_stores (fun i _ => wide i))) (proj1 (grid_stores (fun _ j => wide j))) (proj2 (grid_stores (fun i _ => shifted i))) (proj2 (grid_stores (fun _ j => shifted j)))) as (s & RN & _ & W).
  - intros c k e f Hc Hk He Hf. apply clear_off. destruct (wide_shifted 2 2 3 3) as [(LX & LY & LU & LV & AX & AY & CX & CY) _].
    apply (rp_cross _ _ _ _ (rect_pairs 2 2 wide wide 3 3 shifted shifted ltac:(lia) ltac:(lia) ltac:(lia) ltac:(lia) LX LY LU LV AX AY CX CY c k Hc Hk)); auto.
  - exists s. split; auto. exact (W 0%Z).
Qed.
