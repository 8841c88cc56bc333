(** Property theorem C44 in IEEE double arithmetic: cells under a polygon. *)
From Coq Require Import ZArith List Bool Lia Reals Lra.
From Coq Require Import Floats.SpecFloat.
From Flocq Require Import Core BinarySingleNaN.
From Verif Require Import Base Num NumR NumF M_LinearSolve M_FindPoint M_FindOverlap S_LinAlg S_Grid
  L_LinearSolve L_Interp L_Cramer L_FindPoint L_FindPointR L_FindPointG L_NodeInterp L_NodeInterpR L_Float L_FloatOps L_FindPointF L_FindOverlap L_FindOverlapF P_FindOverlap.
Import ListNotations.
Open Scope R_scope.

(** Where a search object of its own finds a point, any arithmetic: setGrid, reset from the middle of
    the grid (2.123353 and 1.9647354 are the numbers of the C++ code), next until done. *)
Definition located_in {T} {N : Num T} (g : gels T) (d0 d1 : Z) (per : list Z) (coords : list (list T)) (p : T * T) (q : list T) : Prop :=
  exists f f1 code f2, fp_setGrid (fp_new 100 (lit 1 (10 ^ 6))) [d0; d1] per coords = Ret f /\
    fp_reset f [ndiv (nofZ d0) (lit 2123353 (10 ^ 6)); ndiv (nofZ d1) (lit 19647354 (10 ^ 7))] [fst p; snd p] = Ret f1 /\
    fp_search g f1 = Ret (code, f2) /\ fp_dIndices f2 = q.

Lemma foldM_keeps : forall {A S} (f : S -> A -> exec S) (P : S -> Prop) l s s', P s ->
  (forall s a s', In a l -> P s -> f s a = Ret s' -> P s') -> foldM f l s = Ret s' -> P s'.
Proof.
  intros A S f P. induction l as [|a l IH]; intros s s' Hs Hf E; [injection E as <-; auto|]. cbn [foldM] in E.
  apply bind_ret_inv in E. destruct E as (s1 & E1 & E2). apply (IH s1 s'); auto; [eapply Hf; eauto; left; auto|]. intros; eapply Hf; eauto. right; auto.
Qed.

(** C44 in IEEE double arithmetic: any grid coordinates, any linear solver that gives back doubles
    (infinities and NaN are doubles), any points, any polygons searched before, provided the search is defined (an
    index that is not a number makes the conversion to int undefined).  The positions found are
    finite; a cell is returned when they reach below its high side and, with 0.01 added and the sum
    rounded, above its low side, on both axes. *)
Theorem C44_cells_ieee : forall g d0 d1 per coords hist poly s, gives_doubles g -> grid_data [d0; d1] coords ->
  List.Forall (fun p => p <> []) hist -> poly <> [] ->
  overlap_run g d0 d1 per coords (hist ++ [poly]) = Ret s ->
  exists qs, Forall2 (located_in g d0 d1 per coords) poly qs /\
    List.Forall (fun q => length q = 2%nat /\ List.Forall (fun x => dbl x /\ 0 <= fval x) q) qs /\ NoDup (fo_cells s) /\
    forall k, In k (fo_cells s) <-> exists a b, k = (a * d1 + b)%Z /\ (0 <= a < d0 - 1)%Z /\ (0 <= b < d1 - 1)%Z /\
       ((exists q, In q qs /\ fval (nth 0 q n0) < IZR a + 1) /\ (exists q, In q qs /\ IZR a < fval (nadd (nth 0 q n0) (lit 1 100)))) /\
       ((exists q, In q qs /\ fval (nth 1 q n0) < IZR b + 1) /\ (exists q, In q qs /\ IZR b < fval (nadd (nth 1 q n0) (lit 1 100)))).
Proof.
  intros g d0 d1 per coords hist poly s GD HD HN PN RUN.
  assert (Hok : grid_ok [d0; d1]) by apply HD.
  assert (D0 := dims_ge2 [d0; d1] 0 Hok ltac:(simpl; lia)). assert (D1 := dims_ge2 [d0; d1] 1 Hok ltac:(simpl; lia)). cbn [nth] in D0, D1.
  assert (DM : (d0 * d1 <= int_max)%Z) by (destruct Hok as [_ Hok]; cbn [grid_size] in Hok; unfold int_max; lia).
  destruct (fresh_ready d0 d1 per coords HD) as (f & EF & F & NI & TF).
  assert (PO : List.Forall period_ok (fp_period f)).
  { destruct (setGrid_ok (fp_new 100 (lit 1 (10 ^ 6))) [d0; d1] per coords HD) as (f' & E' & _ & _ & _ & _ & _ & _ & _ & Pe & _). rewrite EF in E'. injection E' as <-.
    rewrite Pe. apply periods_ok; [apply resize_periods; constructor|apply dims_range; auto]. }
  unfold overlap_run, fo_setSrcGrid in RUN. rewrite chk_ok in RUN by (unfold int_min, int_max; lia). cbn [bind fo_new fo_finder fo_cells fo_points fo_numPoints] in RUN. rewrite EF in RUN. cbn [bind] in RUN.
  replace (1 * d1)%Z with d1 in RUN by lia. rewrite foldM_app in RUN. apply bind_ret_inv in RUN. destruct RUN as (s1 & E1 & RUN).
  assert (H1 : fo_nodeDims s1 = [d0; d1] /\ fo_prodDims s1 = [d1; 1%Z] /\ twin f (fo_finder s1)).
  { revert E1. apply foldM_keeps with (P := fun s1 : fo spec_float => fo_nodeDims s1 = [d0; d1] /\ fo_prodDims s1 = [d1; 1%Z] /\ twin f (fo_finder s1)); [cbn; auto|].
    intros u p u' Ip (A1 & A2 & A3) EU. rewrite setPolygon_ok in EU. cbn [bind] in EU. rewrite Forall_forall in HN.
    destruct (find_cells_F g d0 d1 coords p (mkFo (fo_nodeDims u) (fo_prodDims u) (fo_cells u) (fo_finder u) (flat_points p) (Some (Z.of_nat (length p)))) u' f GD F PO)
      as (qs & B1 & B2 & B3 & _); auto. rewrite NI; unfold int_max; lia. }
  destruct H1 as (A1 & A2 & A3). cbn [foldM] in RUN. rewrite setPolygon_ok in RUN. cbn [bind] in RUN. apply bind_ret_inv in RUN. destruct RUN as (s' & RUN & E). injection E as <-.
  destruct (find_cells_F g d0 d1 coords poly (mkFo (fo_nodeDims s1) (fo_prodDims s1) (fo_cells s1) (fo_finder s1) (flat_points poly) (Some (Z.of_nat (length poly)))) s' f GD F PO)
    as (qs & B1 & B2 & B3 & B4 & B5 & B6 & B7); auto; [rewrite NI; unfold int_max; lia|].
  exists qs. split.
  { clear - B4 EF. induction B4 as [|p q poly qs (f1 & c & f2 & X1 & X2 & X3) B4 IH]; constructor; auto. exists f, f1, c, f2. auto. }
  split; [eapply Forall_impl; [|exact B5]; intros q (_ & Q1 & Q2); split; [exact Q2|]; eapply Forall_impl; [|exact Q1]; intros x [X1 X2]; split; [exact X1|apply X2]|].
  split; auto. intros k. rewrite B7. split; intros (a & b & X1 & X2 & X3 & X4); exists a, b; repeat (split; [first [assumption|lia]|]); auto.
Qed.
Print Assumptions C44_cells_ieee.

(** 0.01 is never lost in the rounding. *)
Lemma cent_kept : forall a x, (0 <= a <= 2 ^ 31)%Z -> dbl x -> IZR a <= fval x <= 2147483648 -> IZR a < fval (nadd x (lit 1 100)).
Proof.
  intros a x Ha D P. assert (A0 : 0 <= IZR a) by (apply IZR_le; lia).
  assert (E : (lit 1 100 : spec_float) = S754_finite false 5764607523034235 (-59)) by (vm_compute; reflexivity).
  destruct cent_val as [CD CV].
  destruct (f_add x (lit 1 100) D CD) as [_ SV]; [apply small_R; rewrite Rabs_pos_eq; lra|]. rewrite SV.
  apply Rlt_le_trans with (IZR a + / 128); [lra|].
  replace (IZR a + / 128) with (rnd (IZR a + / 128)).
  - apply rnd_le. assert (/ 128 <= fval (lit 1 100)); [|lra]. rewrite E. unfold fval. cbn [SF2R cond_Zopp]. unfold F2R. simpl Fnum. simpl Fexp.
    change (bpow radix2 (-59)) with (/ IZR (2 ^ 59)). change (2 ^ 59)%Z with 576460752303423488%Z. lra.
  - apply round_generic; [auto with typeclass_instances|].
    replace (IZR a + / 128) with (F2R (Float radix2 (a * 128 + 1) (-7))).
    + apply generic_format_FLT. exists (Float radix2 (a * 128 + 1) (-7)); [reflexivity| |unfold fprec, femax, SpecFloat.emin; simpl; lia].
      simpl Fnum. change (radix2 ^ fprec)%Z with (2 ^ 53)%Z. lia.
    + unfold F2R. simpl Fnum. simpl Fexp. change (bpow radix2 (-7)) with (/ 128). rewrite plus_IZR, mult_IZR. field.
Qed.

Lemma located_unique : forall {T} {N : Num T} g d0 d1 per (coords : list (list T)) p q q', located_in g d0 d1 per coords p q -> located_in g d0 d1 per coords p q' -> q = q'.
Proof. intros T N g d0 d1 per coords p q q' (f & f1 & c & f2 & A1 & A2 & A3 & A4) (h & h1 & e & h2 & B1 & B2 & B3 & B4). congruence. Qed.

(** C44 in IEEE double arithmetic: a cell in which a point of the polygon is found is returned. *)
Theorem C44_own_cells_ieee : forall g d0 d1 per coords hist poly s p q a b, gives_doubles g -> grid_data [d0; d1] coords ->
  List.Forall (fun p => p <> []) hist -> overlap_run g d0 d1 per coords (hist ++ [poly]) = Ret s ->
  In p poly -> (0 <= a < d0 - 1)%Z -> (0 <= b < d1 - 1)%Z ->
  located_in g d0 d1 per coords p q -> IZR a <= fval (nth 0 q n0) < IZR a + 1 -> IZR b <= fval (nth 1 q n0) < IZR b + 1 ->
  In (a * d1 + b)%Z (fo_cells s).
Proof.
  intros g d0 d1 per coords hist poly s p q a b GD HD HN RUN Ip Ha Hb HQ Q0 Q1.
  assert (Hok : grid_ok [d0; d1]) by apply HD.
  assert (D0 := dims_ge2 [d0; d1] 0 Hok ltac:(simpl; lia)). assert (D1 := dims_ge2 [d0; d1] 1 Hok ltac:(simpl; lia)). cbn [nth] in D0, D1.
  destruct (C44_cells_ieee g d0 d1 per coords hist poly s GD HD HN) as (qs & F2 & FQ & _ & HC); auto; [destruct poly; [destruct Ip|discriminate]|].
  assert (X : exists q, In q qs /\ located_in g d0 d1 per coords p q).
  { clear - F2 Ip. induction F2 as [|p' q' poly qs L F2 IH]; [destruct Ip|]. destruct Ip as [->|Ip]; [exists q'; split; [left; auto|auto]|]. destruct (IH Ip) as (q & I & Q). exists q. split; [right; auto|auto]. }
  destruct X as (q' & Iq & LQ). assert (EQ := located_unique _ _ _ _ _ _ _ _ HQ LQ). subst q'. rewrite Forall_forall in FQ. destruct (FQ q Iq) as [L2 DQ]. destruct q as [|qx [|qy [|]]]; try discriminate.
  cbn [nth] in *. apply Forall_cons_iff in DQ. destruct DQ as [[DX _] DQ]. apply Forall_cons_iff in DQ. destruct DQ as [[DY _] _].
  assert (A2 : IZR a <= 2147483646) by (apply IZR_le; lia). assert (B2 : IZR b <= 2147483646) by (apply IZR_le; lia).
  apply HC. exists a, b. split; auto. split; auto. split; auto.
  split; (split; [exists [qx; qy]; cbn [nth]; split; [auto|lra]|exists [qx; qy]; cbn [nth]; split; [auto|apply cent_kept; auto; [lia|lra]]]).
Qed.
Print Assumptions C44_own_cells_ieee.

(** A solver of 2 x 2 systems whose results are doubles whatever it is given. *)
Definition cramer_dbl : gels spec_float := fun m n a lda b ldb lw =>
  let r := cramer m n a lda b ldb lw in
  mkGels (g_info r) (g_mat r) (fun k => let v := g_rhs r k in if SpecFloat.valid_binary fprec femax v then v else S754_nan).

Lemma cramer_doubles : gives_doubles cramer_dbl.
Proof.
  intros m n a lda b ldb lw k. unfold cramer_dbl. cbn [g_rhs]. cbv zeta.
  destruct (SpecFloat.valid_binary fprec femax (g_rhs (cramer m n a lda b ldb lw) k)) eqn:E; [exact E|reflexivity].
Qed.

(** A curved grid in double arithmetic, a triangle after another polygon: two of the four cells. *)
Definition cv3 : list (list spec_float) :=
  [map (fun z => lit z 10) [0; 1; 0; 10; 12; 10; 20; 23; 20]%Z; map (fun z => lit z 10) [0; 10; 20; 1; 11; 21; 0; 10; 20]%Z].
Example C44_ieee_case :
  grid_data [3; 3]%Z cv3 /\
  cells_read (overlap_run cramer_dbl 3 3 [0; 0]%Z cv3 ([[(lit 1 2, lit 3 2)]] ++ [[(lit 3 10, lit 3 10); (lit 17 10, lit 1 2); (lit 1 2, lit 7 10)]])) = Ret [0; 3]%Z /\
  exists s, overlap_run cramer_dbl 3 3 [0; 0]%Z cv3 ([[(lit 1 2, lit 3 2)]] ++ [[(lit 3 10, lit 3 10); (lit 17 10, lit 1 2); (lit 1 2, lit 7 10)]]) = Ret s.
Proof.
  split; [|split].
  - split; [discriminate|]. split; [split; [repeat constructor; lia|vm_compute; discriminate]|]. split; [reflexivity|]. repeat constructor.
  - vm_compute. reflexivity.
  - eexists. vm_compute. reflexivity.
Qed.
