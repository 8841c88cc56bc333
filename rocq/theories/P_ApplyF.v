(** Property theorem C87: applying stored weights in IEEE double arithmetic. *)
From Coq Require Import ZArith List Bool Reals Lra Lia Floats.SpecFloat.
From Flocq Require Import Core BinarySingleNaN.
From Verif Require Import Base Num NumR NumF M_BoxIterator M_LinearSolve M_FindPoint M_Triangulate M_Quad M_QuadLine M_FlowInterp M_ConserveInterp
  S_LinAlg S_Geometry S_Quad S_Grid S_Sort S_Array S_Flow S_FlowTable S_ConserveTable
  L_LinearSolve L_Interp L_Cramer L_FindPoint L_NodeInterp L_Float L_FloatOps L_FindPointF L_NodeInterpF L_Defined L_FlowInterp L_FlowTwin L_FlowTable L_FlowF L_DotF L_ApplyF
  L_Box2 P_QuadLineFlows P_Flow P_Defined P_FlowF P_Conserve.
Import ListNotations.
Open Scope R_scope.

(** The same weights and data as exact numbers, and their magnitudes. *)
Definition exact_row (r : list (Z * spec_float)) : list (Z * R) := map (fun e => (fst e, fval (snd e))) r.
Definition size_row (r : list (Z * spec_float)) : list (Z * R) := map (fun e => (fst e, Rabs (fval (snd e)))) r.
Definition exact_edges (es : list (Z * list spec_float)) : list (Z * list R) := map (fun e => (fst e, map fval (snd e))) es.
Definition size_edges (es : list (Z * list spec_float)) : list (Z * list R) := map (fun e => (fst e, map (fun v => Rabs (fval v)) (snd e))) es.

Lemma fval_n0 : fval n0 = 0.
Proof. destruct (f_ofZ 0 ltac:(lia)) as [_ V]. exact V. Qed.

Lemma weighted_R : forall r (f : Z -> spec_float) acc,
  weighted acc (exact_row r) (fun k => fval (f k)) = acc + dot_exact (map (fun kw => (snd kw, f (fst kw))) r).
Proof.
  induction r as [|[c w] r IH]; intros f acc; cbn [exact_row map weighted dot_exact fold_right fst snd]; [ring|].
  fold (exact_row r). rewrite IH. fold (dot_exact (map (fun kw => (snd kw, f (fst kw))) r)). cbn [nadd nmul NumR]. ring.
Qed.

Lemma weighted_size : forall r (f : Z -> spec_float) acc,
  weighted acc (size_row r) (fun k => Rabs (fval (f k))) = acc + dot_size (map (fun kw => (snd kw, f (fst kw))) r).
Proof.
  induction r as [|[c w] r IH]; intros f acc; cbn [size_row map weighted dot_size fold_right fst snd]; [ring|].
  fold (size_row r). rewrite IH. fold (dot_size (map (fun kw => (snd kw, f (fst kw))) r)). cbn [nadd nmul NumR]. rewrite Rabs_mult. ring.
Qed.

Lemma nth_fval : forall i w, nth i (map fval w) 0 = fval (nth i w n0).
Proof. intros i w. rewrite <- fval_n0. apply map_nth. Qed.
Lemma nth_abs : forall i w, nth i (map (fun v => Rabs (fval v)) w) 0 = Rabs (fval (nth i w n0)).
Proof. intros i w. replace 0 with (Rabs (fval n0)) by (rewrite fval_n0; apply Rabs_R0). apply (map_nth (fun v => Rabs (fval v))). Qed.

Lemma edge_sum_R : forall d1 h0 h1 es acc,
  edge_sum d1 (fun i j => fval (h0 i j)) (fun i j => fval (h1 i j)) acc (exact_edges es) = acc + dot_exact (flat_map (edge_pairs d1 h0 h1) es).
Proof.
  intros d1 h0 h1. induction es as [|[c w] es IH]; intros acc; [cbn; ring|].
  cbn [exact_edges map edge_sum flat_map fst snd]. fold (exact_edges es). rewrite IH. change (n0 : R) with 0. rewrite !nth_fval.
  unfold edge_pairs at 2. cbn [app dot_exact fold_right fst snd]. fold (dot_exact (flat_map (edge_pairs d1 h0 h1) es)). cbn [nadd nmul NumR]. ring.
Qed.

Lemma edge_sum_size : forall d1 h0 h1 es acc,
  edge_sum d1 (fun i j => Rabs (fval (h0 i j))) (fun i j => Rabs (fval (h1 i j))) acc (size_edges es) = acc + dot_size (flat_map (edge_pairs d1 h0 h1) es).
Proof.
  intros d1 h0 h1. induction es as [|[c w] es IH]; intros acc; [cbn; ring|].
  cbn [size_edges map edge_sum flat_map fst snd]. fold (size_edges es). rewrite IH. change (n0 : R) with 0. rewrite !nth_abs.
  unfold edge_pairs at 2. cbn [app dot_size fold_right fst snd]. fold (dot_size (flat_map (edge_pairs d1 h0 h1) es)). cbn [nadd nmul NumR]. rewrite !Rabs_mult. ring.
Qed.

Lemma flat4 : forall {A B} (f : A -> list B) l, (forall x, length (f x) = 4%nat) -> length (flat_map f l) = (4 * length l)%nat.
Proof. intros A B f l H. induction l as [|x l IH]; [reflexivity|]. cbn [flat_map length]. rewrite app_length, H, IH. lia. Qed.

Lemma dot_size_le : forall l B, 0 <= B -> List.Forall (fun wd => Rabs (fval (fst wd) * fval (snd wd)) <= B) l -> dot_size l <= INR (length l) * B.
Proof.
  intros l B HB F. induction F as [|x l Hx F IH]; [simpl; lra|].
  cbn [dot_size fold_right length]. fold (dot_size l). rewrite S_INR. lra.
Qed.

Lemma nth_dbl : forall n w i, bound4 n w -> (i < 4)%nat -> dbl (nth i w n0) /\ Rabs (fval (nth i w n0)) <= IZR n.
Proof.
  intros n w i (w0 & w1 & w2 & w3 & -> & F) Hi. rewrite Forall_forall in F. apply F. apply nth_In. simpl. lia.
Qed.

Lemma edge_bound : forall d0 d1 h0 h1 es, (2 <= d0)%Z -> (2 <= d1)%Z -> (Z.of_nat (length es) <= int_max)%Z -> List.Forall good es ->
  (forall e, In e es -> (0 <= fst e < (d0 - 1) * (d1 - 1))%Z) ->
  (forall i j, (0 <= i < d0 - 1)%Z -> (0 <= j < d1)%Z -> dbl (h0 i j) /\ Rabs (fval (h0 i j)) <= bpow radix2 800) ->
  (forall i j, (0 <= i < d0)%Z -> (0 <= j < d1 - 1)%Z -> dbl (h1 i j) /\ Rabs (fval (h1 i j)) <= bpow radix2 800) ->
  let l := flat_map (edge_pairs d1 h0 h1) es in
  dbl (dotF n0 l) /\ Rabs (fval (dotF n0 l) - dot_exact l) <= 12 * INR (length es) * (uround * dot_size l + etiny).
Proof.
  intros d0 d1 h0 h1 es H0 H1 LE GR CI V0 V1 l.
  assert (LL : length l = (4 * length es)%nat) by (apply flat4; reflexivity).
  assert (IP : List.Forall (fun wd => pair_dbl wd /\ Rabs (fval (fst wd) * fval (snd wd)) <= 5 * bpow radix2 800) l).
  { apply Forall_forall. intros wd I. apply in_flat_map in I. destruct I as ([c w] & I & J). rewrite Forall_forall in GR. assert (G := GR _ I). unfold good in G. cbn [snd] in G.
    assert (B := CI _ I). cbn [fst] in B. unfold edge_pairs in J. cbn [fst snd] in J.
    assert (A1 : (0 <= c / (d1 - 1) < d0 - 1)%Z) by (split; [apply Z.div_pos; lia|apply Z.div_lt_upper_bound; lia]).
    assert (A2 := Z.mod_pos_bound c (d1 - 1) ltac:(lia)).
    assert (K : forall a b, dbl a /\ Rabs (fval a) <= 5 -> dbl b /\ Rabs (fval b) <= bpow radix2 800 -> pair_dbl (a, b) /\ Rabs (fval (fst (a, b)) * fval (snd (a, b))) <= 5 * bpow radix2 800).
    { intros a b [Da Ba] [Db Bb]. split; [split; auto|]. cbn [fst snd]. rewrite Rabs_mult. apply Rmult_le_compat; auto using Rabs_pos. }
    destruct J as [<-|[<-|[<-|[<-|[]]]]]; apply K; try (apply (nth_dbl 5); auto; lia); (apply V0 || apply V1); lia. }
  assert (N1 : INR (length l) = 4 * INR (length es)) by (rewrite LL, mult_INR; simpl; lra).
  destruct (dot_F l) as [D E].
  - eapply Forall_impl; [|exact IP]. intros wd [P _]. exact P.
  - rewrite LL. unfold int_max in LE. lia.
  - eapply Rle_trans; [apply (dot_size_le l (5 * bpow radix2 800))|].
    + assert (P := bpow_gt_0 radix2 800). lra.
    + eapply Forall_impl; [|exact IP]. intros wd [_ P]. exact P.
    + rewrite N1. assert (NB : INR (length es) <= bpow radix2 32).
      { rewrite INR_IZR_INZ. apply Rle_trans with (IZR (2 ^ 32)); [apply IZR_le; unfold int_max in LE; lia|]. simpl. lra. }
      replace (bpow radix2 900) with (bpow radix2 68 * (bpow radix2 32 * bpow radix2 800)) by (rewrite <- !bpow_plus; reflexivity).
      assert (P8 := bpow_gt_0 radix2 800). assert (P3 := bpow_gt_0 radix2 32).
      assert (P6 : 20 <= bpow radix2 68) by (apply Rle_trans with (bpow radix2 5); [simpl; lra|apply bpow_le; lia]).
      apply Rle_trans with (20 * (bpow radix2 32 * bpow radix2 800)).
      * replace (4 * INR (length es) * (5 * bpow radix2 800)) with (20 * (INR (length es) * bpow radix2 800)) by ring.
        apply Rmult_le_compat_l; [lra|]. apply Rmult_le_compat_r; lra.
      * apply Rmult_le_compat_r; [apply Rmult_le_pos; lra|exact P6].
  - split; auto. rewrite N1 in E. lra.
Qed.

(** C87, flow interpolation.  In double arithmetic, with a linear solver that returns doubles: the
    weights exist, for every grid and line (also degenerate ones, and with nodes that are not numbers);
    each is a double between -5 and 5.  Applied to edge values that are doubles of magnitude at most
    2^800 they give, for every segment to which m cells contribute, a double that differs from the
    exact sum of weight times value by at most 12 m 2^-53 times the sum of the magnitudes of the terms,
    and 12 m times the smallest double. *)
Theorem C87_flow_ieee : forall g srt cosv d0 d1 nx ny n (xs ys dxs dys : list spec_float),
  (forall m k a lda b ldb lw i, dbl (g_rhs (g m k a lda b ldb lw) i)) -> sorts srt ->
  (2 <= d0)%Z -> (2 <= d1)%Z -> (d0 * d1 <= int_max)%Z -> (2 <= n <= int_max)%Z ->
  stores d0 d1 nx xs -> stores d0 d1 ny ys -> Z.of_nat (length dxs) = n -> Z.of_nat (length dys) = n ->
  exists s1 s2 s3 table, fl_setSrcGrid fl_new d0 d1 [xs; ys] = Ret s1 /\ fl_setDstGrid cosv s1 n [dxs; dys] = Ret s2 /\ fl_computeWeights srt g s2 = Ret s3 /\
  (forall k, (0 <= k < n - 1)%Z ->
     contributions srt g (cell_no d1 nx ny) (dst_segment (fun i => cosv i n) dxs dys k) (range ((d0 - 1) * (d1 - 1))) (table k) /\
     forall c w, In (c, w) (table k) -> length w = 4%nat /\ forall v, In v w -> dbl v /\ Rabs (fval v) <= 5) /\
  forall h0 h1 data0 data1 out, stores (d0 - 1) d1 h0 data0 -> stores d0 (d1 - 1) h1 data1 -> Z.of_nat (length out) = (n - 1)%Z ->
  (forall v, In v (data0 ++ data1) -> dbl v /\ Rabs (fval v) <= bpow radix2 800) ->
  exists out', fl_apply s3 data0 data1 out = Ret out' /\ length out' = length out /\
  forall k, (0 <= k < n - 1)%Z ->
    match table k with
    | [] => nth (Z.to_nat k) out' n0 = nth (Z.to_nat k) out n0
    | es => dbl (nth (Z.to_nat k) out' n0) /\
        Rabs (fval (nth (Z.to_nat k) out' n0) - edge_sum d1 (fun i j => fval (h0 i j)) (fun i j => fval (h1 i j)) 0 (exact_edges es)) <=
          12 * INR (length es) * (uround * edge_sum d1 (fun i j => Rabs (fval (h0 i j))) (fun i j => Rabs (fval (h1 i j))) 0 (size_edges es) + etiny)
    end.
Proof.
  intros g srt cosv d0 d1 nx ny n xs ys dxs dys GF ST H0 H1 HI Hn SX SY LX LY.
  assert (SL : forall lt l, length (srt lt l) = length l) by (intros lt l; apply Permutation.Permutation_length; apply ST).
  destruct (grid_setup cosv d0 d1 nx ny n xs ys dxs dys H0 H1 HI Hn SX SY LX LY) as (t1 & t2 & F1 & F2 & O2 & EW & EN & EL & EC).
  destruct (computeWeightsF_total srt g t2 (n - 1) ((d0 - 1) * (d1 - 1)) _ _ GF EN ltac:(apply O2) EL EC) as (s3 & E3).
  assert (ES : fl_srcNumCells t2 = Some ((d0 - 1) * (d1 - 1))%Z) by apply O2.
  assert (SM : sorted_map (fl_weights t2)) by (rewrite EW; exists 0%Z; exact I).
  assert (ROW := computeWeights_rows srt g t2 s3 _ _ _ _ EN ES EL EC SM E3).
  assert (GM : good_map (fl_weights s3)).
  { apply (computeWeightsF_good srt g t2 s3 _ _ _ _ GF SL EN ES EL EC); auto. rewrite EW. intros k v []. }
  exists t1, t2, s3, (row (fl_weights s3)). split; auto. split; auto. split; auto.
  assert (CT : forall k, (0 <= k < n - 1)%Z -> contributions srt g (cell_no d1 nx ny) (dst_segment (fun i => cosv i n) dxs dys k) (range ((d0 - 1) * (d1 - 1))) (row (fl_weights s3) k)).
  { intros k Hk. destruct (ROW k Hk) as (es & R1 & C). rewrite EW in R1. cbn [row app] in R1. rewrite R1. exact C. }
  split.
  - intros k Hk. split; [auto|]. intros c w I. assert (G := good_row _ k GM). rewrite Forall_forall in G. destruct (G _ I) as (w0 & w1 & w2 & w3 & E & F).
    cbn [snd] in E, F. rewrite E. split; [reflexivity|]. rewrite <- E. rewrite Forall_forall in F. exact F.
  - intros h0 h1 data0 data1 out D0 D1 LO HV.
    destruct (computeWeights_frame srt g t2 s3 E3) as (J1 & J2 & J3 & J4 & J5 & J6 & J7).
    assert (O3 : src_ok d0 d1 nx ny s3) by (unfold src_ok in *; rewrite J1, J2, J5, J6, J7; exact O2).
    assert (TB : table_ok (n - 1) ((d0 - 1) * (d1 - 1)) (fl_weights s3)).
    { apply (computeWeights_table srt g t2 s3); auto. rewrite EW. split; [exists 0%Z; exact I|intros k r []]. }
    destruct (apply_ok d0 d1 nx ny s3 h0 h1 data0 data1 out (n - 1) O3 D0 D1 TB ltac:(lia)) as (out' & EA & L & K).
    exists out'. split; auto. split; auto. intros k Hk. assert (C := CT k Hk). assert (GR := good_row _ k GM).
    rewrite K, Z2Nat.id by lia. destruct (row (fl_weights s3) k) as [|e es]; [reflexivity|].
    cbv zeta. set (es' := e :: es) in *. clearbody es'.
    replace (row_flux d1 h0 h1 es') with (edge_sum d1 h0 h1 n0 es') by (rewrite edge_sum_row; reflexivity). rewrite edge_sum_dot, edge_sum_R, edge_sum_size, !Rplus_0_l.
    apply (edge_bound d0 d1 h0 h1 es'); auto; try lia.
    + assert (X := contributions_le _ _ _ _ _ _ C). rewrite range_length in X. nia.
    + intros x I. assert (X := contributions_in _ _ _ _ _ _ C _ I). apply in_range in X. exact X.
    + intros i j Hi Hj. apply HV. apply in_or_app. left. eapply nth_error_In. apply D0; auto.
    + intros i j Hi Hj. apply HV. apply in_or_app. right. eapply nth_error_In. apply D1; auto.
Qed.
Print Assumptions C87_flow_ieee.

Lemma ascending_length : forall {A} (r : list (Z * A)) lo n, (lo < n)%Z -> ascending lo r -> (forall k w, In (k, w) r -> (k < n)%Z) -> (Z.of_nat (length r) <= n - 1 - lo)%Z.
Proof.
  induction r as [|[k w] r IH]; intros lo n H U B; cbn [length]; [lia|]. destruct U as [A1 A2]. cbn [fst] in *.
  assert (K := B k w (or_introl eq_refl)). specialize (IH k n K A2 (fun k' w' I => B k' w' (or_intror I))). lia.
Qed.

Lemma row_of_in : forall {A} (m : list (Z * list A)) c, row_of m c <> [] -> In (c, row_of m c) m.
Proof.
  induction m as [|[k v] m IH]; intros c H; cbn [row_of] in *; [congruence|].
  destruct (c =? k)%Z eqn:E; [apply Z.eqb_eq in E; subst; left; reflexivity|right; auto].
Qed.

(** C87, conservative interpolation.  For every cell whose m stored weights are doubles: if the values
    are doubles and the sum of the magnitudes of the terms is at most 2^900, the value computed is a
    double that differs from the exact sum of weight times value by at most 3 m 2^-53 times that sum of
    magnitudes, and 3 m times the smallest double. *)
Theorem C87_conserve_ieee : forall srt (g : gels spec_float) d0 d1 xs ys e0 e1 us vs ms src dst, (2 <= d0)%Z -> (2 <= d1)%Z -> (d0 * d1 <= int_max)%Z -> (2 <= e0)%Z -> (2 <= e1)%Z -> (e0 * e1 <= int_max)%Z ->
  Z.of_nat (length xs) = (d0 * d1)%Z -> Z.of_nat (length ys) = (d0 * d1)%Z -> Z.of_nat (length us) = (e0 * e1)%Z -> Z.of_nat (length vs) = (e0 * e1)%Z ->
  Z.of_nat (length src) = ((e0 - 1) * (e1 - 1))%Z -> Z.of_nat (length dst) = ((d0 - 1) * (d1 - 1))%Z -> (forall v, In v src -> dbl v) ->
  exists s out, conserve_run srt g d0 d1 xs ys e0 e1 us vs ms = Ret s /\ ci_apply s src dst = Ret out /\ length out = length dst /\
    forall c, (0 <= c < (d0 - 1) * (d1 - 1))%Z ->
      match row_of (ci_weights s) c with
      | [] => nth (Z.to_nat c) out n0 = nth (Z.to_nat c) dst n0
      | r => (forall k w, In (k, w) r -> dbl w) ->
          weighted 0 (size_row r) (fun k => Rabs (fval (nth (Z.to_nat k) src n0))) <= bpow radix2 900 ->
          dbl (nth (Z.to_nat c) out n0) /\
          Rabs (fval (nth (Z.to_nat c) out n0) - weighted 0 (exact_row r) (fun k => fval (nth (Z.to_nat k) src n0))) <=
            3 * INR (length r) * (uround * weighted 0 (size_row r) (fun k => Rabs (fval (nth (Z.to_nat k) src n0))) + etiny)
      end.
Proof.
  intros srt g d0 d1 xs ys e0 e1 us vs ms src dst H0 H1 H2 H3 H4 H5 LX LY LU LV LS LD DS.
  destruct (C43_apply srt g d0 d1 xs ys e0 e1 us vs ms src dst H0 H1 H2 H3 H4 H5 LX LY LU LV LS LD) as (s & out & E & E2 & L & V).
  destruct (C37_valid_rows srt g d0 d1 xs ys e0 e1 us vs ms H0 H1 H2 H3 H4 H5 LX LY LU LV) as (s' & E' & A & B). rewrite E in E'. injection E' as <-.
  exists s, out. split; auto. split; auto. split; auto. intros c Hc. specialize (V c n0 Hc).
  assert (BR : row_of (ci_weights s) c <> [] -> ascending (-1) (row_of (ci_weights s) c) /\ forall k w, In (k, w) (row_of (ci_weights s) c) -> (0 <= k < (e0 - 1) * (e1 - 1))%Z).
  { intros NE. destruct (B _ _ (row_of_in _ _ NE)) as (_ & _ & X1 & X2). auto. }
  destruct (row_of (ci_weights s) c) as [|e r]; [exact V|]. cbv zeta. destruct BR as [B1 B2]; [discriminate|].
  set (r' := e :: r) in *. clearbody r'. intros DW SZ.
  assert (NC : (0 < (e0 - 1) * (e1 - 1) <= int_max)%Z) by nia.
  assert (LR := ascending_length r' (-1) ((e0 - 1) * (e1 - 1)) ltac:(lia) B1 (fun k w I => proj2 (B2 k w I))).
  rewrite V, weighted_dot, weighted_R. rewrite weighted_size in SZ |- *. rewrite !Rplus_0_l in *.
  set (l := map (fun kw => (snd kw, nth (Z.to_nat (fst kw)) src n0)) r') in *.
  assert (LL : length l = length r') by apply map_length.
  destruct (dot_F l) as [D X]; auto.
  - apply Forall_forall. intros wd I. apply in_map_iff in I. destruct I as ([k w] & <- & I). split; cbn [fst snd]; [apply (DW k w I)|].
    apply DS. apply nth_In. specialize (B2 k w I). lia.
  - rewrite LL. unfold int_max in NC. lia.
  - split; auto. rewrite LL in X. lra.
Qed.
Print Assumptions C87_conserve_ieee.

(** *** Cases *)
Definition is_dbl (v : spec_float) : bool := (SpecFloat.valid_binary fprec femax v && is_finite_SF v)%bool.
Lemma is_dbl_dbl : forall v, is_dbl v = true -> dbl v.
Proof. intros v H. apply andb_true_iff in H. exact H. Qed.

(** A segment through two cells of a grid, with edge values that are not dyadic: both contribute, and the
    flux is between 0.347 and 0.348. *)
Example C87_flow_case : (forall m k a lda b ldb lw i, dbl (g_rhs (cramer_fin m k a lda b ldb lw) i)) /\
  exists s1 s2 s3 w0 w1 v,
  fl_setSrcGrid fl_new 3 2 [map P_Flow.FZ [0; 0; 1; 1; 2; 2]; map P_Flow.FZ [0; 1; 0; 1; 0; 1]]%Z = Ret s1 /\
  fl_setDstGrid (fun _ _ => n0) s1 2 [[lit 3 10; lit 17 10]; [lit 1 5; lit 9 10]] = Ret s2 /\
  fl_computeWeights insertion cramer_fin s2 = Ret s3 /\ fl_weights s3 = [(0%Z, [(0%Z, w0); (1%Z, w1)])] /\
  forallb is_dbl (w0 ++ w1) = true /\
  fl_apply s3 [lit 1 10; lit 1 5; lit (-1) 10; lit 3 10] [lit 1 10; lit 1 7; lit 1 3] [P_Flow.FZ 7] = Ret [v] /\ nlt (lit 347 1000) v = true /\ nlt v (lit 348 1000) = true.
Proof. split; [exact cramer_finite|]. do 6 eexists. repeat (split; [vm_compute; reflexivity|]). vm_compute. reflexivity. Qed.

(** The destination cell [0, 3] x [0, 3] over two source cells: the weights are the doubles nearest to
    1/3 and 2/3. *)
Example C87_conserve_case : exists s v, conserve_run isort cramer 2 2 (map FZ [0; 0; 3; 3]%Z) (map FZ [0; 3; 0; 3]%Z) 3 2 (map FZ [-1; -1; 1; 1; 4; 4]%Z) (map FZ [-1; 4; -1; 4; -1; 4]%Z) [zeros] = Ret s /\
  row_of (ci_weights s) 0 = [(0%Z, lit 1 3); (1%Z, lit 2 3)] /\ ci_apply s [lit 1 10; lit 7 10] [FZ 9] = Ret [v] /\ nlt (lit 499 1000) v = true /\ nlt v (lit 501 1000) = true.
Proof. do 2 eexists. repeat (split; [vm_compute; reflexivity|]). vm_compute. reflexivity. Qed.
