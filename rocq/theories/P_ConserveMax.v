(** Property C88: conservative interpolation creates no new extrema. *)
From Coq Require Import ZArith List Bool Reals Lra Lia Floats.SpecFloat.
From Verif Require Import Base Num NumR NumF S_LinAlg S_Array S_Geometry S_Quad S_Area S_Overlap S_Sort S_ConserveGrid S_Rectilinear
  M_LinearSolve M_Triangulate M_Quad M_QuadIntersect M_ConserveInterp S_ConserveTable L_LinearSolve L_Cramer
  L_Conserve L_ConserveTable L_ConserveApply L_ConserveAgain L_ConserveIter L_ConserveArea L_ConserveRect P_Conserve.
Import ListNotations.
Open Scope R_scope.

Lemma weight_in : forall (r : list (Z * R)) lo k w, ascending lo r -> In (k, w) r -> weight_of r k = w /\ (lo < k)%Z.
Proof.
  induction r as [|[k' w'] r IH]; intros lo k w U I; [destruct I|]. destruct U as [U1 U2]. cbn [fst weight_of] in *.
  destruct I as [I|I]; [injection I as <- <-; rewrite Z.eqb_refl; auto|].
  destruct (IH k' k w U2 I) as [E L]. destruct (k =? k')%Z eqn:Q; [apply Z.eqb_eq in Q; lia|]. split; auto. lia.
Qed.

Lemma weighted_bounds : forall (r : list (Z * R)) f lo hi acc, (forall k w, In (k, w) r -> 0 <= w /\ lo <= f k <= hi) ->
  acc + lo * total (map snd r) <= weighted acc r f <= acc + hi * total (map snd r).
Proof.
  induction r as [|[k w] r IH]; intros f lo hi acc H; cbn [weighted map total snd]; [lra|].
  destruct (H k w (or_introl eq_refl)) as [W [B1 B2]].
  assert (X := IH f lo hi (nadd acc (nmul w (f k))) (fun k' w' I => H k' w' (or_intror I))). cbn [nadd nmul NumR] in X |- *. nra.
Qed.

(** C88.  Grids of the class of C38.  A destination cell tiled by the source cells gets a value between
    the least and the largest value of the source cells; a destination cell with weights gets a
    nonnegative value from nonnegative values. *)
Theorem C88_extrema_partial : forall srt (g : gels R) d0 d1 nx ny xs ys e0 e1 mx my us vs m ms src dst,
  gels_spec g 2 2 -> sorts srt -> keeps_ties srt ->
  (2 <= d0)%Z -> (2 <= d1)%Z -> (d0 * d1 <= int_max)%Z -> (2 <= e0)%Z -> (2 <= e1)%Z -> (e0 * e1 <= int_max)%Z ->
  stores d0 d1 nx xs -> stores d0 d1 ny ys -> stores e0 e1 mx us -> stores e0 e1 my vs ->
  (forall c k, (0 <= c < (d0 - 1) * (d1 - 1))%Z -> (0 <= k < (e0 - 1) * (e1 - 1))%Z ->
    regular_pair (/ 10 ^ 12) (/ 10 ^ 12) (grid_cell d1 nx ny c) (grid_cell e1 mx my k)) ->
  (forall c, (0 <= c < (d0 - 1) * (d1 - 1))%Z -> separated (/ 10 ^ 12) (grid_cell d1 nx ny c)) ->
  Z.of_nat (length src) = ((e0 - 1) * (e1 - 1))%Z -> Z.of_nat (length dst) = ((d0 - 1) * (d1 - 1))%Z ->
  exists s out, conserve_run srt g d0 d1 xs ys e0 e1 us vs (m :: ms) = Ret s /\ ci_apply s src dst = Ret out /\
    forall c, (0 <= c < (d0 - 1) * (d1 - 1))%Z ->
      (forall lo hi, (forall v, In v src -> lo <= v <= hi) -> tiles ((e0 - 1) * (e1 - 1)) (grid_cell e1 mx my) (grid_cell d1 nx ny c) ->
        lo <= nth (Z.to_nat c) out 0 <= hi) /\
      ((forall v, In v src -> 0 <= v) -> 0 <= nth (Z.to_nat c) dst 0 -> 0 <= nth (Z.to_nat c) out 0).
Proof.
  intros srt g d0 d1 nx ny xs ys e0 e1 mx my us vs m ms src dst G SRT TIES H0 H1 H2 H3 H4 H5 SX SY SU SV REG SEP LS LD.
  destruct (C38_area_fractions_partial srt g d0 d1 nx ny xs ys e0 e1 mx my us vs m ms G SRT TIES H0 H1 H2 H3 H4 H5 SX SY SU SV REG SEP) as (s & RN & W).
  destruct (C43_apply srt g d0 d1 xs ys e0 e1 us vs (m :: ms) src dst H0 H1 H2 H3 H4 H5 (proj1 SX) (proj1 SY) (proj1 SU) (proj1 SV) LS LD) as (s' & out & RN' & AP & _ & V).
  destruct (C37_valid_rows srt g d0 d1 xs ys e0 e1 us vs (m :: ms) H0 H1 H2 H3 H4 H5 (proj1 SX) (proj1 SY) (proj1 SU) (proj1 SV)) as (s'' & RN'' & _ & B).
  rewrite RN in RN', RN''. injection RN' as <-. injection RN'' as <-. exists s, out. split; auto. split; auto.
  intros c Hc. destruct (W c Hc) as (A & _ & AP0 & WK & WT). specialize (V c 0 Hc).
  assert (E : forall k w, In (k, w) (row_of (ci_weights s) c) -> 0 <= w /\ In (nth (Z.to_nat k) src 0) src).
  { intros k w I. assert (NE : row_of (ci_weights s) c <> []) by (intros X; rewrite X in I; destruct I).
    destruct (B _ _ (row_found _ _ NE)) as (_ & _ & U & K). assert (Kk := K k w I).
    destruct (weight_in _ _ _ _ U I) as [<- _]. destruct (WK k Kk) as (r & _ & -> & P & _). split; auto. apply nth_In. lia. }
  change (n0 : R) with 0 in V. split.
  - intros lo hi SB TI. destruct (WT TI) as [TOT _].
    destruct (row_of (ci_weights s) c) as [|e r]; [cbn in TOT; lra|]. rewrite V.
    assert (X := weighted_bounds (e :: r) (fun k => nth (Z.to_nat k) src 0) lo hi 0 (fun k w I => conj (proj1 (E k w I)) (SB _ (proj2 (E k w I))))).
    rewrite TOT in X. lra.
  - intros SP DP. destruct (row_of (ci_weights s) c) as [|e r]; [rewrite V; exact DP|]. rewrite V.
    clear V. set (l := e :: r) in *. clearbody l.
    assert (X : forall l acc, 0 <= acc -> (forall k w, In (k, w) l -> 0 <= w /\ 0 <= nth (Z.to_nat k) src 0) -> 0 <= weighted acc l (fun k => nth (Z.to_nat k) src 0)).
    { clear. induction l as [|[k w] l IH]; intros acc P H; cbn [weighted]; auto. apply IH; [|intros; apply H; right; auto].
      destruct (H k w (or_introl eq_refl)) as [Q1 Q2]. cbn [nadd nmul NumR]. nra. }
    apply X; [lra|]. intros k w I. destruct (E k w I) as [Q1 Q2]. auto.
Qed.
Print Assumptions C88_extrema_partial.

(** C88 on rectilinear grids. *)
Theorem C88_rectilinear : forall srt (g : gels R) d0 d1 X Y xs ys e0 e1 U V us vs m ms src dst,
  gels_spec g 2 2 -> sorts srt -> keeps_ties srt ->
  (2 <= d0)%Z -> (2 <= d1)%Z -> (d0 * d1 <= int_max)%Z -> (2 <= e0)%Z -> (2 <= e1)%Z -> (e0 * e1 <= int_max)%Z ->
  stores d0 d1 (fun i _ => X i) xs -> stores d0 d1 (fun _ j => Y j) ys -> stores e0 e1 (fun i _ => U i) us -> stores e0 e1 (fun _ j => V j) vs ->
  rectilinear_pair d0 d1 X Y e0 e1 U V ->
  Z.of_nat (length src) = ((e0 - 1) * (e1 - 1))%Z -> Z.of_nat (length dst) = ((d0 - 1) * (d1 - 1))%Z ->
  exists s out, conserve_run srt g d0 d1 xs ys e0 e1 us vs (m :: ms) = Ret s /\ ci_apply s src dst = Ret out /\
    forall i j lo hi, (0 <= i < d0 - 1)%Z -> (0 <= j < d1 - 1)%Z -> (forall v, In v src -> lo <= v <= hi) ->
      U 0%Z <= X i -> X (i + 1)%Z <= U (e0 - 1)%Z -> V 0%Z <= Y j -> Y (j + 1)%Z <= V (e1 - 1)%Z ->
      lo <= nth (Z.to_nat (i * (d1 - 1) + j)) out 0 <= hi.
Proof.
  intros srt g d0 d1 X Y xs ys e0 e1 U V us vs m ms src dst G SRT TIES H0 H1 H2 H3 H4 H5 SX SY SU SV (LX & LY & LU & LV & AX & AY & CX & CY) LS LD.
  assert (DP : 0 < dlt) by (unfold dlt; lra).
  destruct (C88_extrema_partial srt g d0 d1 _ _ xs ys e0 e1 _ _ us vs m ms src dst G SRT TIES H0 H1 H2 H3 H4 H5 SX SY SU SV) as (s & out & RN & AP & W); auto.
  { apply rect_pairs; auto. }
  { intros c Hc. rewrite rect_cell. destruct (cell_split d0 d1 c H0 H1 Hc) as [S1 S2]. apply box_separated; [apply LX; auto|apply LY; auto]. }
  exists s, out. split; auto. split; auto. intros i j lo hi Hi Hj SB C1 C2 C3 C4. set (c := (i * (d1 - 1) + j)%Z) in *.
  assert (Hc : (0 <= c < (d0 - 1) * (d1 - 1))%Z) by (unfold c; nia).
  destruct (W c Hc) as [W1 _]. apply W1; auto. rewrite rect_cell.
  replace (c / (d1 - 1))%Z with i by (apply (Z.div_unique_pos _ _ i j); unfold c; lia).
  replace (c mod (d1 - 1))%Z with j by (apply (Z.mod_unique_pos _ _ i j); unfold c; lia).
  assert (B1 := LX i Hi). assert (B2 := LY j Hj). fold dlt in B1, B2. apply rect_tiles; auto; lra.
Qed.
Print Assumptions C88_rectilinear.

(** The cell [0, 2] x [0, 2] over four cells with values 1, 2, 3, 4. *)
Example C88_case : exists s out, conserve_run insertion gels2 2 2 (grid_array 2 (fun i _ => wide i)) (grid_array 2 (fun _ j => wide j))
    3 3 (grid_array 3 (fun i _ => shifted i)) (grid_array 3 (fun _ j => shifted j)) [noise; noise] = Ret s /\ ci_apply s [1; 2; 3; 4] [77] = Ret out /\ 1 <= nth 0 out 0 <= 4.
Proof.
  destruct (C88_rectilinear insertion gels2 2 2 wide wide _ _ 3 3 shifted shifted _ _ noise [noise] [1; 2; 3; 4] [77] gels2_spec22 (insertion_sorts nat) insertion_ties
    ltac:(lia) ltac:(lia) ltac:(unfold int_max; lia) ltac:(lia) ltac:(lia) ltac:(unfold int_max; lia)
    (proj1 (grid_stores _)) (proj1 (grid_stores _)) (proj2 (grid_stores _)) (proj2 (grid_stores _)) (proj1 (wide_shifted _ _ _ _)) eq_refl eq_refl) as (s & out & RN & AP & W).
  exists s, out. split; auto. split; auto. apply (W 0%Z 0%Z 1 4); try lia.
  - intros v [<-|[<-|[<-|[<-|[]]]]]; lra.
  - unfold wide, shifted; lra. - unfold wide, shifted; change (0 + 1)%Z with 1%Z; change (3 - 1)%Z with 2%Z; lra.
  - unfold wide, shifted; lra. - unfold wide, shifted; change (0 + 1)%Z with 1%Z; change (3 - 1)%Z with 2%Z; lra.
Qed.

(** C88 is false: the cell [1, 2] x [0, 3] covered by six source cells in two columns, with the common
    line x = 2.  The field is 1 on every source cell; the value is 4/3. *)
Theorem C88_extrema_refuted : exists s v, conserve_run isort cramer 2 2 (map FZ [1; 1; 2; 2]%Z) (map FZ [0; 3; 0; 3]%Z)
    3 4 (map FZ [0; 0; 0; 0; 2; 2; 2; 2; 3; 3; 3; 3]%Z) (map FZ [-1; 1; 2; 4; -1; 1; 2; 4; -1; 1; 2; 4]%Z) [zeros] = Ret s /\
  ci_apply s (map FZ [1; 1; 1; 1; 1; 1]%Z) [FZ 0] = Ret [v] /\ nlt (lit 133 100) v = true.
Proof. do 2 eexists. split; [vm_compute; reflexivity|]. split; [vm_compute; reflexivity|]. vm_compute. reflexivity. Qed.
Print Assumptions C88_extrema_refuted.
