(** Sets that do not overlap one another, inside a set: their areas add up to at most its area. *)
From Coq Require Import ZArith List Bool Reals Lra Lia Classical.
From Coquelicot Require Import Coquelicot.
From Verif Require Import Base Num NumR S_LinAlg S_Geometry S_Quad S_Area S_Overlap S_Sort S_ConserveGrid S_ConserveTable S_Packing
  M_LinearSolve M_Triangulate M_Quad M_QuadIntersect M_ConserveInterp L_Intervals L_Area L_AreaPolygon L_Conserve L_ConserveTable L_ConserveApply L_ConserveAgain L_ConserveArea.
Import ListNotations.
Open Scope R_scope.

Lemma increments_app : forall f l l', increments f (l ++ l') = increments f l + increments f l'.
Proof. intros f l l'. induction l as [|i l IH]; cbn [app increments]; [lra|]. rewrite IH. lra. Qed.

Lemma increments_split : forall f (P : R * R -> bool) l, increments f l = increments f (filter P l) + increments f (filter (fun i => negb (P i)) l).
Proof. intros f P. induction l as [|i l IH]; cbn [filter increments]; [lra|]. rewrite IH. destruct (P i); cbn [negb increments]; lra. Qed.

Lemma pairwise_filter : forall P l, pairwise l -> pairwise (filter P l).
Proof.
  intros P. induction l as [|i l IH]; intros H; [exact I|]. destruct H as [H1 H2]. cbn [filter]. destruct (P i); auto.
  split; auto. intros j Hj. apply filter_In in Hj. apply H1, Hj.
Qed.

Lemma filter_short : forall {A} (P : A -> bool) l, (length (filter P l) <= length l)%nat.
Proof. intros A P. induction l as [|x l IH]; cbn; [lia|]. destruct (P x); cbn; lia. Qed.

Definition left_of (t : R) (i : R * R) : bool := if Rle_dec (snd i) t then true else false.

Lemma increments_packed : forall n (L : list (R * R)) a b, (length L <= n)%nat -> a <= b ->
  (forall i, In i L -> a <= fst i /\ fst i < snd i /\ snd i <= b) -> pairwise L -> increments (fun y => y) L <= b - a.
Proof.
  induction n as [|n IH]; intros L a b LN AB IN PW; (destruct L as [|i L]; [cbn; lra|]); cbn [length] in LN; [lia|].
  destruct PW as [P1 P2]. destruct (IN i (or_introl eq_refl)) as (I1 & I2 & I3). cbn [increments].
  rewrite (increments_split _ (left_of (fst i)) L).
  assert (A : increments (fun y => y) (filter (left_of (fst i)) L) <= fst i - a).
  { apply IH; auto; [assert (X := filter_short (left_of (fst i)) L); lia| |apply pairwise_filter; auto].
    intros j Hj. apply filter_In in Hj. destruct Hj as [Hj E]. unfold left_of in E. destruct (Rle_dec (snd j) (fst i)); [|discriminate].
    destruct (IN j (or_intror Hj)) as (J1 & J2 & J3). lra. }
  assert (B : increments (fun y => y) (filter (fun j => negb (left_of (fst i) j)) L) <= b - snd i).
  { apply IH; auto; [assert (X := filter_short (fun j => negb (left_of (fst i) j)) L); lia| |apply pairwise_filter; auto].
    intros j Hj. apply filter_In in Hj. destruct Hj as [Hj E]. unfold left_of in E. destruct (Rle_dec (snd j) (fst i)); [discriminate|].
    destruct (IN j (or_intror Hj)) as (J1 & J2 & J3). destruct (P1 j Hj); lra. }
  lra.
Qed.

Lemma increments_once_le : forall (L : list (R * R)) a b, a <= b ->
  (forall i, In i L -> a <= fst i /\ fst i <= snd i /\ snd i <= b) -> pairwise_once L -> increments (fun y => y) L <= b - a.
Proof.
  intros L a b AB IN PW. rewrite <- increments_proper by (intros i Hi; apply IN in Hi; lra).
  apply (increments_packed (length (filter proper L))); auto; [|apply pairwise_proper; auto].
  intros i Hi. apply filter_In in Hi. destruct Hi as [Hi Pi]. unfold proper in Pi.
  destruct (Rlt_dec (fst i) (snd i)); [|discriminate]. apply IN in Hi. lra.
Qed.

Theorem area_packed : forall K r L rs, has_area K r -> Forall2 has_area L rs -> pairwise_flat L ->
  (forall K' p, In K' L -> K' p -> K p) -> rsum rs <= r.
Proof.
  intros K r L rs HK HL PF SUB. apply area_on in HK. destruct HK as (E & f & m & S & I).
  destruct (sum_areas L rs HL) as (E' & F & m' & S' & I'). destruct (pairwise_slices L PF) as (E2 & P).
  set (M := Rmax 0 (Rmax m m')). assert (M1 := Rmax_l 0 (Rmax m m')). assert (M2 := Rmax_r 0 (Rmax m m')).
  assert (M3 := Rmax_l m m'). assert (M4 := Rmax_r m m'). fold M in M1, M2.
  assert (J : is_RInt f (- M) M r) by (apply I; lra). assert (J' : is_RInt (fun x => rsum (F x)) (- M) M (rsum rs)) by (apply I'; lra).
  set (h := fun x => Rmin (rsum (F x)) (f x)).
  assert (J2 : is_RInt h (- M) M (rsum rs)).
  { apply (RInt_ext_fin (E ++ E' ++ E2) (fun x => rsum (F x)) h); auto; [lra|]. intros x _. rewrite !in_app_iff.
    destruct (S x) as [X|SX]; auto. destruct (S' x) as [X|SX']; auto. destruct (P x) as [X|PX]; auto. right. unfold h. symmetry. apply Rmin_left.
    destruct (slice_intervals x L (F x) SX') as (IV & H1 & H2 & H3 & H4). rewrite H3.
    destruct SX as [[-> SX]|(lo & hi & LH & -> & SX)].
    - destruct IV as [|i IV]; [cbn; lra|]. exfalso. destruct (H1 i (or_introl eq_refl)) as (A & K' & B & C).
      apply (SX (fst i)). apply (SUB K'); auto. apply C. unfold in_iv. lra.
    - apply increments_once_le; auto. intros i Hi. destruct (H1 i Hi) as (A & K' & B & C).
      assert (X : K (x, fst i)) by (apply (SUB K'); auto; apply C; unfold in_iv; lra).
      assert (Y : K (x, snd i)) by (apply (SUB K'); auto; apply C; unfold in_iv; lra).
      apply SX in X. apply SX in Y. lra. }
  apply (is_RInt_le h f (- M) M); auto; [lra|]. intros x _. apply Rmin_r.
Qed.

Lemma cells_area : forall n (cell : Z -> list point) V r (area : Z -> R), apart_cells n cell -> has_area (in_hull V) r ->
  (forall k, (0 <= k < n)%Z -> has_area (overlap V (cell k)) (area k)) -> rsum (map area (range n)) <= r.
Proof.
  intros n cell V r area FL HV HA.
  apply (area_packed (in_hull V) r (map (fun k => overlap V (cell k)) (range n))); auto.
  - assert (IR : forall k, In k (range n) -> (0 <= k < n)%Z) by (intros k; apply in_range).
    induction (range n) as [|k l IH]; cbn; constructor; auto.
    + apply HA. apply IR. left. auto.
    + apply IH. intros; apply IR; right; auto.
  - assert (IR : forall k, In k (range n) -> (0 <= k < n)%Z) by (intros k; apply in_range).
    assert (ND := range_NoDup n). induction (range n) as [|k l IH]; cbn; auto. apply NoDup_cons_iff in ND. destruct ND as [Nk ND].
    split; [|apply IH; auto; intros; apply IR; right; auto].
    intros K' HK. apply in_map_iff in HK. destruct HK as (k' & <- & Ik').
    intros p q s [[_ P1] [_ P2]] [[_ Q1] [_ Q2]] [[_ S1] [_ S2]].
    apply (FL k k'); [apply IR; left; auto|apply IR; right; auto|intros ->; contradiction|split; auto|split; auto|split; auto].
  - intros K' p HK HP. apply in_map_iff in HK. destruct HK as (k & <- & _). apply HP.
Qed.

Lemma rsum_le : forall {A} (f h : A -> R) l, (forall x, In x l -> f x <= h x) -> rsum (map f l) <= rsum (map h l).
Proof. intros A f h. induction l as [|x l IH]; intros H; cbn; [lra|]. assert (X := H x (or_introl eq_refl)). assert (Y := IH (fun y I => H y (or_intror I))). lra. Qed.

(** ** The interpolation *)
Section Conserve.
Variable g : gels R.
Hypothesis G : gels_spec g 2 2.
Variable srt : (nat -> nat -> bool) -> list nat -> list nat.
Hypothesis SRT : sorts srt.
Hypothesis TIES : keeps_ties srt.
Variable memd : Z -> nat -> pt R.
Variable mem : Z -> Z -> nat -> pt R.
Variables d0 d1 e0 e1 : Z.
Variables nx ny mx my : Z -> Z -> R.
Variables dg sg : grid R.
Hypothesis GD : grid_ok d0 d1 nx ny dg.
Hypothesis GS : grid_ok e0 e1 mx my sg.
Let nd := ((d0 - 1) * (d1 - 1))%Z.
Let ns := ((e0 - 1) * (e1 - 1))%Z.
Let dcell := grid_cell d1 nx ny.
Let scell := grid_cell e1 mx my.
Hypothesis REG : forall c k, (0 <= c < nd)%Z -> (0 <= k < ns)%Z -> regular_pair (/ 10 ^ 12) (/ 10 ^ 12) (dcell c) (scell k).
Hypothesis SEP : forall c, (0 <= c < nd)%Z -> separated (/ 10 ^ 12) (dcell c).
Variable s' : ci R.
Hypothesis ROWS : forall c, (0 <= c < nd)%Z -> row_of (ci_weights s') c = tested_row srt (memd c) (mem c) g (cell_at d1 nx ny c) (cell_at e1 mx my) ns.

Theorem fractions_most : forall c, (0 <= c < nd)%Z -> apart_cells ns scell -> total (map snd (row_of (ci_weights s') c)) <= 1.
Proof.
  intros c Hc T. rewrite ROWS by auto. unfold tested_row.
  rewrite (row_total ns _ (fun k => part g srt mem d1 e1 nx ny mx my c k / darea srt memd d1 nx ny c)) by (try apply in_rng; apply entries with (d0 := d0); auto).
  destruct (darea_area srt SRT memd d0 d1 e0 e1 nx ny mx my REG SEP c Hc (ns_pos d0 d1 e0 e1 mx my sg GS)) as [A P].
  assert (E := cells_area ns scell (dcell c) _ (part g srt mem d1 e1 nx ny mx my c) T A (fun k Hk => part_area g G srt SRT TIES mem d0 d1 e0 e1 nx ny mx my REG c k Hc Hk)).
  rewrite (rsum_ext _ (fun k => / darea srt memd d1 nx ny c * part g srt mem d1 e1 nx ny mx my c k)) by (intros; unfold Rdiv; ring). rewrite rsum_scale.
  apply (Rmult_le_reg_l (darea srt memd d1 nx ny c)); auto. rewrite <- Rmult_assoc, Rinv_r by lra. lra.
Qed.

Theorem no_gain : forall f Ad As, (forall k, (0 <= k < ns)%Z -> 0 <= f k) -> apart_cells nd dcell ->
  (forall c, (0 <= c < nd)%Z -> has_area (in_hull (dcell c)) (Ad c)) -> (forall k, (0 <= k < ns)%Z -> has_area (in_hull (scell k)) (As k)) ->
  total (map (fun c => Ad c * weighted (n0 : R) (row_of (ci_weights s') c) f) (range nd)) <= total (map (fun k => As k * f k) (range ns)).
Proof.
  intros f Ad As FP AC HD HS. rewrite !total_rsum.
  rewrite (rsum_ext _ (fun c => rsum (map (fun k => part g srt mem d1 e1 nx ny mx my c k * f k) (range ns)))).
  - rewrite rsum_swap. apply rsum_le. intros k Hk. apply in_range in Hk.
    rewrite (rsum_ext _ (fun c => f k * part g srt mem d1 e1 nx ny mx my c k)) by (intros; ring). rewrite rsum_scale.
    assert (X := cells_area nd dcell (scell k) (As k) (fun c => part g srt mem d1 e1 nx ny mx my c k) AC (HS k Hk)).
    assert (Y : rsum (map (fun c => part g srt mem d1 e1 nx ny mx my c k) (range nd)) <= As k).
    { apply X. intros c Hc. apply (area_ext (overlap (dcell c) (scell k))); [|apply (part_area g G srt SRT TIES mem d0 d1 e0 e1); auto]. intros p. unfold overlap. tauto. }
    assert (F := FP k Hk). nra.
  - intros c Hc. apply in_range in Hc.
    rewrite (value_at g srt memd mem d0 d1 e0 e1 nx ny mx my s' ROWS) by auto.
    destruct (darea_area srt SRT memd d0 d1 e0 e1 nx ny mx my REG SEP c Hc (ns_pos d0 d1 e0 e1 mx my sg GS)) as [A P].
    rewrite (area_unique _ _ _ (HD c Hc) A). fold ns. unfold Rdiv. rewrite (Rmult_comm (rsum _)), <- Rmult_assoc, Rinv_r, Rmult_1_l by lra. reflexivity.
Qed.

End Conserve.
