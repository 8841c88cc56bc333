(** Areas as integrals of slice lengths: uniqueness, unions, tilings, polygons. *)
From Coq Require Import List Reals Lra Lia Classical Permutation.
From Coquelicot Require Import Coquelicot.
From Verif Require Import S_Geometry S_Quad S_Area L_Polygon L_Hull L_Intervals.
Import ListNotations.
Open Scope R_scope.

(** ** Integrals and finitely many exceptions *)
Lemma RInt_same : forall (f : R -> R) a b (r r' : R), is_RInt f a b r -> is_RInt f a b r' -> r = r'.
Proof.
  intros f a b r r' H H'. rewrite <- (is_RInt_unique (V := R_CompleteNormedModule) f a b r H).
  apply (is_RInt_unique (V := R_CompleteNormedModule) f a b r' H').
Qed.

Lemma RInt_ext_fin : forall (E : list R) (f h : R -> R) a b r, a <= b -> (forall x, a < x < b -> In x E \/ f x = h x) ->
  is_RInt f a b r -> is_RInt h a b r.
Proof.
  assert (ONE : forall (f h : R -> R) c a b r, a <= b -> (forall x, a < x < b -> x = c \/ f x = h x) -> is_RInt f a b r -> is_RInt h a b r).
  { intros f h c a b r AB H I. destruct (Rlt_dec a c) as [L|L]; [destruct (Rlt_dec c b) as [L2|L2]|].
    - assert (X : ex_RInt f a b) by (eexists; eauto).
      assert (X1 : ex_RInt f a c) by (apply (ex_RInt_Chasles_1 f a c b); auto; lra).
      assert (X2 : ex_RInt f c b) by (apply (ex_RInt_Chasles_2 f a c b); auto; lra).
      destruct X1 as [r1 I1]. destruct X2 as [r2 I2].
      assert (EQ : r = plus r1 r2).
      { apply (RInt_same f a b); auto. apply (is_RInt_Chasles f a c b); auto. }
      rewrite EQ. apply (is_RInt_Chasles h a c b).
      + apply (is_RInt_ext f); auto. intros x Hx. rewrite Rmin_left, Rmax_right in Hx by lra. destruct (H x ltac:(lra)); [lra|auto].
      + apply (is_RInt_ext f); auto. intros x Hx. rewrite Rmin_left, Rmax_right in Hx by lra. destruct (H x ltac:(lra)); [lra|auto].
    - apply (is_RInt_ext f); auto. intros x Hx. rewrite Rmin_left, Rmax_right in Hx by lra. destruct (H x ltac:(lra)); [lra|auto].
    - apply (is_RInt_ext f); auto. intros x Hx. rewrite Rmin_left, Rmax_right in Hx by lra. destruct (H x ltac:(lra)); [lra|auto]. }
  induction E as [|c E IH]; intros f h a b r AB H I.
  - apply (is_RInt_ext f); auto. intros x Hx. rewrite Rmin_left, Rmax_right in Hx by lra. destruct (H x Hx) as [[]|]; auto.
  - set (m := fun x => if Req_EM_T x c then f x else h x).
    apply (ONE m h c a b r AB). { intros x Hx. unfold m. destruct (Req_EM_T x c); auto. }
    apply (IH f m a b r AB); auto. intros x Hx. unfold m. destruct (Req_EM_T x c); auto.
    destruct (H x Hx) as [[->|]|]; auto. congruence.
Qed.

Lemma RInt_zero : forall a b : R, is_RInt (fun _ : R => 0) a b 0.
Proof.
  intros a b. assert (X := is_RInt_const a b (0 : R)).
  replace (scal (b - a) (0 : R_NormedModule)) with (0 : R) in X; [exact X|]. unfold scal; cbn; unfold mult; cbn; ring.
Qed.

(** ** Slices *)
Lemma slice_unique : forall K x l l', slice_length K x l -> slice_length K x l' -> l = l'.
Proof.
  intros K x l l' [[-> H]|(lo & hi & L & -> & H)] [[-> H']|(lo' & hi' & L' & -> & H')]; auto.
  - exfalso. apply (H lo'), H'. lra.
  - exfalso. apply (H' lo), H. lra.
  - assert (A : lo' <= lo <= hi') by (apply H', H; lra). assert (B : lo' <= hi <= hi') by (apply H', H; lra).
    assert (C : lo <= lo' <= hi) by (apply H, H'; lra). assert (D : lo <= hi' <= hi) by (apply H, H'; lra). lra.
Qed.

Lemma slice_ext : forall K K' x l, (forall p, K p <-> K' p) -> slice_length K x l -> slice_length K' x l.
Proof.
  intros K K' x l E [[-> H]|(lo & hi & L & -> & H)].
  - left. split; auto. intros y Hy. apply (H y), E. auto.
  - right. exists lo, hi. split; auto. split; auto. intros y. rewrite <- E. auto.
Qed.

Lemma area_ext : forall K K' r, (forall p, K p <-> K' p) -> has_area K r -> has_area K' r.
Proof.
  intros K K' r H (E & f & a & b & AB & IN & SL & I). exists E, f, a, b. split; auto. split; [intros p Hp; apply IN, H; auto|]. split; auto.
  intros x. destruct (SL x); auto. right. apply (slice_ext K); auto.
Qed.

(** The same integral over a larger interval. *)
Lemma area_on : forall K r, has_area K r -> exists E f m, (forall x, In x E \/ slice_length K x (f x)) /\
  forall a b, a <= - m -> m <= b -> is_RInt f a b r.
Proof.
  intros K r (E & f & a & b & AB & IN & SL & I).
  set (f' := fun x => if Rlt_dec x a then 0 else if Rlt_dec b x then 0 else f x).
  exists E, f', (Rmax (Rabs a) (Rabs b)). split.
  - intros x. destruct (SL x) as [S|S]; auto. right. unfold f'. destruct (Rlt_dec x a); [|destruct (Rlt_dec b x); auto].
    + left. split; auto. intros y Hy. apply IN in Hy. cbn [fst] in Hy. lra.
    + left. split; auto. intros y Hy. apply IN in Hy. cbn [fst] in Hy. lra.
  - intros a' b' Ha Hb.
    assert (M1 := Rmax_l (Rabs a) (Rabs b)). assert (M2 := Rmax_r (Rabs a) (Rabs b)).
    assert (A1 : - Rabs a <= a) by (unfold Rabs; destruct (Rcase_abs a); lra). assert (A2 : b <= Rabs b) by apply Rle_abs.
    assert (A3 : a <= Rabs a) by apply Rle_abs. assert (A4 : - Rabs b <= b) by (unfold Rabs; destruct (Rcase_abs b); lra).
    assert (Z : forall u v : R, is_RInt (fun _ : R => 0) u v 0).
    { intros u v. apply RInt_zero. }
    replace r with (plus 0 (plus r 0)) by (unfold plus; cbn; lra).
    apply (is_RInt_Chasles f' a' a b'); [|apply (is_RInt_Chasles f' a b b')].
    + apply (is_RInt_ext (fun _ => 0)); auto. intros x Hx. rewrite Rmin_left, Rmax_right in Hx by lra. unfold f'. destruct (Rlt_dec x a); auto; lra.
    + apply (is_RInt_ext f); auto. intros x Hx. rewrite Rmin_left, Rmax_right in Hx by lra. unfold f'. destruct (Rlt_dec x a); [lra|]. destruct (Rlt_dec b x); [lra|auto].
    + apply (is_RInt_ext (fun _ => 0)); auto. intros x Hx. rewrite Rmin_left, Rmax_right in Hx by lra. unfold f'. destruct (Rlt_dec x a); auto. destruct (Rlt_dec b x); auto; lra.
Qed.

Theorem area_unique : forall K r r', has_area K r -> has_area K r' -> r = r'.
Proof.
  intros K r r' H H'. apply area_on in H. apply area_on in H'. destruct H as (E & f & m & SL & I). destruct H' as (E' & f' & m' & SL' & I').
  set (M := Rmax 0 (Rmax m m')). assert (M1 := Rmax_l 0 (Rmax m m')). assert (M2 := Rmax_r 0 (Rmax m m')).
  assert (M3 := Rmax_l m m'). assert (M4 := Rmax_r m m'). fold M in M1, M2.
  assert (J : is_RInt f (- M) M r) by (apply I; lra). assert (J' : is_RInt f' (- M) M r') by (apply I'; lra).
  apply (RInt_ext_fin (E ++ E') f f') in J; [|lra|].
  - apply (RInt_same f' (- M) M); auto.
  - intros x _. rewrite in_app_iff. destruct (SL x); auto. destruct (SL' x); auto. right. eapply slice_unique; eauto.
Qed.

Lemma area_nonneg : forall K r, has_area K r -> 0 <= r.
Proof.
  intros K r H. apply area_on in H. destruct H as (E & f & m & SL & I).
  set (M := Rmax 0 m). assert (M1 := Rmax_l 0 m). assert (M2 := Rmax_r 0 m). fold M in M1, M2.
  assert (J : is_RInt f (- M) M r) by (apply I; lra).
  set (h := fun x => Rabs (f x)).
  assert (J2 : is_RInt h (- M) M r).
  { apply (RInt_ext_fin E f h); auto; [lra|]. intros x _. destruct (SL x) as [S|S]; auto. right. unfold h.
    symmetry. apply Rabs_pos_eq. destruct S as [[-> _]|(lo & hi & L & -> & _)]; lra. }
  apply (is_RInt_ge_0 h (- M) M r); auto; [lra|]. intros x _. unfold h. apply Rabs_pos.
Qed.

Lemma area_mono : forall (K K' : point -> Prop) r r', (forall p, K' p -> K p) -> has_area K r -> has_area K' r' -> r' <= r.
Proof.
  intros K K' r r' SUB H H'. apply area_on in H. apply area_on in H'. destruct H as (E & f & m & SL & I). destruct H' as (E' & f' & m' & SL' & I').
  set (M := Rmax 0 (Rmax m m')). assert (M1 := Rmax_l 0 (Rmax m m')). assert (M2 := Rmax_r 0 (Rmax m m')).
  assert (M3 := Rmax_l m m'). assert (M4 := Rmax_r m m'). fold M in M1, M2.
  assert (J : is_RInt f (- M) M r) by (apply I; lra). assert (J' : is_RInt f' (- M) M r') by (apply I'; lra).
  set (h := fun x => Rmin (f' x) (f x)).
  assert (J2 : is_RInt h (- M) M r').
  { apply (RInt_ext_fin (E ++ E') f' h); auto; [lra|]. intros x _. rewrite in_app_iff. destruct (SL x) as [S|S]; auto. destruct (SL' x) as [S'|S']; auto. right. unfold h.
    symmetry. apply Rmin_left. destruct S as [[-> N]|(lo & hi & L & -> & N)], S' as [[-> N']|(lo' & hi' & L' & -> & N')]; try lra.
    - exfalso. apply (N lo'). apply SUB, N'. lra.
    - assert (A : lo <= lo' <= hi) by (apply N, SUB, N'; lra). assert (B : lo <= hi' <= hi) by (apply N, SUB, N'; lra). lra. }
  apply (is_RInt_le h f (- M) M); auto; [lra|]. intros x _. apply Rmin_r.
Qed.

(** ** Flat intersections *)
Lemma flat_slices : forall K, flat K -> exists c, forall x, x <> c -> forall y y', K (x, y) -> K (x, y') -> y = y'.
Proof.
  intros K F. destruct (classic (exists c y y', y <> y' /\ K (c, y) /\ K (c, y'))) as [(c & y & y' & N & K1 & K2)|N].
  - exists c. intros x Hx z z' Hz _. exfalso. assert (C := F _ _ _ K1 K2 Hz). unfold cr in C. cbn [fst snd] in C.
    assert (Z : (y' - y) * (x - c) = 0) by lra. apply Rmult_integral in Z. lra.
  - exists 0. intros x _ y y' H1 H2. destruct (Req_dec y y'); auto. exfalso. apply N. exists x, y, y'. auto.
Qed.

(** ** Tilings *)
Fixpoint pairwise_flat (L : list (point -> Prop)) : Prop :=
  match L with
  | [] => True
  | K :: L' => (forall K', In K' L' -> flat (fun p => K p /\ K' p)) /\ pairwise_flat L'
  end.

Lemma flat_list : forall K L, (forall K', In K' L -> flat (fun p : point => K p /\ K' p)) ->
  exists E, forall x, In x E \/ forall K', In K' L -> forall y y', K (x, y) -> K' (x, y) -> K (x, y') -> K' (x, y') -> y = y'.
Proof.
  intros K. induction L as [|K' L IH]; intros H.
  - exists []. intros x. right. intros ? [].
  - destruct (IH (fun K0 I => H K0 (or_intror I))) as (E & HE). destruct (flat_slices _ (H K' (or_introl eq_refl))) as (c & HC).
    exists (c :: E). intros x. destruct (Req_dec x c) as [->|N]; [left; left; auto|]. destruct (HE x) as [I|I]; [left; right; auto|]. right.
    intros K0 [<-|I0] y y' A B C D; [|apply (I K0 I0); auto]. apply (HC x N); auto.
Qed.

Fixpoint pairwise_at (x : R) (L : list (point -> Prop)) : Prop :=
  match L with
  | [] => True
  | K :: L' => (forall K', In K' L' -> forall y y', K (x, y) -> K' (x, y) -> K (x, y') -> K' (x, y') -> y = y') /\ pairwise_at x L'
  end.

Lemma pairwise_slices : forall L, pairwise_flat L -> exists E, forall x, In x E \/ pairwise_at x L.
Proof.
  induction L as [|K L IH]; intros H; [exists []; right; exact I|]. destruct H as [H1 H2].
  destruct (IH H2) as (E & HE). destruct (flat_list K L H1) as (E' & HE'). exists (E ++ E'). intros x. rewrite in_app_iff.
  destruct (HE x); auto. destruct (HE' x); auto. right. split; auto.
Qed.

Fixpoint rsum (l : list R) : R := match l with [] => 0 | x :: l' => x + rsum l' end.

(** The slices of sets as a list of intervals. *)
Lemma slice_intervals : forall x (L : list (point -> Prop)) (ls : list R), Forall2 (fun K l => slice_length K x l) L ls ->
  exists IV : list (R * R), (forall i, In i IV -> fst i <= snd i /\ exists K, In K L /\ forall y, K (x, y) <-> in_iv i y) /\
    (forall K y, In K L -> K (x, y) -> exists i, In i IV /\ in_iv i y) /\ rsum ls = increments (fun y => y) IV /\
    (pairwise_at x L -> pairwise_once IV).
Proof.
  intros x L ls H. induction H as [|K l L ls S _ IH].
  - exists []. split; [intros i []|]. split; [intros ? ? []|]. split; [reflexivity|intros _; exact I].
  - destruct IH as (IV & H1 & H2 & H3 & H4). destruct S as [[-> S]|(lo & hi & LH & -> & S)].
    + exists IV. split; [|split; [|split]].
      * intros i Hi. destruct (H1 i Hi) as (A & K' & B & C). split; auto. exists K'. split; [right; auto|auto].
      * intros K' y [<-|I] Hy; [exfalso; apply (S y); auto|]. eapply H2; eauto.
      * cbn [rsum]. rewrite H3. ring.
      * intros [_ P]. auto.
    + exists ((lo, hi) :: IV). split; [|split; [|split]].
      * intros i [<-|Hi]; [split; auto; exists K; split; [left; auto|auto]|]. destruct (H1 i Hi) as (A & K' & B & C). split; auto. exists K'. split; [right; auto|auto].
      * intros K' y [<-|I] Hy; [exists (lo, hi); split; [left; auto|apply S; auto]|]. destruct (H2 K' y I Hy) as (i & A & B). exists i. split; [right; auto|auto].
      * cbn [rsum increments fst snd]. rewrite H3. ring.
      * intros [P1 P2]. cbn [pairwise_once]. split; auto. intros j Hj. destruct (H1 j Hj) as (_ & K' & I' & C).
        intros t t' A B A' B'. apply (P1 K' I'); try (apply S; auto); apply C; auto.
Qed.

Lemma sum_areas : forall (L : list (point -> Prop)) rs, Forall2 has_area L rs ->
  exists E (F : R -> list R) m, (forall x, In x E \/ Forall2 (fun K l => slice_length K x l) L (F x)) /\
    forall a b, a <= - m -> m <= b -> is_RInt (fun x => rsum (F x)) a b (rsum rs).
Proof.
  intros L rs H. induction H as [|K r L rs A _ IH].
  - exists [], (fun _ => []), 0. split; [intros; right; constructor|]. intros a b _ _. cbn [rsum]. apply RInt_zero.
  - destruct IH as (E & F & m & S & I). apply area_on in A. destruct A as (E' & f & m' & S' & I').
    exists (E ++ E'), (fun x => f x :: F x), (Rmax m m'). assert (M1 := Rmax_l m m'). assert (M2 := Rmax_r m m'). split.
    + intros x. rewrite in_app_iff. destruct (S x); auto. destruct (S' x); auto.
    + intros a b Ha Hb. cbn [rsum]. apply (is_RInt_plus f (fun x => rsum (F x))); [apply I'|apply I]; lra.
Qed.

Theorem area_tiles : forall K r L rs, has_area K r -> Forall2 has_area L rs -> pairwise_flat L ->
  (forall K' p, In K' L -> K' p -> K p) -> (forall p, K p -> exists K', In K' L /\ K' p) -> rsum rs = r.
Proof.
  intros K r L rs HK HL PF SUB COV. apply area_on in HK. destruct HK as (E & f & m & S & I).
  destruct (sum_areas L rs HL) as (E' & F & m' & S' & I'). destruct (pairwise_slices L PF) as (E2 & P).
  set (M := Rmax 0 (Rmax m m')). assert (M1 := Rmax_l 0 (Rmax m m')). assert (M2 := Rmax_r 0 (Rmax m m')).
  assert (M3 := Rmax_l m m'). assert (M4 := Rmax_r m m'). fold M in M1, M2.
  assert (J : is_RInt f (- M) M r) by (apply I; lra). assert (J' : is_RInt (fun x => rsum (F x)) (- M) M (rsum rs)) by (apply I'; lra).
  apply (RInt_ext_fin (E ++ E' ++ E2) (fun x => rsum (F x)) f) in J'; [|lra|].
  { apply (RInt_same f (- M) M); auto. }
  intros x _. rewrite !in_app_iff. destruct (S x) as [X|SX]; auto. destruct (S' x) as [X|SX']; auto. destruct (P x) as [X|PX]; auto. right.
  destruct (slice_intervals x L (F x) SX') as (IV & H1 & H2 & H3 & H4). rewrite H3.
  destruct SX as [[-> SX]|(lo & hi & LH & -> & SX)].
  - destruct IV as [|i IV]; [reflexivity|]. exfalso. destruct (H1 i (or_introl eq_refl)) as (A & K' & B & C).
    apply (SX (fst i)). apply (SUB K'); auto. apply C. unfold in_iv. lra.
  - apply (increments_once (fun y => y) IV []); auto.
    + intros i Hi. destruct (H1 i Hi) as (A & K' & B & C).
      assert (X : K (x, fst i)) by (apply (SUB K'); auto; apply C; unfold in_iv; lra).
      assert (Y : K (x, snd i)) by (apply (SUB K'); auto; apply C; unfold in_iv; lra).
      apply SX in X. apply SX in Y. lra.
    + intros t Ht. apply SX in Ht. right. destruct (COV _ Ht) as (K' & A & B). apply (H2 K'); auto.
Qed.
