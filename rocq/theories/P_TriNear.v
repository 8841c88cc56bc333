(** Property theorems C21, C23 in IEEE arithmetic for any doubles: triangulation of points in general position. *)
From Coq Require Import ZArith List Bool Lia Reals Lra Permutation Floats.SpecFloat.
From Flocq Require Import Core.
From Verif Require Import Base Num NumR NumF M_Triangulate S_Geometry S_Area L_Polygon L_Triangulate L_HullGen
  L_Float L_FloatOps L_FindPointF L_TriangulateF L_QuadBoxF L_ResidualF L_TriNear.
Import ListNotations.
Open Scope R_scope.

(** [points] are finite doubles with the values [vals], not larger than M. *)
Definition doubles_of (M : R) (points : list (spec_float * spec_float)) (vals : list point) : Prop :=
  Forall2 (fun p v => dbl (fst p) /\ dbl (snd p) /\ v = (fval (fst p), fval (snd p)) /\ Rabs (fst v) <= M /\ Rabs (snd v) <= M) points vals.

Lemma eps_lit : epsR = / 10 ^ 12.
Proof. unfold epsR, tr_eps. rewrite lit_R. lra. Qed.

Lemma strict_general : forall P a b c, strict_ccw P -> In a P -> In b P -> In c P -> cr a b c = 0 -> a = b \/ a = c \/ b = c.
Proof.
  intros P a b c SC Ha Hb Hc Z.
  destruct (In_nth P a origin Ha) as (i & Hi & Ei). destruct (In_nth P b origin Hb) as (j & Hj & Ej). destruct (In_nth P c origin Hc) as (k & Hk & Ek).
  destruct (Nat.eq_dec i j) as [E|N1]; [left; subst; reflexivity|].
  destruct (Nat.eq_dec i k) as [E|N2]; [right; left; subst; reflexivity|].
  destruct (Nat.eq_dec j k) as [E|N3]; [right; right; subst; reflexivity|]. exfalso.
  fold (nthp P i) in Ei. fold (nthp P j) in Ej. fold (nthp P k) in Ek. rewrite <- Ei, <- Ej, <- Ek in Z.
  assert (C : (i < j < k \/ j < k < i \/ k < i < j \/ i < k < j \/ k < j < i \/ j < i < k)%nat) by lia.
  destruct C as [C|[C|[C|[C|[C|C]]]]];
    [assert (Q := SC i j k C ltac:(lia))|assert (Q := SC j k i C ltac:(lia))|assert (Q := SC k i j C ltac:(lia))
    |assert (Q := SC i k j C ltac:(lia))|assert (Q := SC k j i C ltac:(lia))|assert (Q := SC j i k C ltac:(lia))]; unfold cr in *; lra.
Qed.

(** The slack added to the tolerances: 100 u M^2 with u = 2^-53. *)
Definition slack (M : R) : R := 100 * (uround * (M * M)).

Lemma slack_kappa : forall M, kappa M 0 = slack M.
Proof. intros. unfold kappa, slack. ring. Qed.

Lemma doubles_stand : forall M points vals (P : list point), doubles_of M points vals -> (forall v, In v vals -> In v P) -> Forall2 (stands P (fun v => v)) points vals.
Proof.
  intros M points vals P H. induction H as [|p v ps vs (D1 & D2 & E & _) F IH]; intros I; constructor.
  - split; [split; auto|]. split; [symmetry; exact E|]. apply I. simpl. auto.
  - apply IH. intros; apply I; simpl; auto.
Qed.

Lemma doubles_size : forall M points vals, doubles_of M points vals -> forall v, In v vals -> Rabs (fst v) <= M /\ Rabs (snd v) <= M.
Proof.
  intros M points vals H. induction H as [|p v ps vs (_ & _ & _ & B) F IH]; intros w Hw; [contradiction|].
  destruct Hw as [<-|Hw]; auto.
Qed.

(** C21, IEEE, any finite doubles: the points are the vertices of a strictly convex polygon P in any order and with
    repetitions.  Distinct vertices and triangles of vertices are larger than the tolerance of the code by the slack.
    Then the area reported is finite and within n/2 times the slack of the area of P.  Any sort, any memory. *)
Theorem C21_hull_area_ieee_any : forall srt junk (points : list (spec_float * spec_float)) (vals P : list point) M,
  (forall lt l, Permutation (srt lt l) l) -> 1 <= M <= bpow radix2 400 -> doubles_of M points vals ->
  (forall p, In p vals <-> In p P) -> strict_ccw P -> NoDup P -> (3 <= length P)%nat ->
  separated (/ 10 ^ 12 + slack M) P -> INR (length points) * slack M <= M * M ->
  let a := tr_hullArea (tr_new (T := spec_float) srt junk (length points) points) in
  dbl a /\ Rabs (fval a - polygon_area P) <= INR (length points) * slack M / 2.
Proof.
  intros srt junk points vals P M SRT [M1 M2] D HP SC ND L3 SEP NK a. rewrite <- eps_lit, <- slack_kappa in SEP. rewrite <- slack_kappa in NK |- *.
  assert (SZ : forall v, In v P -> Rabs (fst v) <= M /\ Rabs (snd v) <= M) by (intros v Hv; apply (doubles_size M points vals D); apply HP; auto).
  destruct (near_hull M M1 M2 P (fun v => v) 0 ltac:(lra) SZ SZ) with (srt := srt) (junk := junk) (n := length points) (ps := points) (zs := vals)
    as (A & B & _); auto.
  - intros v Hv. rewrite !Rminus_eq_0, Rabs_R0. lra.
  - intros x y z Hx Hy Hz. apply (strict_general P); auto.
  - apply (doubles_stand M); auto. intros v Hv. apply HP; auto.
  - intros p. replace (length points) with (length vals) by (symmetry; eapply Forall2_length; exact D); rewrite firstn_all. apply HP.
Qed.
Print Assumptions C21_hull_area_ieee_any.

(** C23 with C22, IEEE, any finite doubles: different points in general position (no three near one line), not
    necessarily convex, are triangulated without a read outside the stored points. *)
Theorem C23_general_position_ieee_any_partial : forall srt junk (points : list (spec_float * spec_float)) (vals H : list point) M,
  (forall lt l, Permutation (srt lt l) l) -> 1 <= M <= bpow radix2 400 -> doubles_of M points vals -> (3 <= length points)%nat -> NoDup vals ->
  (forall a b, In a vals -> In b vals -> a <> b -> / 10 ^ 12 + slack M < sqdist a b) ->
  (forall a b c, In a vals -> In b vals -> In c vals -> a <> b -> a <> c -> b <> c -> / 10 ^ 12 + slack M < Rabs (cr a b c)) ->
  (2 <= length H)%nat -> is_hull H vals ->
  tr_oob (tr_new (T := spec_float) srt junk (length points) points) = false.
Proof.
  intros srt junk points vals H M SRT [M1 M2] D L3 ND S2 S3 LH HU. rewrite <- eps_lit, <- slack_kappa in S2, S3.
  assert (K := kappa_pos M M1 0 ltac:(lra)). assert (UM := u_sq M M1). assert (EP := eps_pos).
  assert (LZ : length points = length vals) by (eapply Forall2_length; exact D).
  assert (SZ : forall v, In v vals -> Rabs (fst v) <= M /\ Rabs (snd v) <= M) by apply (doubles_size M points vals D).
  assert (NR : forall v, In v vals -> Rabs (fst v - fst v) <= 0 /\ Rabs (snd v - snd v) <= 0) by (intros; rewrite !Rminus_eq_0, Rabs_R0; lra).
  assert (PD : forall a b : point, {a = b} + {a <> b}).
  { intros [a1 a2] [b1 b2]. destruct (Req_EM_T a1 b1) as [->|N]; [|right; intros E; apply N; congruence].
    destruct (Req_EM_T a2 b2) as [->|N]; [left; reflexivity|right; intros E; apply N; congruence]. }
  assert (SEP : separated (epsR + kappa M 0) vals).
  { split.
    - intros a b Ha Hb. destruct (PD a b); [left; auto|right; auto].
    - intros a b c Ha Hb Hc. destruct (PD a b) as [->|N1]; [left; apply cr_same1|]. destruct (PD a c) as [->|N2]; [left; apply cr_same3|].
      destruct (PD b c) as [->|N3]; [left; apply cr_same2|right; auto]. }
  assert (GEN : forall a b c, In a vals -> In b vals -> In c vals -> cr a b c = 0 -> a = b \/ a = c \/ b = c).
  { intros a b c Ha Hb Hc Z. destruct (PD a b) as [->|N1]; auto. destruct (PD a c) as [->|N2]; auto. destruct (PD b c) as [->|N3]; auto.
    exfalso. assert (Q := S3 a b c Ha Hb Hc N1 N2 N3). rewrite Z, Rabs_R0 in Q. lra. }
  set (st := stands vals (fun v => v)).
  destruct (new_sim st (stands_neg M M1 M2 vals (fun v => v) 0 ltac:(lra) SZ SZ NR SEP GEN) (stands_abs M M1 M2 vals (fun v => v) 0 ltac:(lra) SZ SZ NR SEP GEN)
    (stands_flat M M1 M2 vals (fun v => v) 0 ltac:(lra) SZ SZ NR SEP GEN) (stands_dist M M1 M2 vals (fun v => v) 0 ltac:(lra) SZ SZ NR SEP)
    srt junk (fun _ => origin) (length points) points vals SRT ltac:(lia) ltac:(apply (doubles_stand M); auto)) as (srt' & SRT' & SIM).
  destruct (general_hull srt' (fun _ => origin) (length points) vals H) as (_ & _ & A2 & A3); auto; rewrite ?LZ, ?firstn_all; auto; try lia.
  - intros a b Ha Hb N. assert (Q := S2 a b Ha Hb N). lra.
  - intros a b c Ha Hb Hc N1 N2 N3. assert (Q := S3 a b c Ha Hb Hc N1 N2 N3). lra.
  - destruct (SIM A3) as (ws & S). rewrite <- LZ, (sm_oob _ _ _ _ S). exact A2.
Qed.
Print Assumptions C23_general_position_ieee_any_partial.

(** A kite with fractional coordinates, one vertex given twice. *)
Definition kite : list point := [(0, 0); (1 / 2, 0); (1, 1); (0, 1 / 2)].
Definition kite_doubles : list (spec_float * spec_float) := [(n1, n1); (n0, nhalf); (n0, n0); (n1, n1); (nhalf, n0)].
Definition kite_vals : list point := [(1, 1); (0, 1 / 2); (0, 0); (1, 1); (1 / 2, 0)].

Example C21_any_case : forall srt junk, (forall lt l, Permutation (srt lt l) l) ->
  Rabs (fval (tr_hullArea (tr_new (T := spec_float) srt junk 5 kite_doubles)) - 1 / 2) <= 5 * slack 1 / 2.
Proof.
  intros srt junk SRT. assert (U := u_rng). assert (S1 : slack 1 <= / 10000) by (unfold slack; lra). assert (S0 : 0 < slack 1) by (unfold slack; lra).
  replace (1 / 2) with (polygon_area kite) by (unfold polygon_area, shoelace, kite; cbn [app chain_sum]; unfold det2; cbn [fst snd]; lra).
  change 5%nat with (length kite_doubles). replace 5 with (INR (length kite_doubles)) by (cbn; lra).
  apply (C21_hull_area_ieee_any srt junk kite_doubles kite_vals kite 1); auto.
  - split; [lra|]. change 1 with (bpow radix2 0). apply bpow_le. lia.
  - destruct zero_val as [Z1 Z2]. destruct one_val as [O1 O2]. destruct half_val as [H1 H2].
    unfold doubles_of, kite_doubles, kite_vals.
    repeat (apply Forall2_cons; [cbn [fst snd]; rewrite ?Z2, ?O2, ?H2; repeat split; auto; apply Rabs_le; lra|]). constructor.
  - intros p. unfold kite_vals, kite. cbn [In]. tauto.
  - intros i j k L Hk. cbn in Hk. destruct i as [|[|i]], j as [|[|[|j]]], k as [|[|[|[|k]]]]; try lia; unfold cr, nthp, kite; cbn [nth fst snd]; lra.
  - unfold kite. repeat (constructor; [simpl; intros H; repeat (destruct H as [H|H]; [injection H; intros; lra|]); exact H|]). constructor.
  - cbn. lia.
  - set (e := / 10 ^ 12 + slack 1). assert (E : 0 < e < 1 / 100) by (unfold e; lra). clearbody e. unfold separated, kite. split.
    + intros a b Ha Hb. simpl in Ha, Hb.
      repeat (destruct Ha as [<-|Ha]; [|]); try contradiction; repeat (destruct Hb as [<-|Hb]; [|]); try contradiction;
        (left; reflexivity) || (right; unfold sqdist; cbn [fst snd]; lra).
    + intros a b c Ha Hb Hc. simpl in Ha, Hb, Hc.
      repeat (destruct Ha as [<-|Ha]; [|]); try contradiction; repeat (destruct Hb as [<-|Hb]; [|]); try contradiction;
        repeat (destruct Hc as [<-|Hc]; [|]); try contradiction; unfold cr; cbn [fst snd];
        (left; lra) || (right; unfold Rabs; destruct (Rcase_abs _); lra).
  - cbn [length kite_doubles]. replace (INR 5) with 5 by (cbn; lra). lra.
Qed.
