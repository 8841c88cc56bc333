(** The triangulation of points no three of which are on a line: the sum of the triangles is at least the
    area of the convex hull. *)
From Coq Require Import ZArith List Bool Reals Lra Lia Permutation Sorted.
From Verif Require Import Base Num NumR M_Triangulate S_LinAlg S_Geometry L_LinearSolve L_FindPointR L_Polygon L_Triangulate.
Import ListNotations.
Open Scope R_scope.

(** ** The edges of the hull of the first k points *)
Section Edges.
Variable pts : nat -> point.
Variable n : nat.
Hypothesis GP : forall i j k, (i < n)%nat -> (j < n)%nat -> (k < n)%nat -> i <> j -> i <> k -> j <> k -> cr (pts i) (pts j) (pts k) <> 0.

Let C (a b c : nat) : R := cr (pts a) (pts b) (pts c).

Definition hedge (k a b : nat) : Prop :=
  (a < k)%nat /\ (b < k)%nat /\ a <> b /\ forall s, (s < k)%nat -> s <> a -> s <> b -> 0 < C a b s.

Definition hb (k a b : nat) : bool :=
  (a <? k)%nat && (b <? k)%nat && negb (a =? b)%nat &&
  forallb (fun s => (s =? a)%nat || (s =? b)%nat || if Rlt_dec 0 (C a b s) then true else false) (seq 0 k).

Lemma hb_spec : forall k a b, hb k a b = true <-> hedge k a b.
Proof.
  intros k a b. unfold hb, hedge. rewrite !andb_true_iff, !Nat.ltb_lt, negb_true_iff, Nat.eqb_neq, forallb_forall. split.
  - intros (((A & B) & D) & F). repeat split; auto. intros s Hs Na Nb. specialize (F s ltac:(apply in_seq; lia)).
    destruct (Nat.eqb_spec s a); [contradiction|]. destruct (Nat.eqb_spec s b); [contradiction|].
    cbn [orb] in F. destruct (Rlt_dec 0 (C a b s)); auto. discriminate.
  - intros (A & B & D & F). repeat split; auto. intros s Hs. apply in_seq in Hs.
    destruct (Nat.eqb_spec s a); auto. destruct (Nat.eqb_spec s b); auto. destruct (Rlt_dec 0 (C a b s)); auto.
    exfalso. match goal with H : ~ _ |- _ => apply H end. apply F; auto. lia.
Qed.

(** Rotations and exchanges. *)
Lemma C_rot : forall a b c, C a b c = C b c a.
Proof. intros. unfold C, cr. ring. Qed.
Lemma C_swap : forall a b c, C a b c = - C a c b.
Proof. intros. unfold C, cr. ring. Qed.
Lemma C_swap0 : forall a b c, C a b c = - C b a c.
Proof. intros. unfold C, cr. ring. Qed.
Lemma plucker : forall v d a b c, C v d b * C v a c = C v d a * C v b c + C v d c * C v a b.
Proof. intros. unfold C, cr. ring. Qed.

(** The first in the order of the angles round v, among points on one side of a line through v. *)
Lemma angle_min : forall sg v d l, l <> [] -> (forall s, In s l -> 0 < sg * C v d s) ->
  (forall s t, In s l -> In t l -> s <> t -> C v s t <> 0) ->
  exists m, In m l /\ forall s, In s l -> s <> m -> 0 < C v m s.
Proof.
  intros sg v d l. induction l as [|a l IH]; intros NE S D; [contradiction|].
  destruct l as [|b l'].
  - exists a. split; [simpl; auto|]. intros s [->|[]] H. contradiction.
  - destruct IH as (m & Im & Hm); [discriminate|intros; apply S; simpl in *; auto|intros; apply D; simpl in *; auto|].
    destruct (Nat.eq_dec a m) as [->|NA].
    { exists m. split; [simpl; auto|]. intros s [<-|Hs] Ns; [contradiction|]. apply Hm; auto. }
    destruct (Rlt_dec 0 (C v a m)) as [P|P].
    + exists a. split; [simpl; auto|]. intros s [<-|Hs] Ns; [contradiction|].
      destruct (Nat.eq_dec s m) as [->|Nm]; auto. assert (Q := Hm s Hs Nm).
      assert (Da := S a (or_introl eq_refl)). assert (Dm := S m (or_intror Im)). assert (Ds := S s (or_intror Hs)).
      assert (PL := plucker v d a m s). assert (0 < (sg * C v d m) * C v a s).
      { replace ((sg * C v d m) * C v a s) with ((sg * C v d a) * C v m s + (sg * C v d s) * C v a m) by (rewrite !Rmult_assoc, PL; ring).
        apply Rplus_lt_0_compat; apply Rmult_lt_0_compat; auto. }
      apply (Rmult_lt_reg_l (sg * C v d m)); auto. rewrite Rmult_0_r. auto.
    + exists m. split; [simpl; auto|]. intros s [<-|Hs] Ns; [|apply Hm; auto].
      assert (X := D a m (or_introl eq_refl) (or_intror Im) Ns). rewrite C_swap. lra.
Qed.

(** The last. *)
Lemma angle_max : forall sg v d l, l <> [] -> (forall s, In s l -> 0 < sg * C v d s) ->
  (forall s t, In s l -> In t l -> s <> t -> C v s t <> 0) ->
  exists m, In m l /\ forall s, In s l -> s <> m -> 0 < C v s m.
Proof.
  intros sg v d l. induction l as [|a l IH]; intros NE S D; [contradiction|].
  destruct l as [|b l'].
  - exists a. split; [simpl; auto|]. intros s [->|[]] H. contradiction.
  - destruct IH as (m & Im & Hm); [discriminate|intros; apply S; simpl in *; auto|intros; apply D; simpl in *; auto|].
    destruct (Nat.eq_dec a m) as [->|NA].
    { exists m. split; [simpl; auto|]. intros s [<-|Hs] Ns; [contradiction|]. apply Hm; auto. }
    destruct (Rlt_dec 0 (C v m a)) as [P|P].
    + exists a. split; [simpl; auto|]. intros s [<-|Hs] Ns; [contradiction|].
      destruct (Nat.eq_dec s m) as [->|Nm]; auto. assert (Q := Hm s Hs Nm).
      assert (Da := S a (or_introl eq_refl)). assert (Dm := S m (or_intror Im)). assert (Ds := S s (or_intror Hs)).
      assert (PL := plucker v d s m a). assert (0 < (sg * C v d m) * C v s a).
      { replace ((sg * C v d m) * C v s a) with ((sg * C v d s) * C v m a + (sg * C v d a) * C v s m) by (rewrite !Rmult_assoc, PL; ring).
        apply Rplus_lt_0_compat; apply Rmult_lt_0_compat; auto. }
      apply (Rmult_lt_reg_l (sg * C v d m)); auto. rewrite Rmult_0_r. auto.
    + exists m. split; [simpl; auto|]. intros s [<-|Hs] Ns; [|apply Hm; auto].
      assert (X := D m a (or_intror Im) (or_introl eq_refl) ltac:(auto)). rewrite C_swap. lra.
Qed.

Definition others (k v w : nat) : list nat := filter (fun s => negb (s =? v)%nat && negb (s =? w)%nat) (seq 0 k).
Lemma in_others : forall k v w s, In s (others k v w) <-> (s < k)%nat /\ s <> v /\ s <> w.
Proof.
  intros. unfold others. rewrite filter_In, in_seq, andb_true_iff, !negb_true_iff, !Nat.eqb_neq. intuition lia.
Qed.
Lemma others_ne : forall k v w, (3 <= k)%nat -> others k v w <> [].
Proof.
  intros k v w Hk E.
  assert (H : forall s, (s < k)%nat -> s = v \/ s = w).
  { intros s Hs. destruct (Nat.eq_dec s v); auto. destruct (Nat.eq_dec s w); auto.
    assert (X : In s (others k v w)) by (apply in_others; auto). rewrite E in X. destruct X. }
  destruct (H 0%nat), (H 1%nat), (H 2%nat); lia.
Qed.

Lemma C_neq : forall k v s t, (k <= n)%nat -> (v < k)%nat -> (s < k)%nat -> (t < k)%nat -> s <> v -> t <> v -> s <> t -> C v s t <> 0.
Proof. intros. apply GP; auto; lia. Qed.

(** Every end of an edge has an edge in and an edge out. *)
Lemma out_in : forall k v w, (3 <= k)%nat -> (k <= n)%nat -> hedge k v w -> exists u, hedge k u v.
Proof.
  intros k v w K3 Kn (Hv & Hw & NE & L).
  destruct (angle_max 1 v w (others k v w)) as (u & Iu & Hu).
  - apply others_ne; auto.
  - intros s Hs. apply in_others in Hs. rewrite Rmult_1_l. apply L; tauto.
  - intros s t Hs Ht N. apply in_others in Hs. apply in_others in Ht. apply (C_neq k); tauto.
  - apply in_others in Iu. exists u. repeat split; try tauto. intros s Hs Nu Nv. rewrite C_rot.
    destruct (Nat.eq_dec s w) as [->|Nw]; [apply L; tauto|]. apply Hu; auto. apply in_others. auto.
Qed.

Lemma in_out : forall k u v, (3 <= k)%nat -> (k <= n)%nat -> hedge k u v -> exists w, hedge k v w.
Proof.
  intros k u v K3 Kn (Hu & Hv & NE & L).
  destruct (angle_min (-1) v u (others k v u)) as (w & Iw & Hw).
  - apply others_ne; auto.
  - intros s Hs. apply in_others in Hs. rewrite C_swap, <- C_rot. assert (0 < C u v s) by (apply L; tauto). lra.
  - intros s t Hs Ht N. apply in_others in Hs. apply in_others in Ht. apply (C_neq k); tauto.
  - apply in_others in Iw. exists w. repeat split; try tauto; try (intros ->; tauto). intros s Hs Nv Nw.
    destruct (Nat.eq_dec s u) as [->|Nu]; [rewrite <- C_rot; apply L; tauto|]. apply Hw; auto. apply in_others. auto.
Qed.

Lemma out_unique : forall k v w w', hedge k v w -> hedge k v w' -> w = w'.
Proof.
  intros k v w w' (_ & Hw & NE & L) (_ & Hw' & NE' & L'). destruct (Nat.eq_dec w w') as [|N]; auto.
  assert (A := L w' Hw' ltac:(auto) ltac:(auto)). assert (B := L' w Hw ltac:(auto) ltac:(auto)). rewrite C_swap in B. lra.
Qed.
Lemma in_unique : forall k u u' v, hedge k u v -> hedge k u' v -> u = u'.
Proof.
  intros k u u' v (Hu & _ & NE & L) (Hu' & _ & NE' & L'). destruct (Nat.eq_dec u u') as [|N]; auto.
  assert (A := L u' Hu' ltac:(auto) ltac:(auto)). assert (B := L' u Hu ltac:(auto) ltac:(auto)).
  rewrite C_rot in A. rewrite C_rot, C_swap in B. lra.
Qed.

(** One more point, number k. *)
Lemma hedge_old : forall k a b, (a < k)%nat -> (b < k)%nat -> (hedge (S k) a b <-> hedge k a b /\ 0 < C a b k).
Proof.
  intros k a b Ha Hb. split.
  - intros (_ & _ & NE & L). split; [|apply L; lia]. repeat split; auto.
  - intros ((_ & _ & NE & L) & H). repeat split; auto. intros s Hs Na Nb. destruct (Nat.eq_dec s k) as [->|Nk]; auto. apply L; auto. lia.
Qed.

(** A point with an edge to the new one, or from it, is an end of an old edge. *)
Lemma new_out : forall k v, (3 <= k)%nat -> (S k <= n)%nat -> hedge (S k) v k -> exists w, hedge k v w.
Proof.
  intros k v K3 Kn (Hv & _ & NE & L).
  destruct (angle_min 1 v k (others k v k)) as (w & Iw & Hw).
  - apply others_ne; auto.
  - intros s Hs. apply in_others in Hs. rewrite Rmult_1_l. apply L; try tauto. lia.
  - intros s t Hs Ht N. apply in_others in Hs. apply in_others in Ht. apply (C_neq k); try tauto; lia.
  - apply in_others in Iw. exists w. repeat split; try tauto; try lia; try (intros ->; tauto). intros s Hs Nv Nw.
    apply Hw; auto. apply in_others. repeat split; auto. lia.
Qed.
Lemma new_in : forall k v, (3 <= k)%nat -> (S k <= n)%nat -> hedge (S k) k v -> exists w, hedge k v w.
Proof.
  intros k v K3 Kn (_ & Hv & NE & L).
  destruct (angle_min (-1) v k (others k v k)) as (w & Iw & Hw).
  - apply others_ne; auto.
  - intros s Hs. apply in_others in Hs. rewrite C_swap, <- C_rot. assert (0 < C k v s) by (apply L; try tauto; lia). lra.
  - intros s t Hs Ht N. apply in_others in Hs. apply in_others in Ht. apply (C_neq k); try tauto; lia.
  - apply in_others in Iw. exists w. repeat split; try tauto; try lia; try (intros ->; tauto). intros s Hs Nv Nw.
    apply Hw; auto. apply in_others. repeat split; auto. lia.
Qed.

(** What happens at a corner with edges (u, v) and (v, w). *)
Lemma corner : forall k u v w, (3 <= k)%nat -> (S k <= n)%nat -> hedge k u v -> hedge k v w ->
  C u v k <> 0 /\ C v w k <> 0 /\
  (hedge (S k) v k <-> C v w k < 0 /\ 0 < C u v k) /\ (hedge (S k) k v <-> 0 < C v w k /\ C u v k < 0).
Proof.
  intros k u v w K3 Kn HU HW. assert (HU' := HU). assert (HW' := HW).
  destruct HU' as (Hu & Hv & N1 & L1). destruct HW' as (_ & Hw & N2 & L2).
  assert (NW : u <> w).
  { intros <-. destruct (others k u v) as [|s l] eqn:E; [destruct (others_ne k u v K3 E)|].
    assert (I : In s (others k u v)) by (rewrite E; simpl; auto). apply in_others in I.
    assert (A := L1 s ltac:(tauto) ltac:(tauto) ltac:(tauto)). assert (B := L2 s ltac:(tauto) ltac:(tauto) ltac:(tauto)). rewrite C_swap0 in B. lra. }
  assert (D1 : C u v k <> 0) by (apply GP; lia). assert (D2 : C v w k <> 0) by (apply GP; lia).
  assert (W : 0 < C v w u) by (apply L2; auto).
  assert (CONE : forall x s, (s < k)%nat -> s <> v -> 0 < C v x w -> 0 < C v x u -> 0 < C v x s).
  { intros x s Hs Ns X1 X2. destruct (Nat.eq_dec s u) as [->|Nu]; auto. destruct (Nat.eq_dec s w) as [->|Nw]; auto.
    assert (A := L1 s Hs Nu Ns). rewrite C_rot in A. assert (B := L2 s Hs Ns Nw).
    assert (PL : C v w u * C v x s = C v x u * C v w s + C v x w * C v s u) by (unfold C, cr; ring).
    apply (Rmult_lt_reg_l (C v w u)); auto. rewrite Rmult_0_r, PL. apply Rplus_lt_0_compat; apply Rmult_lt_0_compat; auto. }
  assert (CONE' : forall x s, (s < k)%nat -> s <> v -> 0 < C x v w -> 0 < C x v u -> 0 < C x v s).
  { intros x s Hs Ns X1 X2. destruct (Nat.eq_dec s u) as [->|Nu]; auto. destruct (Nat.eq_dec s w) as [->|Nw]; auto.
    assert (A := L1 s Hs Nu Ns). rewrite C_rot in A. assert (B := L2 s Hs Ns Nw).
    assert (PL : C v w u * C x v s = C x v u * C v w s + C x v w * C v s u) by (unfold C, cr; ring).
    apply (Rmult_lt_reg_l (C v w u)); auto. rewrite Rmult_0_r, PL. apply Rplus_lt_0_compat; apply Rmult_lt_0_compat; auto. }
  assert (E1 : C v k w = - C v w k) by apply C_swap. assert (E2 : C v k u = C u v k) by (unfold C, cr; ring).
  assert (E3 : C k v w = C v w k) by apply C_rot. assert (E4 : C k v u = - C u v k) by (unfold C, cr; ring).
  split; auto. split; auto. split; split.
  - intros (_ & _ & _ & L). assert (A := L w ltac:(lia) ltac:(auto) ltac:(lia)). assert (B := L u ltac:(lia) ltac:(auto) ltac:(lia)). lra.
  - intros [A B]. repeat split; try lia. intros s Hs Nv Nk. apply CONE; try lia; lra.
  - intros (_ & _ & _ & L). assert (A := L w ltac:(lia) ltac:(lia) ltac:(auto)). assert (B := L u ltac:(lia) ltac:(lia) ltac:(auto)). lra.
  - intros [A B]. repeat split; try lia. intros s Hs Nk Nv. apply CONE'; try lia; lra.
Qed.

(** ** Sums over the edges *)
Definition hsum (k : nat) (f : nat -> nat -> R) : R := rsum k (fun a => rsum k (fun b => if hb k a b then f a b else 0)).

Lemma rsum_only : forall k f i, (i < k)%nat -> (forall j, (j < k)%nat -> j <> i -> f j = 0) -> rsum k f = f i.
Proof.
  intros k f i Hi H. rewrite <- (rsum_delta k f i Hi). apply rsum_ext. intros j Hj. destruct (Nat.eqb_spec j i) as [->|N]; [ring|].
  rewrite H by auto. ring.
Qed.
Lemma rsum_none : forall k f, (forall j, (j < k)%nat -> f j = 0) -> rsum k f = 0.
Proof. intros k f H. rewrite (rsum_ext k f (fun _ => 0)); auto. apply rsum_zero'. Qed.

Definition ind (b : bool) : R := if b then 1 else 0.
Definition visb (k a b : nat) : bool := if Rlt_dec (C a b k) 0 then true else false.

(** The sum of the terms of a point, over the visible edges that leave it and those that arrive. *)
Lemma corner_sum : forall k v, (3 <= k)%nat -> (S k <= n)%nat -> (v < k)%nat ->
  rsum k (fun b => ind (hb k v b && visb k v b)) - rsum k (fun a => ind (hb k a v && visb k a v)) = ind (hb (S k) v k) - ind (hb (S k) k v).
Proof.
  intros k v K3 Kn Hv.
  destruct (existsb (fun w => hb k v w) (seq 0 k)) eqn:E.
  - apply existsb_exists in E. destruct E as (w & _ & HW). apply hb_spec in HW. destruct (out_in k v w K3 ltac:(lia) HW) as (u & HU).
    destruct (corner k u v w K3 Kn HU HW) as (D1 & D2 & I1 & I2).
    rewrite (rsum_only k (fun b => ind (hb k v b && visb k v b)) w).
    2:{ apply HW. } 2:{ intros j Hj Nj. destruct (hb k v j) eqn:B; auto. apply hb_spec in B. exfalso. apply Nj. eapply out_unique; eauto. }
    rewrite (rsum_only k (fun a => ind (hb k a v && visb k a v)) u).
    2:{ apply HU. } 2:{ intros j Hj Nj. destruct (hb k j v) eqn:B; auto. apply hb_spec in B. exfalso. apply Nj. eapply in_unique; eauto. }
    rewrite (proj2 (hb_spec k v w) HW), (proj2 (hb_spec k u v) HU). cbn [andb]. unfold visb.
    destruct (hb (S k) v k) eqn:B1; [apply hb_spec in B1|assert (N1 : ~ hedge (S k) v k) by (intros X; apply hb_spec in X; congruence)];
    (destruct (hb (S k) k v) eqn:B2; [apply hb_spec in B2|assert (N2 : ~ hedge (S k) k v) by (intros X; apply hb_spec in X; congruence)]);
    rewrite ?I1, ?I2 in *; destruct (Rlt_dec (C v w k) 0), (Rlt_dec (C u v k) 0); unfold ind; try lra; exfalso; lra.
  - assert (NO : forall w, ~ hedge k v w).
    { intros w HW. assert (H := HW). destruct H as (_ & Hw & _). apply hb_spec in HW.
      assert (X : existsb (fun w => hb k v w) (seq 0 k) = true) by (apply existsb_exists; exists w; split; auto; apply in_seq; lia). congruence. }
    rewrite !rsum_none.
    + destruct (hb (S k) v k) eqn:B1; [apply hb_spec in B1; destruct (new_out k v K3 Kn B1) as (w & HW); destruct (NO w HW)|].
      destruct (hb (S k) k v) eqn:B2; [apply hb_spec in B2; destruct (new_in k v K3 Kn B2) as (w & HW); destruct (NO w HW)|]. lra.
    + intros j Hj. destruct (hb k j v) eqn:B; auto. apply hb_spec in B. destruct (in_out k j v K3 ltac:(lia) B) as (w & HW). destruct (NO w HW).
    + intros j Hj. destruct (hb k v j) eqn:B; auto. apply hb_spec in B. destruct (NO j B).
Qed.

Let det (a b : nat) : R := det2 (pts a) (pts b).

(** Twice the area of the hull grows by the triangles over the visible edges. *)
Theorem hsum_step : forall k, (3 <= k)%nat -> (S k <= n)%nat ->
  hsum (S k) det = hsum k det + hsum k (fun a b => if visb k a b then C a k b else 0).
Proof.
  intros k K3 Kn. unfold hsum at 1. cbn [rsum]. rewrite (rsum_plus k).
  assert (B0 : hb (S k) k k = false) by (unfold hb; rewrite Nat.eqb_refl; cbn; rewrite andb_false_r; reflexivity).
  rewrite B0, Rplus_0_r.
  rewrite (rsum_ext k (fun i => rsum k (fun b => if hb (S k) i b then det i b else 0))
             (fun i => rsum k (fun b => (if hb k i b then det i b else 0) - ind (hb k i b && visb k i b) * det i b))).
  2:{ intros a Ha. apply rsum_ext. intros b Hb. assert (HO := hedge_old k a b Ha Hb). rewrite <- !hb_spec in HO.
      unfold visb. destruct (hb k a b) eqn:B.
      - apply hb_spec in B. destruct B as (_ & _ & NE & _). assert (D : C a b k <> 0) by (apply GP; lia).
        destruct (Rlt_dec (C a b k) 0) as [P|P]; cbn [andb ind].
        + destruct (hb (S k) a b); [destruct (proj1 HO eq_refl); lra|ring].
        + rewrite (proj2 HO) by (split; auto; lra). ring.
      - destruct (hb (S k) a b); [destruct (proj1 HO eq_refl); discriminate|]. cbn [andb ind]. ring. }
  rewrite (rsum_ext k _ (fun i => rsum k (fun b => if hb k i b then det i b else 0) - rsum k (fun b => ind (hb k i b && visb k i b) * det i b)))
    by (intros; apply rsum_minus).
  rewrite rsum_minus. fold (hsum k det).
  assert (T : hsum k (fun a b => if visb k a b then C a k b else 0) =
    rsum k (fun v => (rsum k (fun b => ind (hb k v b && visb k v b)) - rsum k (fun a => ind (hb k a v && visb k a v))) * det v k)
    - rsum k (fun a => rsum k (fun b => ind (hb k a b && visb k a b) * det a b))).
  { unfold hsum. rewrite (rsum_ext k _ (fun a => rsum k (fun b => ind (hb k a b && visb k a b) * det a k) - rsum k (fun b => ind (hb k a b && visb k a b) * det b k)
                                          - rsum k (fun b => ind (hb k a b && visb k a b) * det a b))).
    2:{ intros a Ha. rewrite <- !rsum_minus. apply rsum_ext. intros b Hb. destruct (hb k a b); cbn [andb]; [|unfold ind; ring].
        destruct (visb k a b); unfold ind; [|ring]. unfold C, det, cr, det2. ring. }
    rewrite !rsum_minus. f_equal. rewrite (rsum_swap k k (fun a b => ind (hb k a b && visb k a b) * det b k)), <- rsum_minus.
    apply rsum_ext. intros v Hv. rewrite !rsum_scal_r. ring. }
  rewrite T. rewrite (rsum_ext k (fun v => (rsum k (fun b => ind (hb k v b && visb k v b)) - rsum k (fun a => ind (hb k a v && visb k a v))) * det v k)
    (fun v => (if hb (S k) v k then det v k else 0) + (if hb (S k) k v then det k v else 0))).
  2:{ intros v Hv. rewrite corner_sum by auto. destruct (hb (S k) v k), (hb (S k) k v); unfold ind, det, det2; ring. }
  rewrite rsum_plus. ring.
Qed.

(** ** Sums over lists of edges *)
Fixpoint lsum (f : nat -> nat -> R) (l : list (nat * nat)) : R :=
  match l with [] => 0 | (a, b) :: l' => f a b + lsum f l' end.

Definition inb (a b : nat) (l : list (nat * nat)) : bool := existsb (fun p => (fst p =? a)%nat && (snd p =? b)%nat) l.
Lemma inb_spec : forall a b l, inb a b l = true <-> In (a, b) l.
Proof.
  intros a b l. unfold inb. rewrite existsb_exists. split.
  - intros ((x & y) & H & E). apply andb_prop in E. destruct E as [E1 E2]. apply Nat.eqb_eq in E1, E2. cbn in E1, E2. subst. auto.
  - intros H. exists (a, b). cbn. rewrite !Nat.eqb_refl. auto.
Qed.

Lemma lsum_rsum : forall k f l, NoDup l -> (forall a b, In (a, b) l -> (a < k)%nat /\ (b < k)%nat) ->
  lsum f l = rsum k (fun a => rsum k (fun b => if inb a b l then f a b else 0)).
Proof.
  intros k f l. induction l as [|(x, y) l IH]; intros ND B.
  - symmetry. apply rsum_none. intros a Ha. apply rsum_none. reflexivity.
  - apply NoDup_cons_iff in ND. destruct ND as [NI ND]. cbn [lsum]. rewrite IH; auto; [|intros; apply B; simpl; auto].
    destruct (B x y (or_introl eq_refl)) as [Hx Hy].
    assert (D : f x y = rsum k (fun a => rsum k (fun b => if (x =? a)%nat && (y =? b)%nat then f a b else 0))).
    { rewrite (rsum_only k _ x); auto.
      - rewrite (rsum_only k _ y); auto; [rewrite !Nat.eqb_refl; reflexivity|]. intros j Hj N. destruct (Nat.eqb_spec y j); [lia|]. rewrite andb_false_r. reflexivity.
      - intros j Hj N. apply rsum_none. intros i Hi. destruct (Nat.eqb_spec x j); [lia|reflexivity]. }
    rewrite D, <- rsum_plus. apply rsum_ext. intros a Ha. rewrite <- rsum_plus. apply rsum_ext. intros b Hb.
    unfold inb. cbn [existsb fst snd]. fold (inb a b l). destruct (Nat.eqb_spec x a) as [->|]; [|cbn; ring]. destruct (Nat.eqb_spec y b) as [->|]; [|cbn; ring].
    cbn [andb orb]. destruct (inb a b l) eqn:E; [apply inb_spec in E; contradiction|ring].
Qed.

Lemma rsum_le : forall k f g, (forall i, (i < k)%nat -> f i <= g i) -> rsum k f <= rsum k g.
Proof. induction k; intros f g H; cbn [rsum]; [lra|]. apply Rplus_le_compat; auto. Qed.

Lemma lsum_ge : forall k f l, NoDup l -> (forall a b, In (a, b) l -> (a < k)%nat /\ (b < k)%nat) ->
  (forall a b, hedge k a b -> In (a, b) l) -> (forall a b, In (a, b) l -> 0 <= f a b) -> hsum k f <= lsum f l.
Proof.
  intros k f l ND B H P. rewrite (lsum_rsum k); auto. unfold hsum. apply rsum_le. intros a Ha. apply rsum_le. intros b Hb.
  destruct (hb k a b) eqn:E.
  - apply hb_spec in E. rewrite (proj2 (inb_spec a b l)) by auto. lra.
  - destruct (inb a b l) eqn:I; [apply P, inb_spec; auto|lra].
Qed.

Lemma lsum_eq : forall k f l, NoDup l -> (forall a b, hedge k a b <-> In (a, b) l) -> hsum k f = lsum f l.
Proof.
  intros k f l ND H. rewrite (lsum_rsum k); auto.
  - unfold hsum. apply rsum_ext. intros a Ha. apply rsum_ext. intros b Hb.
    destruct (hb k a b) eqn:E, (inb a b l) eqn:I; auto.
    + apply hb_spec, H, inb_spec in E. congruence.
    + apply inb_spec, H, hb_spec in I. congruence.
  - intros a b I. apply H in I. destruct I as (A & A' & _). auto.
Qed.

(** ** The hull as a polygon *)
Lemma chain_rsum : forall l, chain_sum l = rsum (length l - 1) (fun i => det2 (nthp l i) (nthp l (S i))).
Proof.
  induction l as [|p [|q l] IH]; auto. change (chain_sum (p :: q :: l)) with (det2 p q + chain_sum (q :: l)). rewrite IH. cbn [length]. replace (S (S (length l)) - 1)%nat with (S (length l)) by lia.
  rewrite rsum_shift. replace (S (length l) - 1)%nat with (length l) by lia. reflexivity.
Qed.

Lemma shoelace_rsum : forall P, shoelace P = rsum (length P) (fun i => det2 (nthp P i) (nthp P (S i mod length P))).
Proof.
  intros [|p P]; auto. unfold shoelace. rewrite chain_rsum, app_length. cbn [length]. replace (S (length P) + 1 - 1)%nat with (S (length P)) by lia.
  apply rsum_ext. intros i Hi. unfold nthp. rewrite app_nth1 by (cbn; lia). f_equal.
  destruct (Nat.eq_dec i (length P)) as [->|N].
  - rewrite Nat.mod_same by lia. rewrite app_nth2 by (cbn; lia). cbn [length]. rewrite Nat.sub_diag. reflexivity.
  - rewrite Nat.mod_small by lia. rewrite app_nth1 by (cbn; lia). reflexivity.
Qed.

Lemma lsum_seq : forall f (g h : nat -> nat) k, lsum f (map (fun i => (g i, h i)) (seq 0 k)) = rsum k (fun i => f (g i) (h i)).
Proof.
  intros f g h k. induction k as [|k IH]; auto. rewrite seq_S, map_app. cbn [rsum map plus]. rewrite <- IH. clear.
  induction (map (fun i => (g i, h i)) (seq 0 k)) as [|(a, b) l IH]; cbn [app lsum]; [ring|]. rewrite IH. ring.
Qed.

Lemma NoDup_map_seq : forall (g : nat -> nat) k, (forall i j, (i < k)%nat -> (j < k)%nat -> g i = g j -> i = j) -> NoDup (map g (seq 0 k)).
Proof.
  intros g. induction k as [|k IH]; intros H; [constructor|]. rewrite seq_S, map_app. cbn [map plus].
  apply (Permutation_NoDup (Permutation_cons_append _ _)). constructor; [|apply IH; auto].
  intros I. apply in_map_iff in I. destruct I as (i & E & Hi). apply in_seq in Hi. apply H in E; lia.
Qed.

Theorem hull_hsum : forall P, (forall i j, (i < n)%nat -> (j < n)%nat -> pts i = pts j -> i = j) -> (3 <= n)%nat -> (2 <= length P)%nat ->
  is_hull P (map pts (seq 0 n)) -> hsum n det = shoelace P.
Proof.
  intros P INJ N3 LP (_ & ND & IN & LF). set (m := length P) in *.
  destruct (ranks_exist (map pts (seq 0 n)) P IN) as (rs & LR & HR). set (r := fun i => nth i rs 0%nat). set (nx := fun i => Nat.modulo (S i) m).
  assert (RK : forall i, (i < m)%nat -> (r i < n)%nat /\ nthp P i = pts (r i)).
  { intros i Hi. destruct (HR i Hi) as [A B]. rewrite map_length, seq_length in A. split; auto. unfold nthp at 1. rewrite B. unfold nthp.
    rewrite nth_indep with (d' := pts 0%nat) by (rewrite map_length, seq_length; auto). rewrite map_nth, seq_nth by auto. reflexivity. }
  assert (RI : forall i j, (i < m)%nat -> (j < m)%nat -> r i = r j -> i = j).
  { intros i j Hi Hj E. apply (pp_inj P ND); auto. rewrite (proj2 (RK i Hi)), (proj2 (RK j Hj)), E. reflexivity. }
  assert (NX : forall i, (i < m)%nat -> (nx i < m)%nat) by (intros; unfold nx; apply Nat.mod_upper_bound; lia).
  assert (NN : forall i, (i < m)%nat -> nx i <> i).
  { intros i Hi. unfold nx. destruct (Nat.eq_dec (S i) m) as [E|E]; [rewrite E, Nat.mod_same by lia; lia|rewrite Nat.mod_small by lia; lia]. }
  assert (ED : forall i, (i < m)%nat -> hedge n (r i) (r (nx i))).
  { intros i Hi. destruct (RK i Hi) as [A1 A2]. destruct (RK _ (NX i Hi)) as [B1 B2]. assert (NE : r i <> r (nx i)) by (intros E; apply RI in E; auto; destruct (NN i Hi); auto).
    repeat split; auto. intros s Hs Na Nb. assert (X := LF (pts s) (in_map pts _ _ (proj2 (in_seq n 0 s) ltac:(lia))) i Hi).
    fold m in X. fold (nx i) in X. rewrite A2, B2 in X. assert (D : C (r i) (r (nx i)) s <> 0) by (apply GP; auto). unfold C in *. lra. }
  rewrite shoelace_rsum. fold m. rewrite (rsum_ext m _ (fun i => det (r i) (r (nx i)))).
  2:{ intros i Hi. fold (nx i). rewrite (proj2 (RK i Hi)), (proj2 (RK _ (NX i Hi))). reflexivity. }
  rewrite <- (lsum_seq det r (fun i => r (nx i)) m). apply lsum_eq.
  - apply (NoDup_map_inv fst). rewrite map_map. cbn [fst]. apply NoDup_map_seq. auto.
  - intros a b. split.
    + intros HE. assert (HE' := HE). destruct HE' as (Ha & Hb & NE & L).
      assert (PREV : forall i, (i < m)%nat -> exists j, (j < m)%nat /\ nx j = i).
      { intros [|i] Hi; [exists (m - 1)%nat|exists i]; split; try lia; unfold nx; [replace (S (m - 1)) with m by lia; apply Nat.mod_same; lia|apply Nat.mod_small; lia]. }
      destruct (in_dec Nat.eq_dec a (map r (seq 0 m))) as [Ia|Na].
      * apply in_map_iff in Ia. destruct Ia as (i & <- & Ii). apply in_seq in Ii. apply in_map_iff. exists i. split; [|apply in_seq; lia].
        f_equal. apply (out_unique n (r i)); auto. apply ED. lia.
      * exfalso. assert (NA : forall i, (i < m)%nat -> r i <> a).
        { intros i Hi E. apply Na. rewrite <- E. apply in_map, in_seq. lia. }
        assert (ST : forall i, (i < m)%nat -> 0 < C a (r i) (r (nx i))).
        { intros i Hi. rewrite C_rot. assert (X := ED i Hi). destruct X as (_ & _ & _ & X). apply X; auto; intros E; symmetry in E; apply NA in E; auto. }
        destruct (in_dec Nat.eq_dec b (map r (seq 0 m))) as [Ib|Nb].
        -- apply in_map_iff in Ib. destruct Ib as (i & <- & Ii). apply in_seq in Ii. destruct (PREV i ltac:(lia)) as (j & Hj & E).
           assert (X := ST j Hj). rewrite E, C_swap in X. assert (Y := L (r j) ltac:(apply RK; auto) (NA j Hj)).
           assert (r j <> r i) by (intros Q; apply RI in Q; try lia; subst j; destruct (NN i ltac:(lia)); auto). specialize (Y H). lra.
        -- destruct (angle_min 1 a b (map r (seq 0 m))) as (x & Ix & Hx).
           ++ destruct m; [lia|discriminate].
           ++ intros s Hs. apply in_map_iff in Hs. destruct Hs as (i & <- & Hi). apply in_seq in Hi. rewrite Rmult_1_l. apply L; [apply RK; lia|apply NA; lia|].
              intros E. apply Nb. rewrite <- E. apply in_map, in_seq. lia.
           ++ intros s t Hs Ht N. apply in_map_iff in Hs. destruct Hs as (i & <- & Hi). apply in_seq in Hi. apply in_map_iff in Ht. destruct Ht as (j & <- & Hj). apply in_seq in Hj.
              apply (C_neq n); auto; try (apply RK; lia); apply NA; lia.
           ++ apply in_map_iff in Ix. destruct Ix as (i & <- & Ii). apply in_seq in Ii. destruct (PREV i ltac:(lia)) as (j & Hj & E).
              assert (X := ST j Hj). rewrite E, C_swap in X.
              assert (r j <> r i) by (intros Q; apply RI in Q; try lia; subst j; destruct (NN i ltac:(lia)); auto).
              assert (Y := Hx (r j) ltac:(apply in_map, in_seq; lia) H). lra.
    + intros H. apply in_map_iff in H. destruct H as (i & E & Hi). apply in_seq in Hi. injection E as <- <-. apply ED. lia.
Qed.

End Edges.

(** ** Sorted sets *)
Lemma lexb_trans : forall a b c, lexb a b = true -> lexb b c = true -> lexb a c = true.
Proof.
  induction a as [|x a IH]; intros [|y b] [|z c] H1 H2; cbn in *; try discriminate; auto.
  apply orb_prop in H1, H2. apply orb_true_iff. destruct H1 as [H1|H1], H2 as [H2|H2]; try (apply andb_prop in H1; destruct H1 as [H1 H1']; apply Nat.eqb_eq in H1; subst);
    try (apply andb_prop in H2; destruct H2 as [H2 H2']; apply Nat.eqb_eq in H2; subst); auto.
  - left. apply Nat.ltb_lt in H1, H2. apply Nat.ltb_lt. lia.
  - right. rewrite Nat.eqb_refl. cbn. eauto.
Qed.
Lemma lexb_irrefl : forall a, lexb a a = false.
Proof. induction a as [|x a IH]; auto. cbn [lexb]. rewrite Nat.ltb_irrefl, IH, Nat.eqb_refl. reflexivity. Qed.
Lemma lexb_total : forall a b, lexb a b = false -> eqlb a b = false -> lexb b a = true.
Proof.
  induction a as [|x a IH]; intros [|y b] H1 H2; cbn in *; try discriminate; auto.
  apply orb_false_iff in H1. destruct H1 as [H1 H1']. apply Nat.ltb_ge in H1. apply orb_true_iff.
  destruct (Nat.eqb_spec x y) as [->|N]; cbn in *; [right; rewrite Nat.eqb_refl; cbn; auto|left; apply Nat.ltb_lt; lia].
Qed.

Notation sorted := (StronglySorted (fun x y : list nat => lexb x y = true)).

Lemma set_insert_iff : forall x s y, In y (set_insert x s) <-> y = x \/ In y s.
Proof.
  intros x s y. split; [apply set_insert_in|]. intros H. induction s as [|z s IH]; cbn [set_insert]; [simpl; intuition|].
  destruct (lexb x z); [simpl in *; intuition|]. destruct (eqlb x z) eqn:E; [apply eqlb_eq in E; subst; simpl in *; intuition|].
  simpl in *. intuition.
Qed.

Lemma set_insert_sorted : forall x s, sorted s -> sorted (set_insert x s).
Proof.
  intros x s H. induction H as [|y s H IH F]; cbn [set_insert]; [repeat constructor|].
  destruct (lexb x y) eqn:L.
  - constructor; [constructor; auto|]. constructor; auto. rewrite Forall_forall in *. intros z Hz. eapply lexb_trans; eauto.
  - destruct (eqlb x y) eqn:E; [constructor; auto|]. constructor; auto. rewrite Forall_forall in *. intros z Hz.
    apply set_insert_in in Hz. destruct Hz as [->|Hz]; auto. apply lexb_total; auto.
Qed.

Lemma sorted_filter : forall f s, sorted s -> sorted (filter f s).
Proof.
  intros f s H. induction H as [|y s H IH F]; cbn [filter]; [constructor|]. destruct (f y); auto. constructor; auto.
  rewrite Forall_forall in *. intros z Hz. apply filter_In in Hz. apply F, Hz.
Qed.

Lemma sorted_NoDup : forall s, sorted s -> NoDup s.
Proof.
  intros s H. induction H as [|y s H IH F]; constructor; auto. intros I. rewrite Forall_forall in F. specialize (F y I).
  rewrite lexb_irrefl in F. discriminate.
Qed.

Lemma inserts_sorted : forall l s, sorted s -> sorted (fold_left (fun es e => set_insert e es) l s).
Proof. induction l as [|x l IH]; intros s H; cbn [fold_left]; auto. apply IH, set_insert_sorted; auto. Qed.
Lemma inserts_iff : forall l s y, In y (fold_left (fun es e => set_insert e es) l s) <-> In y l \/ In y s.
Proof.
  induction l as [|x l IH]; intros s y; cbn [fold_left]; [simpl; tauto|]. rewrite IH, set_insert_iff. simpl. intuition.
Qed.

(** ** The insertion of points in general position *)
Section Code.
Variable pts : nat -> point.
Variable n : nat.
Hypothesis GE : forall i j k, (i < n)%nat -> (j < n)%nat -> (k < n)%nat -> i <> j -> i <> k -> j <> k -> epsR < Rabs (cr (pts i) (pts j) (pts k)).

Lemma GP : forall i j k, (i < n)%nat -> (j < n)%nat -> (k < n)%nat -> i <> j -> i <> k -> j <> k -> cr (pts i) (pts j) (pts k) <> 0.
Proof. intros i j k Hi Hj Hk A B D E. assert (Q := GE i j k Hi Hj Hk A B D). rewrite E, Rabs_R0 in Q. pose proof eps_pos. lra. Qed.

Definition dt (a b : nat) : R := det2 (pts a) (pts b).
Definition Cr (a b c : nat) : R := cr (pts a) (pts b) (pts c).
Definition hp (s : trR) : Prop := forall i, (i < n)%nat -> tr_pt s i = pts i.

Record ginv (s : trR) (k : nat) : Prop := mkGinv {
  g_pts : hp s;
  g_sort : sorted (tr_edges s);
  g_form : forall e, In e (tr_edges s) -> exists a b, e = [a; b] /\ (a < k)%nat /\ (b < k)%nat /\ a <> b;
  g_hull : forall a b, hedge pts k a b -> In [a; b] (tr_edges s);
  g_tri : forall t, In t (tr_tris s) -> (nth 1 t 0 < k)%nat;
  g_sum : hsum pts k dt <= tsum s (tr_tris s);
  g_oob : tr_size s = n -> tr_oob s = false }.

Lemma vis_eq : forall s k a b, hp s -> (a < k)%nat -> (b < k)%nat -> (k < n)%nat -> a <> b -> tr_visible s k [a; b] = visb pts k a b.
Proof.
  intros s k a b H Ha Hb Hk N. unfold tr_visible, visb, tr_area3. cbn [ends nth fst snd]. rewrite !H by lia. rewrite cross_R.
  change (nopp (tr_eps (T := R))) with (- epsR). change (@nlt R NumR) with Rltb.
  assert (E : cr (pts k) (pts a) (pts b) = cr (pts a) (pts b) (pts k)) by (unfold cr; ring). rewrite E.
  assert (Q := GE a b k ltac:(lia) ltac:(lia) Hk N ltac:(lia) ltac:(lia)). pose proof eps_pos. unfold Rabs in Q.
  destruct (Rlt_dec (cr (pts a) (pts b) (pts k)) 0) as [L|L].
  - apply Rltb_true. destruct (Rcase_abs (cr (pts a) (pts b) (pts k))); lra.
  - apply Rltb_false. lra.
Qed.

Lemma fold_tris : forall s k es T, hp s -> (k < n)%nat -> NoDup es ->
  (forall e, In e es -> exists a b, e = [a; b] /\ (a < k)%nat /\ (b < k)%nat) -> (forall e, In e es -> ~ In [fst (ends e); k; snd (ends e)] T) ->
  tsum s (fold_left (fun t e => set_insert [fst (ends e); k; snd (ends e)] t) es T) = tsum s T + lsum (fun a b => Cr a k b) (map ends es).
Proof.
  intros s k es. induction es as [|e es IH]; intros T H Hk ND F NI; cbn [fold_left map lsum]; [ring|].
  apply NoDup_cons_iff in ND. destruct ND as [N1 ND]. destruct (F e (or_introl eq_refl)) as (a & b & -> & Ha & Hb). cbn [ends nth fst snd].
  rewrite IH; auto.
  - assert (X := NI _ (or_introl eq_refl)). cbn [ends nth fst snd] in X. rewrite (tsum_perm s _ _ (set_insert_new _ _ X)). cbn [tsum]. unfold tcr, tr_area3. cbn [nth]. rewrite !H by lia.
    rewrite cross_R. unfold Cr. ring.
  - intros; apply F; simpl; auto.
  - intros e He I. apply set_insert_in in I. destruct I as [E|I]; [|apply (NI e); simpl; auto].
    destruct (F e (or_intror He)) as (c & d & -> & _ & _). cbn [ends nth fst snd] in E. injection E as -> ->. contradiction.
Qed.

Lemma lsum_filter : forall s k es f, (forall e, In e es -> tr_visible s k e = visb pts k (fst (ends e)) (snd (ends e))) ->
  lsum f (map ends (filter (tr_visible s k) es)) = lsum (fun a b => if visb pts k a b then f a b else 0) (map ends es).
Proof.
  intros s k es f. induction es as [|e es IH]; intros H; auto. cbn [filter map lsum]. rewrite (H e (or_introl eq_refl)).
  assert (IH' := IH (fun x Hx => H x (or_intror Hx))). destruct (ends e) as [a b] eqn:E. cbn [fst snd]. destruct (visb pts k a b); cbn [map lsum]; [rewrite E|]; cbn [lsum]; rewrite IH'; ring.
Qed.

Lemma ends_list : forall k es, (forall e, In e es -> exists a b, e = [a; b] /\ (a < k)%nat /\ (b < k)%nat /\ a <> b) ->
  es = map (fun p => [fst p; snd p]) (map ends es).
Proof.
  intros k es H. rewrite map_map. rewrite <- (map_id es) at 1. apply map_ext_in. intros e He. destruct (H e He) as (a & b & -> & _). reflexivity.
Qed.

Lemma ends_in : forall k es a b, (forall e, In e es -> exists a b, e = [a; b] /\ (a < k)%nat /\ (b < k)%nat /\ a <> b) ->
  In (a, b) (map ends es) <-> In [a; b] es.
Proof.
  intros k es a b H. split.
  - intros I. apply in_map_iff in I. destruct I as (e & E & I). destruct (H e I) as (c & d & -> & _). cbn in E. injection E as -> ->. auto.
  - intros I. apply (in_map ends) in I. exact I.
Qed.

Lemma add_sum : forall s k, ginv s k -> (k < n)%nat ->
  tsum (tr_addPoint s k) (tr_tris (tr_addPoint s k)) = tsum s (tr_tris s) + lsum (fun a b => if visb pts k a b then Cr a k b else 0) (map ends (tr_edges s)).
Proof.
  intros s k [HP HS HF HH HT HG HO] Hk. rewrite (tsum_mem s (tr_addPoint s k)) by (repeat split). cbn [tr_tris tr_addPoint].
  assert (V : forall e, In e (tr_edges s) -> tr_visible s k e = visb pts k (fst (ends e)) (snd (ends e))).
  { intros e He. destruct (HF e He) as (a & b & -> & Ha & Hb & N). apply vis_eq; auto. }
  rewrite <- (lsum_filter s k _ _ V). apply fold_tris; auto.
  - apply NoDup_filter, sorted_NoDup; auto.
  - intros e He. apply filter_In in He. destruct (HF e (proj1 He)) as (a & b & E & Ha & Hb & _). eauto.
  - intros e He I. apply HT in I. cbn in I. lia.
Qed.

Lemma out_in' : forall (s : trR) k, hp s -> tr_size s = n -> (k < n)%nat -> (forall e, In e (tr_edges s) -> exists a b, e = [a; b] /\ (a < k)%nat /\ (b < k)%nat /\ a <> b) ->
  tr_out s (k :: concat (tr_edges s)) = false.
Proof.
  intros s k HP Hn Hk HF. apply out_false. rewrite Hn. intros i [<-|Hi]; auto. apply in_concat in Hi. destruct Hi as (e & He & Hi).
  destruct (HF e He) as (a & b & -> & Ha & Hb & _). destruct Hi as [<-|[<-|[]]]; lia.
Qed.

Lemma step_dt : forall k, (3 <= k)%nat -> (S k <= n)%nat ->
  hsum pts (S k) dt = hsum pts k dt + hsum pts k (fun a b => if visb pts k a b then Cr a k b else 0).
Proof. exact (hsum_step pts n GP). Qed.

Lemma addPoint_ginv : forall s k, ginv s k -> (3 <= k)%nat -> (k < n)%nat -> ginv (tr_addPoint s k) (S k).
Proof.
  intros s k G K3 Hk. assert (SUM := add_sum s k G Hk). destruct G as [HP HS HF HH HT HG HO].
  assert (V : forall a b, In [a; b] (tr_edges s) -> tr_visible s k [a; b] = visb pts k a b).
  { intros a b He. destruct (HF _ He) as (c & d & E & Ha & Hb & N). injection E as <- <-. apply vis_eq; auto. }
  constructor.
  - exact HP.
  - cbn [tr_edges tr_addPoint]. apply inserts_sorted, sorted_filter; auto.
  - cbn [tr_edges tr_addPoint]. intros e He. apply inserts_iff in He. destruct He as [He|He].
    + apply in_flat_map in He. destruct He as (x & Hx & He). apply filter_In in Hx. destruct (HF x (proj1 Hx)) as (a & b & -> & Ha & Hb & N).
      cbn in He. destruct He as [<-|[<-|[]]]; eexists _, _; (split; [reflexivity|lia]).
    + apply filter_In in He. destruct (HF e (proj1 He)) as (a & b & -> & Ha & Hb & N). exists a, b. repeat split; auto.
  - cbn [tr_edges tr_addPoint]. intros a b HE. apply inserts_iff.
    assert (Ha := proj1 HE). assert (Hb := proj1 (proj2 HE)). assert (N := proj1 (proj2 (proj2 HE))).
    assert (ADD : forall c d, hedge pts k c d -> cr (pts c) (pts d) (pts k) < 0 ->
      In [c; k] (flat_map (fun e => [[fst (ends e); k]; [k; snd (ends e)]]) (filter (tr_visible s k) (tr_edges s))) /\
      In [k; d] (flat_map (fun e => [[fst (ends e); k]; [k; snd (ends e)]]) (filter (tr_visible s k) (tr_edges s)))).
    { intros c d Hcd L. assert (I : In [c; d] (filter (tr_visible s k) (tr_edges s))).
      { apply filter_In. split; auto. rewrite V by auto. unfold visb. destruct (Rlt_dec (cr (pts c) (pts d) (pts k)) 0); auto; contradiction. }
      split; apply in_flat_map; exists [c; d]; (split; [exact I|simpl; auto]). }
    destruct (Nat.eq_dec b k) as [->|Nb]; [|destruct (Nat.eq_dec a k) as [->|Na]].
    + left. destruct (new_out pts n GP k a K3 ltac:(lia) HE) as (w & W). destruct (out_in pts n GP k a w K3 ltac:(lia) W) as (u & U).
      destruct (corner pts n GP k u a w K3 ltac:(lia) U W) as (_ & _ & Q & _). apply Q in HE. apply (ADD a w); auto. apply HE.
    + left. destruct (new_in pts n GP k b K3 ltac:(lia) HE) as (w & W). destruct (out_in pts n GP k b w K3 ltac:(lia) W) as (u & U).
      destruct (corner pts n GP k u b w K3 ltac:(lia) U W) as (_ & _ & _ & Q). apply Q in HE. apply (ADD u b); auto. apply HE.
    + right. apply hedge_old in HE; try lia. destruct HE as [HE L]. apply filter_In. split; auto. rewrite V by auto. unfold visb.
      destruct (Rlt_dec (cr (pts a) (pts b) (pts k)) 0); auto; lra.
  - cbn [tr_tris tr_addPoint]. intros t It. revert It. generalize (filter (tr_visible s k) (tr_edges s)). intros l.
    assert (B : forall t, In t (tr_tris s) -> (nth 1 t 0 < S k)%nat) by (intros x Hx; specialize (HT x Hx); lia).
    revert B. generalize (tr_tris s). induction l as [|e l IH]; intros T B; cbn [fold_left]; auto.
    apply IH. intros x Hx. apply set_insert_in in Hx. destruct Hx as [->|Hx]; auto.
  - rewrite SUM. rewrite (step_dt k K3 ltac:(lia)). apply Rplus_le_compat; auto.
    apply lsum_ge.
    + apply (NoDup_map_inv (fun p => [fst p; snd p])). rewrite <- (ends_list k) by auto. apply sorted_NoDup; auto.
    + intros a b I. apply (ends_in k) in I; auto. destruct (HF _ I) as (c & d & E & Hc & Hd & _). injection E as -> ->. auto.
    + intros a b I. apply (ends_in k); auto.
    + intros a b I. unfold visb. destruct (Rlt_dec (cr (pts a) (pts b) (pts k)) 0); [|lra]. replace (Cr a k b) with (- cr (pts a) (pts b) (pts k)) by (unfold Cr, cr; ring). lra.
  - intros Hn. cbn [tr_oob tr_addPoint]. change (tr_size s = n) in Hn. rewrite HO by auto. cbn [orb]. destruct (tr_edges s) eqn:E; auto. rewrite <- E in *. apply out_in'; auto.
Qed.

(** While the edges are those of the hull only, the sum grows by exactly the growth of the hull. *)
Lemma addPoint_exact : forall s k, ginv s k -> (3 <= k)%nat -> (k < n)%nat -> (forall a b, In [a; b] (tr_edges s) -> hedge pts k a b) ->
  tsum s (tr_tris s) = hsum pts k dt ->
  tsum (tr_addPoint s k) (tr_tris (tr_addPoint s k)) = hsum pts (S k) dt.
Proof.
  intros s k G K3 Hk EX E. rewrite (add_sum s k G Hk), E. rewrite (step_dt k K3 ltac:(lia)). f_equal. symmetry.
  destruct G as [HP HS HF HH HT HG HO]. apply lsum_eq.
  - apply (NoDup_map_inv (fun p => [fst p; snd p])). rewrite <- (ends_list k) by auto. apply sorted_NoDup; auto.
  - intros a b. rewrite (ends_in k) by auto. split; auto.
Qed.

Lemma addPoints_ginv : forall j s k, ginv s k -> (3 <= k)%nat -> (k + j = n)%nat -> ginv (fold_left tr_addPoint (seq k j) s) n.
Proof.
  induction j as [|j IH]; intros s k G K3 E; cbn [seq fold_left].
  - replace n with k by lia. auto.
  - apply IH; try lia. apply addPoint_ginv; auto; lia.
Qed.

(** The first triangle. *)
Lemma tri_edges : forall j1 j2, (j1 = 1 /\ j2 = 2 \/ j1 = 2 /\ j2 = 1)%nat -> 0 < Cr 0 j1 j2 ->
  (forall a b, hedge pts 3 a b <-> In (a, b) [(0, j1); (j1, j2); (j2, 0)]%nat) /\ hsum pts 3 dt = Cr 0 j1 j2.
Proof.
  intros j1 j2 J P.
  assert (R1 : Cr j1 j2 0 = Cr 0 j1 j2) by (unfold Cr, cr; ring).
  assert (R2 : Cr j2 0 j1 = Cr 0 j1 j2) by (unfold Cr, cr; ring).
  assert (R3 : Cr j1 0 j2 = - Cr 0 j1 j2) by (unfold Cr, cr; ring).
  assert (R4 : Cr 0 j2 j1 = - Cr 0 j1 j2) by (unfold Cr, cr; ring).
  assert (R5 : Cr j2 j1 0 = - Cr 0 j1 j2) by (unfold Cr, cr; ring).
  assert (I : forall a b, hedge pts 3 a b <-> In (a, b) [(0, j1); (j1, j2); (j2, 0)]%nat).
  { intros a b. split.
    - intros (Ha & Hb & N & L).
      assert (A : (a = 0 \/ a = j1 \/ a = j2)%nat) by lia. assert (B : (b = 0 \/ b = j1 \/ b = j2)%nat) by lia.
      destruct A as [->|[->| ->]], B as [->|[->| ->]]; try contradiction; simpl; auto; exfalso.
      + specialize (L j1 ltac:(lia) ltac:(lia) ltac:(lia)). unfold Cr in *. lra.
      + specialize (L j2 ltac:(lia) ltac:(lia) ltac:(lia)). unfold Cr in *. lra.
      + specialize (L 0%nat ltac:(lia) ltac:(lia) ltac:(lia)). unfold Cr in *. lra.
    - intros [E|[E|[E|[]]]]; injection E as <- <-; (split; [lia|split; [lia|split; [lia|]]]); intros s Hs Na Nb.
      + assert (s = j2) by lia. subst s. exact P.
      + assert (s = 0)%nat by lia. subst s. fold (Cr j1 j2 0). lra.
      + assert (s = j1) by lia. subst s. fold (Cr j2 0 j1). lra. }
  split; auto. rewrite (lsum_eq pts 3 dt [(0, j1); (j1, j2); (j2, 0)]%nat); auto.
  - cbn [lsum]. unfold dt, Cr, det2, cr. ring.
  - repeat constructor; simpl; intros H; repeat (destruct H as [H|H]; [injection H; intros; lia|]); exact H.
Qed.

Lemma first_ginv : forall s, hp s -> (3 <= n)%nat -> tr_size s = n -> tr_edges s = [] -> tr_tris s = [] -> tr_oob s = false ->
  exists s', tr_makeFirst s = (s', 3%nat) /\ same_mem s s' /\ ginv s' 3 /\ (forall a b, In [a; b] (tr_edges s') -> hedge pts 3 a b) /\
    tsum s' (tr_tris s') = hsum pts 3 dt.
Proof.
  intros s HP N3 SZ HE HT HO. unfold tr_makeFirst. rewrite (proj2 (Nat.ltb_ge _ _)) by lia.
  assert (AE : tr_area3 s 0 1 2 = Cr 0 1 2) by (unfold tr_area3; rewrite !HP by lia; reflexivity).
  assert (Q := GE 0 1 2 ltac:(lia) ltac:(lia) ltac:(lia) ltac:(lia) ltac:(lia) ltac:(lia)). fold (Cr 0 1 2) in Q. assert (He := eps_pos).
  assert (L : nlt (nabs (tr_area3 s 0 1 2)) tr_eps = false).
  { rewrite AE. apply Rltb_false. change (epsR <= Rabs (Cr 0 1 2)). lra. }
  cbn [tr_firstLoop]. rewrite L, andb_false_r, L, AE. change (nopp (tr_eps (T := R))) with (- epsR). change (@nlt R NumR) with Rltb.
  rewrite HE, HT.
  assert (J : exists j1 j2, (if Rltb (Cr 0 1 2) (- epsR) then (2, 1)%nat else (1, 2)%nat) = (j1, j2) /\ (j1 = 1 /\ j2 = 2 \/ j1 = 2 /\ j2 = 1)%nat /\ 0 < Cr 0 j1 j2).
  { destruct (Rltb (Cr 0 1 2) (- epsR)) eqn:E.
    - apply Rltb_true in E. exists 2%nat, 1%nat. split; auto. split; [lia|]. replace (Cr 0 2 1) with (- Cr 0 1 2) by (unfold Cr, cr; ring). lra.
    - apply Rltb_false in E. exists 1%nat, 2%nat. split; auto. split; [lia|]. unfold Rabs in Q. destruct (Rcase_abs (Cr 0 1 2)); lra. }
  destruct J as (j1 & j2 & E & J & P). rewrite E. destruct (tri_edges j1 j2 J P) as [TE TS].
  eexists. split; [reflexivity|]. split; [repeat split|].
  assert (IE : forall e, In e (set_insert [j2; 0%nat] (set_insert [j1; j2] (set_insert [0%nat; j1] []))) <-> e = [j2; 0]%nat \/ e = [j1; j2] \/ e = [0; j1]%nat).
  { intros e. rewrite !set_insert_iff. simpl. tauto. }
  assert (SUM : forall s', same_mem s s' -> tsum s' [[0%nat; j1; j2]] = Cr 0 j1 j2).
  { intros s' M. rewrite (tsum_mem s s' _ M). cbn [tsum]. unfold tcr, tr_area3. cbn [nth]. rewrite !HP by lia. rewrite cross_R. unfold Cr. ring. }
  split; [constructor|split]; cbn [tr_edges tr_tris tr_oob tr_size]; change (set_insert [0%nat; j1; j2] []) with [[0%nat; j1; j2]].
  - exact HP.
  - apply set_insert_sorted, set_insert_sorted, set_insert_sorted. constructor.
  - intros e Ie. apply IE in Ie. destruct Ie as [->|[->| ->]]; eexists _, _; (split; [reflexivity|lia]).
  - intros a b Hab. apply TE in Hab. apply IE. destruct Hab as [X|[X|[X|[]]]]; injection X as <- <-; auto.
  - intros t [<-|[]]. cbn. lia.
  - rewrite SUM by (repeat split). lra.
  - auto.
  - intros a b Ie. apply IE in Ie. apply TE. destruct Ie as [X|[X|X]]; injection X as -> ->; simpl; auto.
  - rewrite SUM by (repeat split). auto.
Qed.

End Code.

(** ** The constructor *)
Theorem general_hull : forall srt junk n (points H : list point),
  (forall lt l, Permutation (srt lt l) l) -> (3 <= n <= length points)%nat -> NoDup (firstn n points) ->
  (forall a b, In a (firstn n points) -> In b (firstn n points) -> a <> b -> epsR < sqdist a b) ->
  (forall a b c, In a (firstn n points) -> In b (firstn n points) -> In c (firstn n points) -> a <> b -> a <> c -> b <> c -> epsR < Rabs (cr a b c)) ->
  (2 <= length H)%nat -> is_hull H (firstn n points) ->
  polygon_area H <= tr_hullArea (tr_new (T := R) srt junk n points) /\
  ((n <= 4)%nat -> tr_hullArea (tr_new (T := R) srt junk n points) = polygon_area H) /\
  tr_oob (tr_new (T := R) srt junk n points) = false /\
  (snd (tr_makeFirst (tr_start (T := R) srt junk n points)) <= tr_size (tr_start (T := R) srt junk n points))%nat.
Proof.
  intros srt junk n points H SRT Hn ND SEP GEN LH HULL. unfold tr_new, tr_start. change (@pt R) with point.
  set (inds := srt _ _). assert (PI : Permutation inds (seq 0 n)) by apply SRT. clearbody inds.
  set (srtd := map (fun i => nth i points pt0) inds).
  assert (PS : Permutation srtd (firstn n points)).
  { unfold srtd. rewrite (Permutation_map _ PI). rewrite map_nth_seq by lia. reflexivity. }
  assert (LS : length srtd = n) by (rewrite (Permutation_length PS), firstn_length; lia).
  clearbody srtd.
  assert (NS : NoDup srtd) by (apply (Permutation_NoDup (Permutation_sym PS)); auto).
  assert (IS : forall p, In p srtd <-> In p (firstn n points)) by (intros p; split; apply Permutation_in; auto; symmetry; auto).
  assert (KE : remove_degenerate srtd = srtd).
  { destruct srtd as [|b ps]; auto. cbn [remove_degenerate]. f_equal. apply keep_same; auto.
    intros x y Hx Hy. assert (DEC : x = y \/ x <> y).
    { destruct x as [x1 x2], y as [y1 y2]. destruct (Req_dec x1 y1) as [->|N]; [|right; intros Q; injection Q; intros; lra].
      destruct (Req_dec x2 y2) as [->|N]; [auto|right; intros Q; injection Q; intros; lra]. }
    destruct DEC as [->|N]; auto. right. apply SEP; auto; apply IS; auto. }
  rewrite KE, skipn_all, app_nil_r.
  set (s0 := mkTri srtd (length srtd) junk [] [] false). set (pts := fun i => nth i srtd origin).
  assert (HP : hp pts n s0) by (intros i Hi; unfold tr_pt; apply nth_indep; cbn; lia).
  assert (IN : forall i, (i < n)%nat -> In (pts i) (firstn n points)) by (intros i Hi; apply IS, nth_In; lia).
  assert (INJ : forall i j, (i < n)%nat -> (j < n)%nat -> pts i = pts j -> i = j) by (intros i j Hi Hj; apply NoDup_nth; auto; lia).
  assert (GE : forall i j k, (i < n)%nat -> (j < n)%nat -> (k < n)%nat -> i <> j -> i <> k -> j <> k -> epsR < Rabs (cr (pts i) (pts j) (pts k))).
  { intros i j k Hi Hj Hk A B D. apply GEN; auto; intros Q; apply INJ in Q; auto. }
  assert (EQ : map pts (seq 0 n) = srtd) by (unfold pts; rewrite map_nth_seq by lia; rewrite <- LS; apply firstn_all).
  assert (HH : hsum pts n (dt pts) = shoelace H).
  { apply (hull_hsum pts n (GP pts n GE) H INJ); try lia. rewrite EQ. destruct HULL as (H1 & H2 & H3 & H4). split; auto. split; auto. split.
    - intros p Hp. apply IS, H3; auto.
    - intros p Hp. apply H4, IS; auto. }
  destruct (first_ginv pts n GE s0 HP ltac:(lia) LS eq_refl eq_refl eq_refl) as (s1 & E1 & M1 & G1 & X1 & S1). rewrite E1.
  assert (G := addPoints_ginv pts n GE (n - 3) s1 3 G1 (le_n 3) ltac:(lia)).
  set (s2 := fold_left tr_addPoint (seq 3 (n - 3)) s1) in *.
  assert (SZ : tr_size s2 = n).
  { rewrite <- LS. change (length srtd) with (tr_size s0). destruct M1 as (_ & M2 & _). rewrite <- M2. unfold s2.
    generalize (seq 3 (n - 3)). intros l. clear. revert s1. induction l as [|x l IH]; intros s1; auto. cbn [fold_left]. rewrite IH. reflexivity. }
  split; [|split; [|split; [|cbn [snd tr_size s0]; lia]]].
  - rewrite hullArea_sum. unfold polygon_area. rewrite <- HH. assert (Q := g_sum _ _ _ _ G). lra.
  - intros N4. rewrite hullArea_sum. unfold polygon_area. rewrite <- HH. f_equal. unfold s2.
    assert (N34 : n = 3%nat \/ n = 4%nat) by lia. destruct N34 as [->| ->]; cbn [Nat.sub seq fold_left]; [exact S1|].
    apply (addPoint_exact pts 4 GE); auto.
  - apply (g_oob _ _ _ _ G). auto.
Qed.
