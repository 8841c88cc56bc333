(** Closed intervals that cover [a, b] and share at most end points: increments of a function add up. *)
From Coq Require Import List Reals Lra Lia.
Import ListNotations.
Open Scope R_scope.

Definition apart (i j : R * R) : Prop := snd i <= fst j \/ snd j <= fst i.

Fixpoint pairwise (l : list (R * R)) : Prop :=
  match l with
  | [] => True
  | i :: l' => (forall j, In j l' -> apart i j) /\ pairwise l'
  end.

Fixpoint increments (f : R -> R) (l : list (R * R)) : R :=
  match l with
  | [] => 0
  | i :: l' => (f (snd i) - f (fst i)) + increments f l'
  end.

Lemma apart_sym : forall i j, apart i j -> apart j i.
Proof. unfold apart. tauto. Qed.

Lemma pairwise_remove : forall l1 i l2, pairwise (l1 ++ i :: l2) ->
  (forall j, In j (l1 ++ l2) -> apart i j) /\ pairwise (l1 ++ l2).
Proof.
  induction l1 as [|k l1 IH]; intros i l2 H; cbn [app pairwise] in *; [auto|].
  destruct H as [H1 H2]. apply IH in H2. destruct H2 as [H2 H3]. split; [|split; auto].
  - intros j [<-|Hj]; auto. apply apart_sym, H1. apply in_or_app. simpl. auto.
  - intros j Hj. apply H1. apply in_app_or in Hj. apply in_or_app. simpl. tauto.
Qed.

Lemma increments_remove : forall f l1 i l2, increments f (l1 ++ i :: l2) = f (snd i) - f (fst i) + increments f (l1 ++ l2).
Proof. intros f l1 i l2. induction l1 as [|k l1 IH]; cbn [app increments]; [reflexivity|]. rewrite IH. lra. Qed.

Lemma just_above : forall (X : list R) a b, a < b -> exists t, a < t < b /\ forall x, In x X -> a < x -> t < x.
Proof.
  induction X as [|y X IH]; intros a b H.
  - exists ((a + b) / 2). split; [lra|]. intros x [].
  - destruct (IH a b H) as (t & Ht & HX). destruct (Rlt_dec a y) as [L|L].
    + exists ((a + Rmin t y) / 2). assert (a < Rmin t y) by (apply Rmin_glb_lt; lra).
      assert (Rmin t y <= t) by apply Rmin_l. assert (Rmin t y <= y) by apply Rmin_r.
      split; [lra|]. intros x [<-|Hx] Lx; [lra|]. specialize (HX x Hx Lx). lra.
    + exists t. split; auto. intros x [<-|Hx] Lx; [lra|auto].
Qed.

Lemma increments_cover : forall f n (L : list (R * R)) E a b, length L = n -> a <= b ->
  (forall i, In i L -> a <= fst i /\ fst i < snd i /\ snd i <= b) -> pairwise L ->
  (forall t, a <= t <= b -> In t E \/ exists i, In i L /\ fst i <= t <= snd i) ->
  increments f L = f b - f a.
Proof.
  intros f n. induction n as [|n IH]; intros L E a b LN AB IN PW CV;
  (destruct (Req_dec a b) as [->|NE];
   [destruct L as [|i L]; [cbn [increments]; lra|destruct (IN i (or_introl eq_refl)) as (A & B & C); lra]|]);
  destruct (just_above (E ++ map fst L) a b ltac:(lra)) as (t & Ht & HX);
  (destruct (CV t ltac:(lra)) as [TE|(i & Hi & Hti)];
   [assert (X := HX t ltac:(apply in_or_app; auto) ltac:(lra)); lra|]).
  - destruct L; [destruct Hi|discriminate].
  - assert (Ei : fst i = a).
    { destruct (IN i Hi) as (A & _). destruct (Rlt_dec a (fst i)) as [Lt|]; [|lra].
      assert (X := HX (fst i) ltac:(apply in_or_app; right; apply in_map; auto) Lt). lra. }
    destruct (in_split i L Hi) as (l1 & l2 & ->). apply pairwise_remove in PW. destruct PW as [PA PW].
    assert (Ia : forall j, In j (l1 ++ l2) -> In j (l1 ++ i :: l2)).
    { intros j Hj. apply in_app_or in Hj. apply in_or_app. simpl. tauto. }
    destruct (IN i Hi) as (A & B & C). rewrite increments_remove, Ei.
    rewrite (IH (l1 ++ l2) (snd i :: E) (snd i) b); [lra| | | |auto|].
    + rewrite app_length in *. simpl in LN. lia.
    + auto.
    + intros j Hj. destruct (IN j (Ia j Hj)) as (A' & B' & C'). destruct (PA j Hj) as [Q|Q]; lra.
    + intros u Hu. destruct (Req_dec u (snd i)) as [->|NU]; [left; left; reflexivity|].
      destruct (CV u ltac:(lra)) as [TE|(j & Hj & Hu')]; [left; right; auto|].
      right. exists j. split; auto. apply in_app_or in Hj. apply in_or_app. simpl in Hj.
      destruct Hj as [|[<-|]]; auto. lra.
Qed.

(** The same when intervals may be single points and pairs share at most one point. *)
Definition in_iv (i : R * R) (t : R) : Prop := fst i <= t <= snd i.
Definition meet_once (i j : R * R) : Prop := forall t t', in_iv i t -> in_iv j t -> in_iv i t' -> in_iv j t' -> t = t'.

Fixpoint pairwise_once (l : list (R * R)) : Prop :=
  match l with
  | [] => True
  | i :: l' => (forall j, In j l' -> meet_once i j) /\ pairwise_once l'
  end.

Definition proper (i : R * R) : bool := if Rlt_dec (fst i) (snd i) then true else false.

Lemma increments_proper : forall f l, (forall i, In i l -> fst i <= snd i) -> increments f (filter proper l) = increments f l.
Proof.
  intros f. induction l as [|i l IH]; intros H; [reflexivity|]. cbn [filter increments].
  rewrite <- IH by (intros; apply H; simpl; auto). unfold proper at 1. destruct (Rlt_dec (fst i) (snd i)) as [L|L]; [reflexivity|].
  assert (E : fst i = snd i) by (assert (X := H i (or_introl eq_refl)); lra). rewrite E. lra.
Qed.

Lemma pairwise_proper : forall l, pairwise_once l -> pairwise (filter proper l).
Proof.
  induction l as [|i l IH]; intros H; [exact I|]. destruct H as [H1 H2]. cbn [filter].
  destruct (proper i) eqn:Pi; [|auto]. cbn [pairwise]. split; auto.
  intros j Hj. apply filter_In in Hj. destruct Hj as [Hj Pj]. specialize (H1 j Hj).
  unfold proper in Pi, Pj. destruct (Rlt_dec (fst i) (snd i)); [|discriminate]. destruct (Rlt_dec (fst j) (snd j)); [|discriminate].
  unfold apart. destruct (Rle_dec (snd i) (fst j)); auto. destruct (Rle_dec (snd j) (fst i)); auto. exfalso.
  assert (A1 := Rmax_l (fst i) (fst j)). assert (A2 := Rmax_r (fst i) (fst j)).
  assert (B1 := Rmin_l (snd i) (snd j)). assert (B2 := Rmin_r (snd i) (snd j)).
  assert (L : Rmax (fst i) (fst j) < Rmin (snd i) (snd j)).
  { apply Rmax_lub_lt; apply Rmin_glb_lt; lra. }
  assert (X := H1 (Rmax (fst i) (fst j)) (Rmin (snd i) (snd j))). unfold in_iv in X. lra.
Qed.

Lemma increments_once : forall f (L : list (R * R)) E a b, a <= b ->
  (forall i, In i L -> a <= fst i /\ fst i <= snd i /\ snd i <= b) -> pairwise_once L ->
  (forall t, a <= t <= b -> In t E \/ exists i, In i L /\ in_iv i t) ->
  increments f L = f b - f a.
Proof.
  intros f L E a b AB IN PW CV. rewrite <- increments_proper by (intros i Hi; apply IN in Hi; lra).
  apply (increments_cover f (length (filter proper L)) (filter proper L) (E ++ map fst L) a b); auto.
  - intros i Hi. apply filter_In in Hi. destruct Hi as [Hi Pi]. unfold proper in Pi.
    destruct (Rlt_dec (fst i) (snd i)); [|discriminate]. apply IN in Hi. lra.
  - apply pairwise_proper. auto.
  - intros t Ht. destruct (CV t Ht) as [H|(i & Hi & H)]; [left; apply in_or_app; auto|]. unfold in_iv in H.
    destruct (proper i) eqn:Pi; [right; exists i; rewrite filter_In; auto|].
    left. apply in_or_app. right. unfold proper in Pi. destruct (Rlt_dec (fst i) (snd i)); [discriminate|].
    replace t with (fst i) by lra. apply in_map. auto.
Qed.
