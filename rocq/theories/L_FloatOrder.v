(** IEEE doubles: < is a strict weak order on doubles that are not NaN. *)
From Coq Require Import ZArith List Bool Lia Floats.SpecFloat.
From Verif Require Import Base Num NumF S_Sort.
Open Scope Z_scope.

(** Sign class, exponent, mantissa. *)
Definition key (x : spec_float) : Z * Z * Z :=
  match x with
  | S754_nan => (0, 0, 0)
  | S754_infinity true => (-2, 0, 0)
  | S754_infinity false => (2, 0, 0)
  | S754_zero _ => (0, 0, 0)
  | S754_finite true m e => (-1, - e, - Zpos m)
  | S754_finite false m e => (1, e, Zpos m)
  end.

Definition klt (a b : Z * Z * Z) : Prop :=
  fst (fst a) < fst (fst b) \/
  (fst (fst a) = fst (fst b) /\ (snd (fst a) < snd (fst b) \/ (snd (fst a) = snd (fst b) /\ snd a < snd b))).

Lemma sflt_key : forall x y, x <> S754_nan -> y <> S754_nan -> (nlt x y = true <-> klt (key x) (key y)).
Proof.
  intros x y Hx Hy. cbn [nlt NumF]. unfold SFltb, klt.
  destruct x as [sx|sx| |sx mx ex]; try congruence; destruct y as [sy|sy| |sy my ey]; try congruence;
    destruct sx, sy; cbn [SFcompare key fst snd]; try (split; [discriminate|lia]); try (split; [lia|reflexivity]).
  - destruct (Z.compare_spec ex ey) as [E|E|E].
    + change (Pos.compare_cont Eq mx my) with (Zpos mx ?= Zpos my). rewrite <- Z.compare_antisym.
      destruct (Z.compare_spec (Zpos my) (Zpos mx)); split; intros; try discriminate; try reflexivity; lia.
    + split; [discriminate|lia].
    + split; [lia|reflexivity].
  - destruct (Z.compare_spec ex ey) as [E|E|E].
    + change (Pos.compare_cont Eq mx my) with (Zpos mx ?= Zpos my).
      destruct (Z.compare_spec (Zpos mx) (Zpos my)); split; intros; try discriminate; try reflexivity; lia.
    + split; [lia|reflexivity].
    + split; [discriminate|lia].
Qed.

Lemma strict_weak_F : forall l, (forall x, In x l -> x <> S754_nan) -> strict_weak (A := spec_float) nlt l.
Proof.
  intros l H.
  assert (F : forall x y, In x l -> In y l -> (nlt x y = false <-> ~ klt (key x) (key y))).
  { intros x y Hx Hy. rewrite <- sflt_key by auto. destruct (nlt x y); split; intros; congruence. }
  unfold strict_weak. split; [|split].
  - intros x Hx. apply F; auto. unfold klt. lia.
  - intros x y z Hx Hy Hz. rewrite !sflt_key by auto. unfold klt. lia.
  - intros x y z Hx Hy Hz. rewrite !F by auto. unfold klt. lia.
Qed.

Lemma nle_not_nan : forall x y : spec_float, nle x y = true -> y <> S754_nan.
Proof. intros x y H ->. cbn [nle NumF] in H. unfold SFleb in H. destruct x as [[]|[]| |[]]; discriminate. Qed.
