(** Exact real arithmetic as an instance of [Num]. *)
From Coq Require Import ZArith Reals Bool Lra Lia R_Ifp.
From Verif Require Import Base Num.
Open Scope R_scope.

Definition Rltb (x y : R) : bool := if Rlt_dec x y then true else false.
Definition Rleb (x y : R) : bool := if Rle_dec x y then true else false.
Definition Reqb (x y : R) : bool := if Req_EM_T x y then true else false.

(** Truncation towards zero. *)
Definition Rtrunc (x : R) : Z :=
  if Rle_dec 0 x then Int_part x else (- Int_part (- x))%Z.

(** fmod (x, y) = x - trunc (x / y) y (NaN in IEEE for y = 0; here x). *)
Definition Rfmod (x y : R) : R := x - IZR (Rtrunc (x / y)) * y.

#[global] Instance NumR : Num R := {|
  nadd := Rplus;
  nsub := Rminus;
  nmul := Rmult;
  ndiv := Rdiv;
  nopp := Ropp;
  nabs := Rabs;
  nsqrt := sqrt;
  nfloor := fun x => IZR (Int_part x);
  nfmod := Rfmod;
  nlt := Rltb;
  nle := Rleb;
  neq := Reqb;
  nofZ := IZR;
  ntoZ := fun x => Some (Rtrunc x) |}.

Lemma Rltb_true : forall x y, Rltb x y = true <-> x < y.
Proof. intros; unfold Rltb; destruct (Rlt_dec x y); split; intros; auto; discriminate. Qed.
Lemma Rltb_false : forall x y, Rltb x y = false <-> y <= x.
Proof. intros; unfold Rltb; destruct (Rlt_dec x y); split; intros; auto; try discriminate; lra. Qed.
Lemma Rleb_true : forall x y, Rleb x y = true <-> x <= y.
Proof. intros; unfold Rleb; destruct (Rle_dec x y); split; intros; auto; try discriminate; lra. Qed.
Lemma Rleb_false : forall x y, Rleb x y = false <-> y < x.
Proof. intros; unfold Rleb; destruct (Rle_dec x y); split; intros; auto; try discriminate; lra. Qed.
Lemma Reqb_true : forall x y, Reqb x y = true <-> x = y.
Proof. intros; unfold Reqb; destruct (Req_EM_T x y); split; intros; auto; discriminate. Qed.
Lemma Reqb_false : forall x y, Reqb x y = false <-> x <> y.
Proof. intros; unfold Reqb; destruct (Req_EM_T x y); split; intros; auto; try discriminate; tauto. Qed.

(** Case analysis on boolean comparisons of reals. *)
Ltac no_if x := lazymatch x with context [if _ then _ else _] => fail | _ => idtac end.
Ltac rcase :=
  match goal with
  | |- context [Rltb ?x ?y] =>
      no_if x; no_if y;
      let H := fresh "H" in destruct (Rltb x y) eqn:H;
      [apply Rltb_true in H | apply Rltb_false in H]
  | |- context [Rleb ?x ?y] =>
      no_if x; no_if y;
      let H := fresh "H" in destruct (Rleb x y) eqn:H;
      [apply Rleb_true in H | apply Rleb_false in H]
  | |- context [Reqb ?x ?y] =>
      no_if x; no_if y;
      let H := fresh "H" in destruct (Reqb x y) eqn:H;
      [apply Reqb_true in H | apply Reqb_false in H]
  end.

Lemma Int_part_spec : forall x n, IZR n <= x < IZR n + 1 -> Int_part x = n.
Proof.
  intros x n H.
  assert (H1 := base_Int_part x).
  assert (IZR (Int_part x) < IZR (n + 1)) by (rewrite plus_IZR; simpl; lra).
  assert (IZR n < IZR (Int_part x + 1)) by (rewrite plus_IZR; simpl; lra).
  apply lt_IZR in H0. apply lt_IZR in H2. lia.
Qed.

Lemma Int_part_IZR : forall n, Int_part (IZR n) = n.
Proof. intros. apply Int_part_spec. lra. Qed.

Lemma Int_part_bounds : forall x, IZR (Int_part x) <= x < IZR (Int_part x) + 1.
Proof. intros x. assert (H := base_Int_part x). lra. Qed.

Lemma Rtrunc_IZR : forall n, Rtrunc (IZR n) = n.
Proof.
  intros n. unfold Rtrunc. destruct (Rle_dec 0 (IZR n)).
  - apply Int_part_IZR.
  - rewrite <- opp_IZR, Int_part_IZR. lia.
Qed.

Lemma Int_part_le : forall x n, IZR n <= x -> (n <= Int_part x)%Z.
Proof.
  intros x n H. assert (H1 := Int_part_bounds x).
  assert (IZR n < IZR (Int_part x + 1)) by (rewrite plus_IZR; simpl; lra).
  apply lt_IZR in H0. lia.
Qed.

Lemma Int_part_lt : forall x n, x < IZR n -> (Int_part x < n)%Z.
Proof.
  intros x n H. assert (H1 := Int_part_bounds x). apply lt_IZR. lra.
Qed.

(** (int) floor(x) over the reals. *)
Lemma to_int_floor : forall x,
  (int_min <= Int_part x <= int_max)%Z ->
  to_int (nfloor x) = Ret (Int_part x).
Proof.
  intros x H. unfold to_int. cbn [ntoZ nfloor NumR]. rewrite Rtrunc_IZR.
  unfold in_int. destruct H as [H1 H2].
  apply Z.leb_le in H1. apply Z.leb_le in H2. rewrite H1, H2. reflexivity.
Qed.

Lemma lit_R : forall n d, lit n d = IZR n / IZR d.
Proof. reflexivity. Qed.
