(** What is assumed of std::sort. *)
From Coq Require Import List Permutation Arith Lia Bool.
From Verif Require Import Base.
Import ListNotations.

(** [lt] is a strict weak order on the elements of [l] (the requirement of std::sort). *)
Definition strict_weak {A} (lt : A -> A -> bool) (l : list A) : Prop :=
  (forall x, In x l -> lt x x = false) /\
  (forall x y z, In x l -> In y l -> In z l -> lt x y = true -> lt y z = true -> lt x z = true) /\
  (forall x y z, In x l -> In y l -> In z l -> lt x y = false -> lt y z = false -> lt x z = false).

(** No element is before a smaller one. *)
Definition ascending {A} (lt : A -> A -> bool) (l : list A) : Prop :=
  forall i j d, (i < j < length l)%nat -> lt (nth j l d) (nth i l d) = false.

(** A sort: permutes always; orders when the comparison is a strict weak order on the list. *)
Definition sorts {A} (srt : (A -> A -> bool) -> list A -> list A) : Prop :=
  forall lt l, Permutation (srt lt l) l /\ (strict_weak lt l -> ascending lt (srt lt l)).

(** There is one: insertion. *)
Fixpoint insert {A} (lt : A -> A -> bool) (x : A) (l : list A) : list A :=
  match l with
  | [] => [x]
  | y :: l' => if lt y x then y :: insert lt x l' else x :: l
  end.
Definition insertion {A} (lt : A -> A -> bool) (l : list A) : list A := fold_right (insert lt) [] l.

Lemma insert_perm : forall {A} lt (x : A) l, Permutation (insert lt x l) (x :: l).
Proof.
  induction l as [|y l IH]; simpl; auto. destruct (lt y x); auto.
  rewrite IH. apply perm_swap.
Qed.

Lemma insertion_perm : forall {A} lt (l : list A), Permutation (insertion lt l) l.
Proof.
  induction l as [|x l IH]; simpl; auto. rewrite insert_perm. auto.
Qed.

Lemma ascending_cons : forall {A} lt (x : A) l, (forall y, In y l -> lt y x = false) -> ascending lt l -> ascending lt (x :: l).
Proof.
  intros A lt x l H S i j d L. destruct j; [lia|]. destruct i; simpl in *.
  - apply H. apply nth_In. lia.
  - apply S. lia.
Qed.

Lemma ascending_inv : forall {A} lt (x : A) l, ascending lt (x :: l) -> (forall y, In y l -> lt y x = false) /\ ascending lt l.
Proof.
  intros A lt x l S. split.
  - intros y Hy. apply In_nth with (d := x) in Hy. destruct Hy as (n & Hn & <-).
    apply (S 0 (Datatypes.S n) x). simpl. lia.
  - intros i j d L. apply (S (Datatypes.S i) (Datatypes.S j) d). simpl. lia.
Qed.

Lemma insertion_sorts : forall A, sorts (@insertion A).
Proof.
  intros A lt l. split; [apply insertion_perm|]. intros W.
  assert (K : forall l', (forall x, In x l' -> In x l) -> ascending lt (insertion lt l')).
  { induction l' as [|x l' IH]; intros Hl; [intros i j d L; simpl in L; lia|]. simpl.
    assert (S := IH (fun y Hy => Hl y (or_intror Hy))).
    assert (Hm : forall y, In y (insertion lt l') -> In y l).
    { intros y Hy. apply Hl. right. eapply Permutation_in; [apply insertion_perm|exact Hy]. }
    assert (Hx : In x l) by (apply Hl; left; auto). clear IH Hl.
    destruct W as (W1 & W2 & W3).
    revert S Hm. generalize (insertion lt l'). induction l0 as [|y m IH]; intros S Hm; simpl.
    - intros i j d L. simpl in L. lia.
    - apply ascending_inv in S. destruct S as [Sy S]. destruct (lt y x) eqn:E.
      + apply ascending_cons; [|apply IH; auto; intros; apply Hm; simpl; auto].
        intros z Hz. apply (Permutation_in _ (insert_perm lt x m)) in Hz. destruct Hz as [<-|Hz]; [|auto].
        destruct (lt x y) eqn:F; auto. exfalso.
        assert (lt y y = true) by (apply (W2 y x y); simpl in Hm; auto).
        rewrite W1 in H; simpl in Hm; auto; discriminate.
      + apply ascending_cons; [|apply ascending_cons; auto].
        intros z [<-|Hz]; auto. apply (W3 z y x); simpl in Hm; auto. }
  apply K. auto.
Qed.

(** A list of at most 16 elements none of which is before another is left as it is.  std::sort does not
    promise it; the implementations of libstdc++ and libc++ sort such lists by insertion. *)
Definition keeps_ties (srt : (nat -> nat -> bool) -> list nat -> list nat) : Prop :=
  forall lt l, (length l <= 16)%nat -> (forall i j, In i l -> In j l -> lt i j = false) -> srt lt l = l.

Lemma insertion_ties : keeps_ties insertion.
Proof.
  intros lt l _. induction l as [|x l IH]; intros H; [reflexivity|]. cbn [insertion fold_right]. change (fold_right (insert lt) [] l) with (insertion lt l).
  rewrite IH by (intros; apply H; right; auto). destruct l as [|y l]; [reflexivity|]. cbn [insert]. rewrite H; [reflexivity|right; left; auto|left; auto].
Qed.
