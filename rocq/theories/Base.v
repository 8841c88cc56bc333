(** Common vocabulary of the model: outcomes of C++ code, checked integer
    arithmetic, checked container access.  Nothing here is specific to one
    C++ class. *)
From Coq Require Import ZArith List Bool Lia.
Import ListNotations.
Open Scope Z_scope.

#[global] Arguments Z.mul : simpl never.
#[global] Arguments Z.add : simpl never.
#[global] Arguments Z.sub : simpl never.
#[global] Arguments Z.pow : simpl never.
#[global] Arguments Z.div : simpl never.
#[global] Arguments Z.modulo : simpl never.
#[global] Arguments Z.of_nat : simpl never.
#[global] Arguments Z.to_nat : simpl never.

(** ** Outcomes

    A C++ function either returns a value or has undefined behaviour for one of
    the reasons below. *)
Inductive ub : Set :=
  | OutOfBounds      (* vector or array access outside its size *)
  | DivByZero        (* integer division or remainder by zero *)
  | IntOverflow      (* signed [int] arithmetic out of range *)
  | BadCast          (* conversion of NaN, infinity or too large a double to int *)
  | EndDeref.        (* dereference of an end() iterator *)

Inductive exec (A : Type) : Type :=
  | Ret : A -> exec A
  | Undef : ub -> exec A.
Arguments Ret {A} _.
Arguments Undef {A} _.

Definition bind {A B} (m : exec A) (f : A -> exec B) : exec B :=
  match m with
  | Ret a => f a
  | Undef u => Undef u
  end.

Declare Scope exec_scope.
Delimit Scope exec_scope with exec.
Notation "'let!' x ':=' m 'in' k" := (bind m (fun x => k))
  (at level 200, x pattern, m at level 100, k at level 200, right associativity)
  : exec_scope.
Open Scope exec_scope.

Definition is_ret {A} (m : exec A) : Prop := exists a, m = Ret a.

Lemma bind_ret_inv : forall {A B} (m : exec A) (f : A -> exec B) b,
  bind m f = Ret b -> exists a, m = Ret a /\ f a = Ret b.
Proof. intros A B [a|u] f b H; simpl in H; [eauto | discriminate]. Qed.

(** Monadic traversal of a list, left to right. *)
Fixpoint mapM {A B} (f : A -> exec B) (l : list A) : exec (list B) :=
  match l with
  | [] => Ret []
  | x :: tl => let! y := f x in let! ys := mapM f tl in Ret (y :: ys)
  end.

(** Monadic loop over a list with an accumulator. *)
Fixpoint foldM {A S} (f : S -> A -> exec S) (l : list A) (s : S) : exec S :=
  match l with
  | [] => Ret s
  | x :: tl => let! s' := f s x in foldM f tl s'
  end.

(** ** [int]: 32-bit signed, overflow is undefined. *)
Definition int_min : Z := - 2 ^ 31.
Definition int_max : Z := 2 ^ 31 - 1.
Definition in_int (z : Z) : bool := (int_min <=? z) && (z <=? int_max).
Definition chk (z : Z) : exec Z := if in_int z then Ret z else Undef IntOverflow.

(** ** [size_t]: 64-bit unsigned, arithmetic wraps. *)
Definition wrap64 (z : Z) : Z := z mod 2 ^ 64.

(** Conversion of a [size_t] (or any integer) to [int]: reduced modulo 2^32 into
    the signed range (what every supported compiler does). *)
Definition to_int32 (z : Z) : Z := (z + 2 ^ 31) mod 2 ^ 32 - 2 ^ 31.

(** ** Checked access, index as a (possibly out of range) integer. *)
Definition vget {A} (l : list A) (i : Z) : exec A :=
  if i <? 0 then Undef OutOfBounds
  else match nth_error l (Z.to_nat i) with
       | Some a => Ret a
       | None => Undef OutOfBounds
       end.

(** Assignment of element [n] of a list; out of range is a no-op (callers check). *)
Fixpoint upd {A} (l : list A) (n : nat) (a : A) : list A :=
  match l, n with
  | [], _ => []
  | _ :: tl, O => a :: tl
  | x :: tl, S n' => x :: upd tl n' a
  end.

Definition vset {A} (l : list A) (i : Z) (a : A) : exec (list A) :=
  if (0 <=? i) && (i <? Z.of_nat (length l)) then Ret (upd l (Z.to_nat i) a)
  else Undef OutOfBounds.

(** [0; 1; ...; n-1] as integers. *)
Definition zseq (n : nat) : list Z := map Z.of_nat (seq 0 n).

(** [for (i = 0; i < n; ++i)] as the list of values of [i]. *)
Definition range (n : Z) : list Z := zseq (Z.to_nat n).

#[global] Arguments chk : simpl never.
#[global] Arguments vget : simpl never.
#[global] Arguments vset : simpl never.
#[global] Arguments range : simpl never.
#[global] Arguments zseq : simpl never.

(** ** Lemmas *)
Lemma chk_ok : forall z, int_min <= z <= int_max -> chk z = Ret z.
Proof.
  intros z H. unfold chk, in_int.
  destruct (int_min <=? z) eqn:E1; destruct (z <=? int_max) eqn:E2; simpl; auto;
  try (apply Z.leb_gt in E1); try (apply Z.leb_gt in E2); lia.
Qed.

Lemma chk_inv : forall z r, chk z = Ret r -> r = z /\ int_min <= z <= int_max.
Proof.
  intros z r. unfold chk, in_int.
  destruct (int_min <=? z) eqn:E1; destruct (z <=? int_max) eqn:E2; simpl;
    intros H; inversion H; subst.
  apply Z.leb_le in E1; apply Z.leb_le in E2. auto.
Qed.

Lemma vget_nth : forall {A} (l : list A) i d,
  0 <= i < Z.of_nat (length l) -> vget l i = Ret (nth (Z.to_nat i) l d).
Proof.
  intros A l i d H. unfold vget.
  destruct (i <? 0) eqn:E; [apply Z.ltb_lt in E; lia|].
  rewrite (nth_error_nth' l d); [reflexivity | lia].
Qed.

Lemma vget_inv : forall {A} (l : list A) i a,
  vget l i = Ret a -> 0 <= i < Z.of_nat (length l) /\ nth_error l (Z.to_nat i) = Some a.
Proof.
  intros A l i a. unfold vget.
  destruct (i <? 0) eqn:E; [discriminate|].
  apply Z.ltb_ge in E.
  destruct (nth_error l (Z.to_nat i)) eqn:E2; [|discriminate].
  intros H; inversion H; subst.
  split; auto. split; auto.
  assert (Z.to_nat i < length l)%nat by (apply nth_error_Some; congruence). lia.
Qed.

Lemma vget_undef : forall {A} (l : list A) i,
  ~ (0 <= i < Z.of_nat (length l)) -> vget l i = Undef OutOfBounds.
Proof.
  intros A l i H. destruct (vget l i) eqn:E.
  - apply vget_inv in E. tauto.
  - unfold vget in E. destruct (i <? 0); [congruence|].
    destruct (nth_error l (Z.to_nat i)); congruence.
Qed.

Lemma upd_length : forall {A} (l : list A) n a, length (upd l n a) = length l.
Proof. induction l; destruct n; simpl; intros; auto. Qed.

Lemma upd_nth_same : forall {A} (l : list A) n a d,
  (n < length l)%nat -> nth n (upd l n a) d = a.
Proof. induction l; destruct n; simpl; intros; auto; try lia. apply IHl; lia. Qed.

Lemma upd_nth_other : forall {A} (l : list A) n m a d,
  n <> m -> nth m (upd l n a) d = nth m l d.
Proof. induction l; destruct n, m; simpl; intros; auto; try lia. Qed.

Lemma Forall2_len : forall {A B} (R : A -> B -> Prop) l l',
  Forall2 R l l' -> length l = length l'.
Proof. induction 1; simpl; auto. Qed.

Lemma mapM_inv : forall {A B} (f : A -> exec B) l r,
  mapM f l = Ret r -> Forall2 (fun x y => f x = Ret y) l r.
Proof.
  induction l as [|x tl IH]; simpl; intros r H.
  - inversion H; constructor.
  - apply bind_ret_inv in H. destruct H as (y & Hy & H).
    apply bind_ret_inv in H. destruct H as (ys & Hys & H).
    inversion H; subst. constructor; auto.
Qed.

Lemma mapM_Forall2 : forall {A B} (f : A -> exec B) l r,
  Forall2 (fun x y => f x = Ret y) l r -> mapM f l = Ret r.
Proof. induction 1; simpl; auto. rewrite H. simpl. rewrite IHForall2. reflexivity. Qed.

Lemma mapM_pure : forall {A B} (f : A -> exec B) (g : A -> B) l,
  (forall x, In x l -> f x = Ret (g x)) -> mapM f l = Ret (map g l).
Proof.
  induction l as [|x tl IH]; simpl; intros H; auto.
  rewrite H by auto. simpl. rewrite IH by auto. reflexivity.
Qed.

Lemma mapM_length : forall {A B} (f : A -> exec B) l r,
  mapM f l = Ret r -> length r = length l.
Proof. intros. apply mapM_inv in H. symmetry. eapply Forall2_len; eauto. Qed.

Lemma zseq_length : forall n, length (zseq n) = n.
Proof. intros. unfold zseq. rewrite map_length, seq_length. reflexivity. Qed.

Lemma in_zseq : forall n z, In z (zseq n) <-> 0 <= z < Z.of_nat n.
Proof.
  intros n z. unfold zseq. rewrite in_map_iff. split.
  - intros (x & <- & Hx). apply in_seq in Hx. lia.
  - intros H. exists (Z.to_nat z). split; [lia|]. apply in_seq. lia.
Qed.

Lemma in_range : forall n z, In z (range n) <-> 0 <= z < n.
Proof. intros. unfold range. rewrite in_zseq. lia. Qed.

Lemma foldM_app : forall {A S} (f : S -> A -> exec S) l1 l2 s,
  foldM f (l1 ++ l2) s = bind (foldM f l1 s) (foldM f l2).
Proof.
  induction l1 as [|x tl IH]; simpl; intros; auto.
  destruct (f s x); simpl; auto.
Qed.

(** Loop invariant rule for [foldM]. *)
Lemma foldM_inv : forall {A S} (P : S -> Prop) (f : S -> A -> exec S) l s s',
  P s ->
  (forall s x s1, P s -> In x l -> f s x = Ret s1 -> P s1) ->
  foldM f l s = Ret s' -> P s'.
Proof.
  induction l as [|x tl IH]; simpl; intros s s' Hs Hf H.
  - inversion H; subst; auto.
  - apply bind_ret_inv in H. destruct H as (s1 & H1 & H2).
    apply (IH s1 s'); auto.
    + apply (Hf s x s1); auto.
    + intros s2 y s3 P2 Hy. apply Hf; auto.
Qed.

Lemma foldM_total : forall {A S} (P : S -> Prop) (f : S -> A -> exec S) l s,
  P s ->
  (forall s x, P s -> In x l -> exists s1, f s x = Ret s1 /\ P s1) ->
  exists s', foldM f l s = Ret s' /\ P s'.
Proof.
  induction l as [|x tl IH]; simpl; intros s Hs Hf; eauto.
  destruct (Hf s x Hs (or_introl eq_refl)) as (s1 & H1 & P1).
  rewrite H1; simpl. apply IH; auto.
Qed.
