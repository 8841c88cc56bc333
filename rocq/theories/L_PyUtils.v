(** Arrays of numpy over the reals: elements of the results of the operations in M_PyUtils. *)
From Coq Require Import ZArith List Bool Reals Lra Lia.
From Verif Require Import Base Num NumR M_Grids TrigR M_PyUtils.
Import ListNotations.
Open Scope Z_scope.

(** The array has the shape m0 x m1 and the elements f. *)
Definition holds (A : arr R) (m0 m1 : Z) (f : Z -> Z -> R) : Prop :=
  a_n0 A = m0 /\ a_n1 A = m1 /\ forall i j, 0 <= i < m0 -> 0 <= j < m1 -> a_at A i j = f i j.
Definition has (a : option (arr R)) (m0 m1 : Z) (f : Z -> Z -> R) : Prop :=
  match a with Some A => holds A m0 m1 f | None => False end.

Lemma holds_mk : forall m0 m1 f, holds (mkArr m0 m1 f) m0 m1 f.
Proof. intros. split; [reflexivity|split; reflexivity]. Qed.
Lemma has_some : forall A m0 m1 f, holds A m0 m1 f -> has (Some A) m0 m1 f.
Proof. intros A m0 m1 f H. exact H. Qed.
Lemma has_inv : forall a m0 m1 f, has a m0 m1 f -> exists A, a = Some A /\ holds A m0 m1 f.
Proof. intros [A|] m0 m1 f H; [eauto|contradiction]. Qed.
Lemma has_ext : forall a m0 m1 f g, has a m0 m1 f -> (forall i j, 0 <= i < m0 -> 0 <= j < m1 -> f i j = g i j) -> has a m0 m1 g.
Proof.
  intros [A|] m0 m1 f g H E; [|contradiction]. destruct H as (H0 & H1 & H2). split; [exact H0|split; [exact H1|]].
  intros i j Hi Hj. rewrite (H2 i j Hi Hj). now apply E.
Qed.
Lemma has_at : forall a m0 m1 f i j, has a m0 m1 f -> 0 <= i < m0 -> 0 <= j < m1 -> exists A, a = Some A /\ a_at A i j = f i j.
Proof. intros [A|] m0 m1 f i j H Hi Hj; [|contradiction]. exists A. split; [reflexivity|]. apply H; assumption. Qed.

Lemma lo0_holds : forall A m0 m1 f, holds A (m0 + 1) m1 f -> 0 <= m0 -> holds (lo0 A) m0 m1 f.
Proof. intros A m0 m1 f (H0 & H1 & H2) L. unfold holds, lo0. cbn. rewrite H0, H1. split; [lia|split; [reflexivity|]]. intros. apply H2; lia. Qed.
Lemma hi0_holds : forall A m0 m1 f, holds A (m0 + 1) m1 f -> 0 <= m0 -> holds (hi0 A) m0 m1 (fun i j => f (i + 1) j).
Proof. intros A m0 m1 f (H0 & H1 & H2) L. unfold holds, hi0. cbn. rewrite H0, H1. split; [lia|split; [reflexivity|]]. intros. apply H2; lia. Qed.
Lemma lo1_holds : forall A m0 m1 f, holds A m0 (m1 + 1) f -> 0 <= m1 -> holds (lo1 A) m0 m1 f.
Proof. intros A m0 m1 f (H0 & H1 & H2) L. unfold holds, lo1. cbn. rewrite H0, H1. split; [reflexivity|split; [lia|]]. intros. apply H2; lia. Qed.
Lemma hi1_holds : forall A m0 m1 f, holds A m0 (m1 + 1) f -> 0 <= m1 -> holds (hi1 A) m0 m1 (fun i j => f i (j + 1)).
Proof. intros A m0 m1 f (H0 & H1 & H2) L. unfold holds, hi1. cbn. rewrite H0, H1. split; [reflexivity|split; [lia|]]. intros. apply H2; lia. Qed.
Lemma first0_holds : forall A m0 m1 f, holds A m0 m1 f -> 1 <= m0 -> holds (first0 A) 1 m1 f.
Proof. intros A m0 m1 f (H0 & H1 & H2) L. unfold holds, first0. cbn. rewrite H0, H1. split; [lia|split; [reflexivity|]]. intros. apply H2; lia. Qed.

Lemma bidx_in : forall n i, 0 <= i < n -> bidx n i = i.
Proof. intros n i H. unfold bidx. destruct (Z.eqb_spec n 1); lia. Qed.
Lemma bdim_same : forall n, bdim n n = Some n.
Proof. intros n. unfold bdim. now rewrite Z.eqb_refl. Qed.

Lemma bop_has : forall op a b m0 m1 f g, has a m0 m1 f -> has b m0 m1 g -> has (bop op a b) m0 m1 (fun i j => op (f i j) (g i j)).
Proof.
  intros op [A|] [B|] m0 m1 f g HA HB; try contradiction. destruct HA as (A0 & A1 & A2), HB as (B0 & B1 & B2).
  unfold bop. rewrite A0, A1, B0, B1, !bdim_same. split; [reflexivity|split; [reflexivity|]].
  intros i j Hi Hj. cbn [a_at]. rewrite !bidx_in by assumption. now rewrite A2, B2.
Qed.
(** The second array has one row, which is repeated. *)
Lemma bop_row_has : forall op a b m0 m1 f g, 1 <= m0 -> has a m0 m1 f -> has b 1 m1 g -> has (bop op a b) m0 m1 (fun i j => op (f i j) (g 0 j)).
Proof.
  intros op [A|] [B|] m0 m1 f g L HA HB; try contradiction. destruct HA as (A0 & A1 & A2), HB as (B0 & B1 & B2).
  unfold bop. rewrite A0, A1, B0, B1, !bdim_same.
  replace (bdim m0 1) with (Some m0).
  2:{ unfold bdim. destruct (Z.eqb_spec m0 1); [reflexivity|]. reflexivity. }
  split; [reflexivity|split; [reflexivity|]].
  intros i j Hi Hj. cbn [a_at]. rewrite (bidx_in m0), (bidx_in m1) by assumption. change (bidx 1 i) with 0. rewrite A2, B2 by lia. reflexivity.
Qed.
Lemma umap_has : forall op a m0 m1 f, has a m0 m1 f -> has (umap op a) m0 m1 (fun i j => op (f i j)).
Proof.
  intros op [A|] m0 m1 f HA; [|contradiction]. destruct HA as (A0 & A1 & A2). split; [exact A0|split; [exact A1|]].
  intros i j Hi Hj. cbn [a_at]. now rewrite A2.
Qed.
Lemma avg_has : forall A B m0 m1 f g, holds A m0 m1 f -> holds B m0 m1 g -> has (avg A B) m0 m1 (fun i j => (f i j + g i j) / 2)%R.
Proof.
  intros A B m0 m1 f g HA HB. unfold avg. eapply has_ext.
  - apply umap_has. apply bop_has; apply has_some; eassumption.
  - intros i j _ _. unfold nhalf. rewrite lit_R. cbn. lra.
Qed.

Open Scope R_scope.
Lemma linspace_R : forall a b n i, (2 <= n)%Z -> (0 <= i < n)%Z -> linspace a b n i = a + IZR i * ((b - a) / IZR (n - 1)).
Proof.
  intros a b n i Hn Hi. unfold linspace. destruct ((1 <? n) && (i =? n - 1))%Z eqn:E; [|reflexivity].
  apply andb_true_iff in E. destruct E as [_ E]. apply Z.eqb_eq in E. subst i.
  assert (IZR (n - 1) <> 0) by (apply not_0_IZR; lia). field. assumption.
Qed.
