(** Iterating over the conservative weights (any arithmetic). *)
From Coq Require Import ZArith List Bool Lia Arith.
From Verif Require Import Base Num M_ConserveInterp.
Import ListNotations.

Section Iter.
Context {T : Type} {N : Num T}.

(** The weights in the order of the table. *)
Definition listed (w : list (Z * list (Z * T))) : list (Z * Z * T) :=
  flat_map (fun e => map (fun sw => (fst sw, fst e, snd sw)) (snd e)) w.

(** n calls of next, with the codes returned. *)
Fixpoint ci_walk (n : nat) (s : ci T) : exec (list Z * ci T) :=
  match n with
  | O => Ret ([], s)
  | S n' => let! r := ci_next s in let! q := ci_walk n' (snd r) in Ret (fst r :: fst q, snd q)
  end.

Fixpoint pos (w : list (Z * list (Z * T))) (k : nat) : option (nat * nat) :=
  match w with
  | [] => None
  | e :: w' => if (k <? length (snd e))%nat then Some (0, k)%nat
               else match pos w' (k - length (snd e)) with Some (i, j) => Some (S i, j) | None => None end
  end.

Lemma pos_entry : forall w k i j, pos w k = Some (i, j) -> exists e sw, nth_error w i = Some e /\ nth_error (snd e) j = Some sw /\
  nth_error (listed w) k = Some (fst sw, fst e, snd sw).
Proof.
  induction w as [|e w IH]; intros k i j H; [discriminate|]. cbn [pos] in H. unfold listed. cbn [flat_map]. destruct (k <? length (snd e))%nat eqn:E.
  - apply Nat.ltb_lt in E. injection H as <- <-. destruct (nth_error (snd e) k) as [sw|] eqn:F; [|apply nth_error_None in F; lia].
    exists e, sw. split; auto. split; auto. rewrite nth_error_app1 by (rewrite map_length; auto). rewrite nth_error_map, F. reflexivity.
  - apply Nat.ltb_ge in E. destruct (pos w (k - length (snd e))) as [[i' j']|] eqn:F; [|discriminate]. injection H as <- <-.
    destruct (IH _ _ _ F) as (e' & sw & A & B & C). exists e', sw. split; auto. split; auto.
    rewrite nth_error_app2 by (rewrite map_length; auto). rewrite map_length. exact C.
Qed.

Lemma pos_none : forall w k, pos w k = None <-> (length (listed w) <= k)%nat.
Proof.
  induction w as [|e w IH]; intros k; cbn [pos]; [cbn; split; [lia|auto]|]. unfold listed. cbn [flat_map]. rewrite app_length, map_length.
  fold (listed w). destruct (k <? length (snd e))%nat eqn:E.
  - apply Nat.ltb_lt in E. split; [discriminate|lia].
  - apply Nat.ltb_ge in E. specialize (IH (k - length (snd e))%nat). destruct (pos w (k - length (snd e))) as [[i j]|].
    + split; [discriminate|]. intros H. destruct IH as [_ IH]. discriminate IH. lia.
    + split; auto. intros _. destruct IH as [IH _]. specialize (IH eq_refl). lia.
Qed.

Definition full_rows (w : list (Z * list (Z * T))) : Prop := forall k r, In (k, r) w -> r <> [].

Lemma pos_first : forall w, full_rows w -> w <> [] -> pos w 0 = Some (0, 0)%nat.
Proof. intros [|[k [|sw r]] w] F H; try congruence; cbn; auto. exfalso. apply (F k []); [left; auto|auto]. Qed.

Lemma pos_next : forall w k i j e, full_rows w -> pos w k = Some (i, j) -> nth_error w i = Some e ->
  pos w (S k) = if (S j =? length (snd e))%nat then match nth_error w (S i) with Some _ => Some (S i, 0)%nat | None => None end else Some (i, S j).
Proof.
  induction w as [|e' w IH]; intros k i j e F H E; [discriminate|]. cbn [pos] in H. destruct (k <? length (snd e'))%nat eqn:L.
  - apply Nat.ltb_lt in L. injection H as <- <-. cbn [nth_error] in E. injection E as <-. cbn [pos nth_error].
    destruct (S k =? length (snd e'))%nat eqn:Q.
    + apply Nat.eqb_eq in Q. replace (S k <? length (snd e'))%nat with false by (symmetry; apply Nat.ltb_ge; lia).
      replace (S k - length (snd e'))%nat with 0%nat by lia. destruct w as [|x w]; [reflexivity|].
      rewrite pos_first; [reflexivity|intros a b I; apply (F a b); right; auto|discriminate].
    + apply Nat.eqb_neq in Q. replace (S k <? length (snd e'))%nat with true by (symmetry; apply Nat.ltb_lt; lia). reflexivity.
  - apply Nat.ltb_ge in L. destruct (pos w (k - length (snd e'))) as [[i' j']|] eqn:P; [|discriminate]. injection H as <- <-.
    cbn [nth_error] in E. cbn [pos]. replace (S k <? length (snd e'))%nat with false by (symmetry; apply Nat.ltb_ge; lia).
    replace (S k - length (snd e'))%nat with (S (k - length (snd e'))) by lia.
    rewrite (IH _ _ _ e (fun a b I => F a b (or_intror I)) P E). cbn [nth_error]. destruct (S j' =? length (snd e))%nat; auto.
    destruct w as [|? w]; cbn [nth_error] in *; [destruct i'; discriminate|]. destruct (nth_error w i'); auto.
Qed.

Lemma next_at : forall (s : ci T) k i j, full_rows (ci_weights s) -> pos (ci_weights s) k = Some (i, j) -> ci_it s = Some (i, j) ->
  ci_next s = match pos (ci_weights s) (S k) with
              | Some ij => Ret (0%Z, mkCi (ci_dst s) (ci_src s) (ci_weights s) (Some ij))
              | None => Undef EndDeref
              end.
Proof.
  intros s k i j F P I. destruct (pos_entry _ _ _ _ P) as (e & sw & E1 & E2 & _). unfold ci_next. rewrite I, E1.
  assert (L : (j < length (snd e))%nat) by (apply nth_error_Some; congruence).
  replace (length (snd e) <=? j)%nat with false by (symmetry; apply Nat.leb_gt; auto).
  rewrite (pos_next _ _ _ _ e F P E1). destruct (S j =? length (snd e))%nat; auto. destruct (nth_error (ci_weights s) (S i)); auto.
Qed.

Lemma walk_at : forall n (s : ci T) k ij ij', full_rows (ci_weights s) -> pos (ci_weights s) k = Some ij -> ci_it s = Some ij -> pos (ci_weights s) (k + n) = Some ij' ->
  ci_walk n s = Ret (repeat 0%Z n, mkCi (ci_dst s) (ci_src s) (ci_weights s) (Some ij')).
Proof.
  induction n as [|n IH]; intros s k ij ij' F P I P'.
  - rewrite Nat.add_0_r in P'. cbn. destruct s as [a b w it]. cbn in *. congruence.
  - destruct ij as [i j]. cbn [ci_walk]. rewrite (next_at s k i j F P I).
    destruct (pos (ci_weights s) (S k)) as [ij2|] eqn:Q.
    + cbn [bind fst snd]. rewrite (IH _ (S k) ij2 ij'); cbn [ci_weights ci_it]; auto. replace (S k + n)%nat with (k + S n)%nat by lia. auto.
    + exfalso. apply pos_none in Q. assert (X : pos (ci_weights s) (k + S n) <> None) by congruence. apply X. apply pos_none. lia.
Qed.

Lemma pos_some : forall w k, (k < length (listed w))%nat -> exists ij, pos w k = Some ij.
Proof. intros w k H. destruct (pos w k) eqn:E; eauto. apply pos_none in E. lia. Qed.

Lemma listed_full : forall w, full_rows w -> w <> [] -> (0 < length (listed w))%nat.
Proof. intros [|[k [|sw r]] w] F H; [congruence|exfalso; apply (F k []); [left; auto|auto]|cbn; lia]. Qed.

Lemma small_int : forall z, (0 <= z <= int_max)%Z -> to_int32 z = z.
Proof. intros z H. unfold to_int32. rewrite Z.mod_small by (unfold int_max in *; lia). lia. Qed.

Theorem iterate : forall s : ci T, full_rows (ci_weights s) -> ci_weights s <> [] ->
  (forall d r, In (d, r) (ci_weights s) -> (0 <= d <= int_max)%Z /\ forall e, In e r -> (0 <= fst e <= int_max)%Z) ->
  exists s0, ci_reset s = Ret s0 /\
  (forall k, (k < length (listed (ci_weights s)))%nat -> exists s' e, ci_walk k s0 = Ret (repeat 0%Z k, s') /\ nth_error (listed (ci_weights s)) k = Some e /\ ci_get s' = Ret e) /\
  ci_walk (length (listed (ci_weights s))) s0 = Undef EndDeref.
Proof.
  intros s F NE B. unfold ci_reset. destruct (ci_weights s) as [|x w'] eqn:EW; [congruence|]. rewrite <- EW in *. eexists. split; [reflexivity|].
  assert (P0 := pos_first _ F NE).
  assert (WK : forall k, (k < length (listed (ci_weights s)))%nat -> exists ij, pos (ci_weights s) k = Some ij /\
    ci_walk k (mkCi (ci_dst s) (ci_src s) (ci_weights s) (Some (0, 0)%nat)) = Ret (repeat 0%Z k, mkCi (ci_dst s) (ci_src s) (ci_weights s) (Some ij))).
  { intros k Hk. destruct (pos_some _ _ Hk) as (ij & P). exists ij. split; auto. exact (walk_at k (mkCi (ci_dst s) (ci_src s) (ci_weights s) (Some (0, 0)%nat)) 0%nat (0, 0)%nat ij F P0 eq_refl P). }
  split.
  - intros k Hk. destruct (WK k Hk) as ([i j] & P & W). destruct (pos_entry _ _ _ _ P) as (e & sw & E1 & E2 & E3).
    do 2 eexists. split; [exact W|]. split; [exact E3|]. unfold ci_get. cbn [ci_it ci_weights]. rewrite E1, E2.
    assert (I1 := nth_error_In _ _ E1). assert (I2 := nth_error_In _ _ E2). destruct e as [d r]. destruct (B d r I1) as [B1 B2].
    rewrite !small_int by (auto; apply B2; auto). reflexivity.
  - assert (L := listed_full _ F NE). destruct (length (listed (ci_weights s))) as [|m] eqn:EL; [lia|].
    destruct (WK m ltac:(lia)) as ([i j] & P & W).
    assert (X : forall n m' s1, ci_walk (n + m') s1 = let! q := ci_walk n s1 in let! r := ci_walk m' (snd q) in Ret (fst q ++ fst r, snd r)).
    { clear. induction n as [|n IH]; intros m' s1; cbn [Nat.add ci_walk].
      - cbn [bind fst snd app]. destruct (ci_walk m' s1) as [[a b]|]; reflexivity.
      - destruct (ci_next s1) as [[c s2]|]; cbn [bind]; auto. rewrite IH. cbn [snd fst]. destruct (ci_walk n s2) as [[a b]|]; cbn [bind fst snd]; auto.
        destruct (ci_walk m' b) as [[a' b']|]; reflexivity. }
    replace (S m) with (m + 1)%nat by lia. rewrite X, W. cbn [bind snd fst ci_walk].
    rewrite (next_at (mkCi (ci_dst s) (ci_src s) (ci_weights s) (Some (i, j))) m i j F P eq_refl). cbn [ci_weights].
    replace (pos (ci_weights s) (S m)) with (@None (nat * nat)); [reflexivity|]. symmetry. apply pos_none. lia.
Qed.

End Iter.
