(** Convex polygons given by ranks in a counter-clockwise list of points. *)
From Coq Require Import List Reals Lra Lia Permutation Arith PeanoNat.
From Verif Require Import S_Geometry.
Import ListNotations.
Open Scope R_scope.

(** ** Algebra of cross products *)
Lemma cr_rot : forall a b c, cr a b c = cr b c a.
Proof. intros. unfold cr. ring. Qed.
Lemma cr_swap : forall a b c, cr a b c = - cr a c b.
Proof. intros. unfold cr. ring. Qed.
Lemma cr_same1 : forall a b, cr a a b = 0.
Proof. intros. unfold cr. ring. Qed.
Lemma cr_same2 : forall a b, cr a b b = 0.
Proof. intros. unfold cr. ring. Qed.
Lemma cr_same3 : forall a b, cr a b a = 0.
Proof. intros. unfold cr. ring. Qed.
Lemma cr_det2 : forall a p b, det2 a p + det2 p b = det2 a b + cr a p b.
Proof. intros. unfold det2, cr. ring. Qed.

(** A point on the line through two distinct points. *)
Lemma on_line : forall a b p, a <> b -> cr a b p = 0 ->
  exists t, fst p = fst a + t * (fst b - fst a) /\ snd p = snd a + t * (snd b - snd a).
Proof.
  intros [ax ay] [bx by_] [px py] H C. unfold cr in C. cbn [fst snd] in *.
  destruct (Req_dec (bx - ax) 0) as [E|E].
  - assert (N : by_ - ay <> 0) by (intros E2; apply H; f_equal; lra).
    exists ((py - ay) / (by_ - ay)). split; [|field; auto].
    rewrite E, Rmult_0_l, Rminus_0_l in C. rewrite E, Rmult_0_r. assert (px - ax = 0); [|lra].
    apply Rmult_eq_reg_l with (by_ - ay); auto. lra.
  - exists ((px - ax) / (bx - ax)). split; [field; auto|].
    apply Rmult_eq_reg_l with (bx - ax); auto.
    replace ((bx - ax) * (ay + (px - ax) / (bx - ax) * (by_ - ay))) with ((bx - ax) * ay + (px - ax) * (by_ - ay)) by (field; auto). lra.
Qed.

Lemma cr_param1 : forall a b p q t, fst p = fst a + t * (fst b - fst a) -> snd p = snd a + t * (snd b - snd a) ->
  cr a p q = t * cr a b q.
Proof. intros a b p q t E1 E2. unfold cr. rewrite E1, E2. ring. Qed.

Lemma cr_param2 : forall a b p q t, fst p = fst a + t * (fst b - fst a) -> snd p = snd a + t * (snd b - snd a) ->
  cr p b q = (1 - t) * cr a b q.
Proof. intros a b p q t E1 E2. unfold cr. rewrite E1, E2. ring. Qed.

Lemma param_ends : forall a b p t, fst p = fst a + t * (fst b - fst a) -> snd p = snd a + t * (snd b - snd a) ->
  (t = 0 -> p = a) /\ (t = 1 -> p = b).
Proof.
  intros [ax ay] [bx by_] [px py] t E1 E2. cbn [fst snd] in *.
  split; intros ->; f_equal; lra.
Qed.

(** ** Cyclic order of ranks *)
Definition cyc3 (a b c : nat) : Prop := (a < b < c \/ b < c < a \/ c < a < b)%nat.

Section Ranks.
Variable P : list point.
Hypothesis CV : convex_ccw P.
Notation pp := (nthp P).
Let m := length P.

Lemma cyc_cr : forall a b c, cyc3 a b c -> (a < m)%nat -> (b < m)%nat -> (c < m)%nat -> 0 <= cr (pp a) (pp b) (pp c).
Proof.
  intros a b c [H|[H|H]] Ha Hb Hc.
  - apply CV; auto.
  - rewrite cr_rot. apply CV; auto.
  - rewrite cr_rot, cr_rot. apply CV; auto.
Qed.

(** ** Consecutive pairs of a list, the last followed by the first *)
Fixpoint pairs (l : list nat) : list (nat * nat) :=
  match l with
  | a :: ((b :: _) as l') => (a, b) :: pairs l'
  | _ => []
  end.
Definition cyc (l : list nat) : list (nat * nat) :=
  match l with [] => [] | a :: _ => pairs (l ++ [a]) end.

Lemma pairs_app : forall l1 a l2, pairs (l1 ++ a :: l2) = pairs (l1 ++ [a]) ++ pairs (a :: l2).
Proof.
  induction l1 as [|x [|y l1] IH]; intros a l2; auto.
  - simpl in *. f_equal. apply IH.
Qed.

Lemma pairs_in : forall l a b, In (a, b) (pairs l) -> In a l /\ In b l.
Proof.
  induction l as [|x [|y l] IH]; intros a b H; [destruct H|destruct H|]. destruct H as [H|H].
  - injection H as <- <-. simpl. auto.
  - apply IH in H. simpl in *. tauto.
Qed.

Lemma cyc_in : forall l a b, In (a, b) (cyc l) -> In a l /\ In b l.
Proof.
  intros [|x l] a b H; [destruct H|]. unfold cyc in H. apply pairs_in in H.
  rewrite !in_app_iff in H. simpl in *. tauto.
Qed.

Fixpoint incr (l : list nat) : Prop :=
  match l with
  | a :: ((b :: _) as l') => (a < b)%nat /\ incr l'
  | _ => True
  end.

Lemma incr_tail : forall a l, incr (a :: l) -> incr l.
Proof. intros a [|b l] H; simpl in *; tauto. Qed.

Lemma incr_lt : forall l a x, incr (a :: l) -> In x l -> (a < x)%nat.
Proof.
  induction l as [|b l IH]; intros a x H Hx; [destruct Hx|]. destruct H as [H1 H2].
  destruct Hx as [->|Hx]; auto. specialize (IH b x H2 Hx). lia.
Qed.

Lemma incr_NoDup : forall l, incr l -> NoDup l.
Proof.
  induction l as [|a l IH]; intros H; constructor.
  - intros C. apply (incr_lt l a a H) in C. lia.
  - apply IH. eapply incr_tail; eauto.
Qed.

Lemma incr_app : forall l1 l2, incr (l1 ++ l2) <-> incr l1 /\ incr l2 /\ forall x y, In x l1 -> In y l2 -> (x < y)%nat.
Proof.
  induction l1 as [|a l1 IH]; intros l2; simpl.
  - split; [intros; repeat split; auto; intros ? ? []|tauto].
  - split.
    + intros H. assert (H' : incr (l1 ++ l2)) by (eapply incr_tail; eauto). apply IH in H'.
      destruct H' as (A & B & C). repeat split; auto.
      * destruct l1; simpl in *; auto. split; auto. apply H.
      * intros x y [<-|Hx] Hy; auto. apply (incr_lt (l1 ++ l2) a y H). apply in_or_app. auto.
    + intros (A & B & C). assert (H' : incr (l1 ++ l2)).
      { apply IH. split; [destruct l1; [exact I|apply A]|]. split; auto. }
      destruct (l1 ++ l2) as [|b l] eqn:E; auto. split; auto.
      destruct l1 as [|c l1]; simpl in E.
      * subst. apply C; simpl; auto.
      * injection E as <- <-. apply A.
Qed.

Lemma pairs_incr : forall l a b, incr l -> In (a, b) (pairs l) -> (a < b)%nat /\
  forall x, In x l -> (x <= a \/ b <= x)%nat.
Proof.
  induction l as [|x [|y l] IH]; intros a b H Hin; [destruct Hin|destruct Hin|]. destruct Hin as [E|Hin].
  - injection E as <- <-. split; [apply H|]. intros z [<-|[<-|Hz]]; try lia.
    destruct H as [_ H]. apply (incr_lt l y z H) in Hz. lia.
  - destruct H as [H1 H2]. destruct (IH a b H2 Hin) as [A B]. split; auto.
    intros z [<-|Hz]; [|auto]. left. apply pairs_in in Hin. destruct Hin as [Hin _].
    destruct Hin as [->|Hin]; [lia|]. apply (incr_lt l y a H2) in Hin. lia.
Qed.

(** An edge of the cycle: no rank of the list strictly inside its arc. *)
Lemma cyc_arc : forall l a b x, incr l -> In (a, b) (cyc l) -> In x l -> x <> a -> x <> b -> cyc3 a b x \/ a = b.
Proof.
  intros [|h l] a b x H Hin Hx Na Nb; [destruct Hin|]. unfold cyc in Hin.
  assert (E : h :: l = removelast (h :: l) ++ [last (h :: l) 0%nat]) by (apply app_removelast_last; discriminate).
  set (r := removelast (h :: l)) in *. set (z := last (h :: l) 0%nat) in *.
  rewrite E in Hin. rewrite <- app_assoc in Hin. cbn [app] in Hin. rewrite pairs_app in Hin.
  apply in_app_or in Hin. destruct Hin as [Hin|Hin].
  - rewrite <- E in Hin. destruct (pairs_incr _ _ _ H Hin) as [A B]. left.
    destruct (B x Hx); unfold cyc3; lia.
  - cbn [pairs] in Hin. destruct Hin as [Hin|[]]. injection Hin as <- <-.
    assert (x < z)%nat.
    { assert (H' := H). rewrite E in H'. apply incr_app in H'. destruct H' as (_ & _ & C).
      rewrite E in Hx. apply in_app_or in Hx. destruct Hx as [Hx|[Hx|[]]]; [|congruence].
      apply C; simpl; auto. }
    destruct Hx as [->|Hx]; [congruence|]. apply (incr_lt l h x H) in Hx. left. unfold cyc3. lia.
Qed.

(** Splitting the cycle at a new rank. *)
Lemma cyc_split : forall l r, incr l -> (2 <= length l)%nat -> ~ In r l ->
  exists l' a b rest, incr l' /\ length l' = S (length l) /\ (forall x, In x l' <-> x = r \/ In x l) /\
    Permutation (cyc l) ((a, b) :: rest) /\ Permutation (cyc l') ((a, r) :: (r, b) :: rest) /\
    cyc3 a r b /\ forall c d, In (c, d) rest -> (c = d \/ cyc3 r c d).
Proof.
  intros l r H L Hr.
  assert (S : exists l1 l2, l = l1 ++ l2 /\ (forall x, In x l1 -> (x < r)%nat) /\ (forall x, In x l2 -> (r < x)%nat)).
  { clear L. induction l as [|a l IH].
    - exists [], []. repeat split; auto; intros x [].
    - destruct (lt_eq_lt_dec a r) as [[Lt|E]|Gt]; [|subst; exfalso; apply Hr; simpl; auto|].
      + destruct IH as (l1 & l2 & -> & A & B); [eapply incr_tail; eauto|intros C; apply Hr; simpl; auto|].
        exists (a :: l1), l2. repeat split; auto. intros x [<-|Hx]; auto.
      + exists [], (a :: l). repeat split; auto; [intros x []|]. intros x [<-|Hx]; auto.
        apply (incr_lt l a x H) in Hx. lia. }
  destruct S as (l1 & l2 & -> & A & B). exists (l1 ++ r :: l2).
  assert (HH := H). apply incr_app in HH. destruct HH as (I1 & I2 & I12).
  assert (I' : incr (l1 ++ r :: l2)).
  { apply incr_app. split; auto. split.
    - destruct l2 as [|y l2]; [exact I|]. split; [apply B; simpl; auto|exact I2].
    - intros x y Hx [<-|Hy]; auto. }
  assert (LL : length (l1 ++ r :: l2) = S (length (l1 ++ l2))) by (rewrite !app_length; simpl; lia).
  assert (II : forall x, In x (l1 ++ r :: l2) <-> x = r \/ In x (l1 ++ l2)).
  { intros x. rewrite !in_app_iff. simpl. split; intros HX; intuition. }
  (* edges inside l1 or l2, never around r *)
  assert (E1 : forall l c d, incr l -> (forall x, In x l -> (x < r)%nat) -> In (c, d) (pairs l) -> cyc3 r c d).
  { intros q c d Iq Lq Hin. destruct (pairs_incr _ _ _ Iq Hin) as [U _]. apply pairs_in in Hin.
    destruct Hin as [_ Hd]. apply Lq in Hd. unfold cyc3. lia. }
  assert (E2 : forall l c d, incr l -> (forall x, In x l -> (r < x)%nat) -> In (c, d) (pairs l) -> cyc3 r c d).
  { intros q c d Iq Lq Hin. destruct (pairs_incr _ _ _ Iq Hin) as [U _]. apply pairs_in in Hin.
    destruct Hin as [Hc _]. apply Lq in Hc. unfold cyc3. lia. }
  destruct l1 as [|h1 t1].
  - (* r first *)
    destruct l2 as [|h2 t2]; [simpl in L; lia|]. cbn [app] in *.
    assert (E : h2 :: t2 = removelast (h2 :: t2) ++ [last (h2 :: t2) 0%nat]) by (apply app_removelast_last; discriminate).
    set (q := removelast (h2 :: t2)) in *. set (z := last (h2 :: t2) 0%nat) in *.
    exists z, h2, (pairs (h2 :: t2)). split; auto. split; auto. split; auto. split; [|split; [|split]].
    + unfold cyc. rewrite E at 1. rewrite <- app_assoc. cbn [app]. rewrite pairs_app, <- E. cbn [pairs].
      symmetry. apply Permutation_cons_append.
    + change (cyc (r :: h2 :: t2)) with ((r, h2) :: pairs ((h2 :: t2) ++ [r])).
      rewrite E at 1. rewrite <- app_assoc. cbn [app]. rewrite pairs_app, <- E. cbn [pairs].
      rewrite perm_swap. apply perm_skip. symmetry. apply Permutation_cons_append.
    + assert (h2 < z)%nat.
      { assert (In z t2); [|apply (incr_lt t2 h2 z I2); auto].
        destruct t2 as [|u t2]; [simpl in L; lia|]. unfold z. clear.
        change (last (h2 :: u :: t2) 0%nat) with (last (u :: t2) 0%nat).
        revert u. induction t2 as [|v t2 IH]; intros u; [simpl; auto|]. right. apply IH. }
      assert (r < h2)%nat by (apply B; simpl; auto). unfold cyc3. lia.
    + intros c d Hin. right. apply (E2 (h2 :: t2)); auto.
  - destruct l2 as [|h2 t2].
    + (* r last *)
      rewrite app_nil_r in *. 
      assert (E : h1 :: t1 = removelast (h1 :: t1) ++ [last (h1 :: t1) 0%nat]) by (apply app_removelast_last; discriminate).
      set (q := removelast (h1 :: t1)) in *. set (z := last (h1 :: t1) 0%nat) in *.
      assert (Hz : In z (h1 :: t1)) by (rewrite E; apply in_or_app; simpl; auto).
      exists z, h1, (pairs (h1 :: t1)). split; auto. split; auto. split; auto. split; [|split; [|split]].
      * unfold cyc. rewrite E at 1. rewrite <- app_assoc. cbn [app]. rewrite pairs_app, <- E. cbn [pairs].
        symmetry. apply Permutation_cons_append.
      * change (cyc ((h1 :: t1) ++ [r])) with (pairs (((h1 :: t1) ++ [r]) ++ [h1])).
        rewrite E at 1. rewrite <- !app_assoc. cbn [app]. rewrite pairs_app, <- E. cbn [pairs].
        etransitivity; [apply Permutation_app_comm|]. cbn [app]. reflexivity.
      * assert (h1 < z)%nat.
        { assert (In z t1); [|apply (incr_lt t1 h1 z I1); auto].
          destruct t1 as [|u t1]; [simpl in L; lia|]. unfold z. clear.
          change (last (h1 :: u :: t1) 0%nat) with (last (u :: t1) 0%nat).
          revert u. induction t1 as [|v t1 IH]; intros u; [simpl; auto|]. right. apply IH. }
        assert (z < r)%nat by (apply A; auto). unfold cyc3. lia.
      * intros c d Hin. right. apply (E1 (h1 :: t1)); auto.
    + (* r in the middle *)
      assert (E : h1 :: t1 = removelast (h1 :: t1) ++ [last (h1 :: t1) 0%nat]) by (apply app_removelast_last; discriminate).
      set (q := removelast (h1 :: t1)) in *. set (z := last (h1 :: t1) 0%nat) in *.
      assert (Hz : In z (h1 :: t1)) by (rewrite E; apply in_or_app; simpl; auto).
      exists z, h2, (pairs (h1 :: t1) ++ pairs ((h2 :: t2) ++ [h1])).
      split; auto. split; auto. split; auto. split; [|split; [|split]].
      * change (cyc ((h1 :: t1) ++ h2 :: t2)) with (pairs (((h1 :: t1) ++ h2 :: t2) ++ [h1])).
        rewrite E at 1. rewrite <- !app_assoc. cbn [app]. rewrite pairs_app, <- E.
        change (pairs (z :: h2 :: t2 ++ [h1])) with ((z, h2) :: pairs (h2 :: t2 ++ [h1])).
        symmetry. apply Permutation_middle.
      * change (cyc ((h1 :: t1) ++ r :: h2 :: t2)) with (pairs (((h1 :: t1) ++ r :: h2 :: t2) ++ [h1])).
        rewrite E at 1. rewrite <- !app_assoc. cbn [app]. rewrite pairs_app, <- E.
        change (pairs (z :: r :: h2 :: t2 ++ [h1])) with ((z, r) :: (r, h2) :: pairs (h2 :: t2 ++ [h1])).
        etransitivity; [symmetry; apply Permutation_middle|]. apply perm_skip. symmetry. apply Permutation_middle.
      * assert (z < r)%nat by (apply A; auto). assert (r < h2)%nat by (apply B; simpl; auto). unfold cyc3. lia.
      * intros c d Hin. apply in_app_or in Hin. right. destruct Hin as [Hin|Hin]; [apply (E1 (h1 :: t1)); auto|].
        assert (F : h2 :: t2 = removelast (h2 :: t2) ++ [last (h2 :: t2) 0%nat]) by (apply app_removelast_last; discriminate).
        set (q2 := removelast (h2 :: t2)) in *. set (z2 := last (h2 :: t2) 0%nat) in *.
        assert (Hz2 : In z2 (h2 :: t2)) by (rewrite F; apply in_or_app; simpl; auto).
        rewrite F, <- app_assoc in Hin. cbn [app] in Hin. rewrite pairs_app, <- F in Hin.
        apply in_app_or in Hin. destruct Hin as [Hin|Hin]; [apply (E2 (h2 :: t2)); auto|].
        cbn [pairs] in Hin. destruct Hin as [Hin|[]]. injection Hin as <- <-.
        assert (h1 < r)%nat by (apply A; simpl; auto). assert (r < z2)%nat by (apply B; auto). unfold cyc3. lia.
Qed.

(** ** Sums over edges *)
Fixpoint esum (es : list (nat * nat)) : R :=
  match es with [] => 0 | e :: es' => det2 (pp (fst e)) (pp (snd e)) + esum es' end.

Lemma esum_perm : forall a b, Permutation a b -> esum a = esum b.
Proof. induction 1; simpl; lra. Qed.

Hypothesis ND : NoDup P.

Lemma pp_inj : forall a b, (a < m)%nat -> (b < m)%nat -> pp a = pp b -> a = b.
Proof. intros a b Ha Hb E. rewrite NoDup_nth in ND. apply ND; eauto. Qed.

Lemma cyc_neq : forall l a b, incr l -> (2 <= length l)%nat -> In (a, b) (cyc l) -> a <> b.
Proof.
  intros [|h l] a b H L Hin; [destruct Hin|]. unfold cyc in Hin.
  assert (E : h :: l = removelast (h :: l) ++ [last (h :: l) 0%nat]) by (apply app_removelast_last; discriminate).
  set (r := removelast (h :: l)) in *. set (z := last (h :: l) 0%nat) in *.
  rewrite E in Hin. rewrite <- app_assoc in Hin. cbn [app] in Hin. rewrite pairs_app in Hin.
  apply in_app_or in Hin. destruct Hin as [Hin|Hin].
  - rewrite <- E in Hin. destruct (pairs_incr _ _ _ H Hin) as [A _]. lia.
  - cbn [pairs] in Hin. destruct Hin as [Hin|[]]. injection Hin as <- <-.
    clearbody r z. destruct r as [|y r]; cbn [app] in E.
    + injection E as _ E. subst l. simpl in L. lia.
    + injection E as <- E. assert (In z l) by (rewrite E; apply in_or_app; simpl; auto).
      apply (incr_lt l h z H) in H0. lia.
Qed.

(** ** Adding the ranks that make no difference *)
Definition covered (B : list nat) (r : nat) : Prop :=
  In r B \/ exists a b, In (a, b) (cyc B) /\ cyc3 a r b /\ cr (pp a) (pp r) (pp b) = 0.

Definition below (B : list nat) : Prop := forall x, In x B -> (x < m)%nat.

Lemma incr_ext : forall l l', incr l -> incr l' -> (forall x, In x l <-> In x l') -> l = l'.
Proof.
  induction l as [|a l IH]; intros [|b l'] H H' E; auto.
  - exfalso. apply (E b). simpl. auto.
  - exfalso. apply (E a). simpl. auto.
  - assert (a = b).
    { destruct (proj1 (E a) (or_introl eq_refl)) as [->|A]; auto.
      destruct (proj2 (E b) (or_introl eq_refl)) as [->|A']; auto.
      apply (incr_lt _ _ _ H') in A. apply (incr_lt _ _ _ H) in A'. lia. }
    subst b. f_equal. apply IH; [eapply incr_tail; eauto|eapply incr_tail; eauto|].
    intros x. split; intros Hx.
    + destruct (proj1 (E x) (or_intror Hx)) as [->|]; auto. apply (incr_lt _ _ _ H) in Hx. lia.
    + destruct (proj2 (E x) (or_intror Hx)) as [->|]; auto. apply (incr_lt _ _ _ H') in Hx. lia.
Qed.

Lemma incr_seq : forall n k, incr (seq k n).
Proof. induction n as [|[|n] IH]; intros k; simpl; auto. split; [lia|]. apply (IH (S k)). Qed.

Lemma length_le_below : forall B, incr B -> below B -> (length B <= m)%nat.
Proof.
  intros B H HB. rewrite <- (seq_length m 0). apply NoDup_incl_length; [apply incr_NoDup; auto|].
  intros x Hx. apply in_seq. apply HB in Hx. lia.
Qed.

Lemma fill : forall k B, (m - length B = k)%nat -> incr B -> below B -> (2 <= length B)%nat ->
  (forall r, (r < m)%nat -> covered B r) -> esum (cyc B) = esum (cyc (seq 0 m)).
Proof.
  induction k as [|k IH]; intros B K HI HB HL HC.
  - assert (E : B = seq 0 m); [|rewrite E; auto].
    apply incr_ext; auto; [apply incr_seq|]. intros x. split; intros Hx.
    + apply in_seq. apply HB in Hx. lia.
    + apply in_seq in Hx.
      assert (L := length_le_below B HI HB).
      apply (NoDup_length_incl (l := B) (l' := seq 0 m)).
      * apply incr_NoDup; auto. * rewrite seq_length. lia.
      * intros y Hy. apply in_seq. apply HB in Hy. lia.
      * apply in_seq. lia.
  - assert (EX : exists r0, (r0 < m)%nat /\ ~ In r0 B).
    { destruct (filter (fun r => if in_dec Nat.eq_dec r B then false else true) (seq 0 m)) as [|r0 rs] eqn:F.
      - exfalso. assert (INC : incl (seq 0 m) B).
        { intros x Hx. destruct (in_dec Nat.eq_dec x B) as [|Nx]; auto. exfalso.
          assert (In x []); [|auto]. rewrite <- F. apply filter_In. split; auto.
          destruct (in_dec Nat.eq_dec x B); auto. }
        apply NoDup_incl_length in INC; [|apply seq_NoDup]. rewrite seq_length in INC. lia.
      - assert (Hr : In r0 (r0 :: rs)) by (simpl; auto). rewrite <- F in Hr.
        apply filter_In in Hr. destruct Hr as [Hr1 Hr2]. apply in_seq in Hr1. exists r0. split; [lia|].
        destruct (in_dec Nat.eq_dec r0 B); [discriminate|auto]. }
    destruct EX as (r0 & Hr & Hn).
    destruct (cyc_split B r0 HI HL Hn) as (B' & a & b & rest & I' & L' & M' & P1 & P2 & C3 & RS).
    assert (HAB : In (a, b) (cyc B)) by (apply (Permutation_in _ (Permutation_sym P1)); simpl; auto).
    assert (Z : cr (pp a) (pp r0) (pp b) = 0).
    { destruct (HC r0 Hr) as [C|(a2 & b2 & Hin & C3' & Z)]; [contradiction|].
      apply (Permutation_in _ P1) in Hin. destruct Hin as [E|Hin]; [injection E as <- <-; auto|].
      exfalso. destruct (RS _ _ Hin) as [->|Q]; unfold cyc3 in *; lia. }
    destruct (cyc_in _ _ _ HAB) as [Ha Hb]. apply HB in Ha. apply HB in Hb.
    assert (NE : pp a <> pp b) by (intros E; apply pp_inj in E; auto; revert E; apply (cyc_neq B); auto).
    assert (Z' : cr (pp a) (pp b) (pp r0) = 0) by (rewrite cr_swap; lra).
    destruct (on_line _ _ _ NE Z') as (t & T1 & T2).
    rewrite (esum_perm _ _ P1). cbn [esum fst snd].
    rewrite <- (IH B'); auto; try lia.
    + rewrite (esum_perm _ _ P2). cbn [esum fst snd].
      assert (D := cr_det2 (pp a) (pp r0) (pp b)). lra.
    + intros x Hx. apply M' in Hx. destruct Hx as [->|Hx]; auto.
    + intros r' Hr'. destruct (HC r' Hr') as [C|(a2 & b2 & Hin & C3' & Z2)]; [left; apply M'; auto|].
      destruct (Nat.eq_dec r' r0) as [->|Nr]; [left; apply M'; auto|].
      apply (Permutation_in _ P1) in Hin. destruct Hin as [E|Hin];
        [|right; exists a2, b2; split; auto; apply (Permutation_in _ (Permutation_sym P2)); simpl; auto].
      injection E as <- <-.
      assert (Q : cyc3 a r' r0 \/ cyc3 r0 r' b) by (unfold cyc3 in *; lia).
      assert (Z3 : cr (pp a) (pp b) (pp r') = 0) by (rewrite cr_swap; lra).
      destruct Q as [Q|Q]; right; [exists a, r0|exists r0, b];
        (split; [apply (Permutation_in _ (Permutation_sym P2)); simpl; auto|split; auto]); rewrite cr_swap.
      * rewrite (cr_param1 _ _ _ (pp r') _ T1 T2), Z3. ring.
      * rewrite (cr_param2 _ _ _ (pp r') _ T1 T2), Z3. ring.
Qed.

(** ** The invariant of insertion *)
Record poly_inv (B S : list nat) (tot : R) : Prop := mkInv {
  pi_incr : incr B;
  pi_below : below B;
  pi_len : (3 <= length B)%nat;
  pi_turn : forall a b, In (a, b) (cyc B) -> exists c, In c B /\ 0 < cr (pp a) (pp b) (pp c);
  pi_sum : tot = esum (cyc B);
  pi_cov : forall r, In r S -> (r < m)%nat /\ covered B r }.

(** A rank on an edge blocks the edge. *)
Lemma zero_blocks : forall a b c r q, (a < m)%nat -> (b < m)%nat -> (c < m)%nat -> (r < m)%nat -> (q < m)%nat ->
  a <> b -> c <> a -> c <> b -> cyc3 a b c -> 0 < cr (pp a) (pp b) (pp c) ->
  cyc3 a r b -> cr (pp a) (pp r) (pp b) = 0 -> cyc3 a q b -> cr (pp a) (pp q) (pp b) = 0.
Proof.
  intros a b c r q Ha Hb Hc Hr Hq Nab Nca Ncb C0 Pos Cr Zr Cq.
  assert (NE : pp a <> pp b) by (intros E; apply pp_inj in E; auto).
  assert (Zr' : cr (pp a) (pp b) (pp r) = 0) by (rewrite cr_swap; lra).
  destruct (on_line _ _ _ NE Zr') as (t & T1 & T2).
  assert (PE := param_ends _ _ _ _ T1 T2).
  assert (t0 : t <> 0) by (intros E; apply PE in E; apply pp_inj in E; auto; unfold cyc3 in *; lia).
  assert (t1 : t <> 1) by (intros E; apply PE in E; apply pp_inj in E; auto; unfold cyc3 in *; lia).
  assert (G1 : 0 <= cr (pp a) (pp r) (pp c)) by (apply cyc_cr; auto; unfold cyc3 in *; lia).
  assert (G2 : 0 <= cr (pp r) (pp b) (pp c)) by (apply cyc_cr; auto; unfold cyc3 in *; lia).
  rewrite (cr_param1 _ _ _ (pp c) _ T1 T2) in G1. rewrite (cr_param2 _ _ _ (pp c) _ T1 T2) in G2.
  assert (0 < t) by (destruct (Rtotal_order t 0) as [?|[?|?]]; [exfalso; nra|contradiction|auto]).
  assert (0 < 1 - t) by (destruct (Rtotal_order (1 - t) 0) as [?|[?|?]]; [exfalso; nra|exfalso; lra|auto]).
  assert (G3 : 0 <= cr (pp a) (pp q) (pp b)) by (apply cyc_cr; auto).
  destruct (Nat.eq_dec q r) as [->|Nqr]; auto.
  assert (Q : cyc3 a q r \/ cyc3 r q b) by (unfold cyc3 in *; lia).
  destruct Q as [Q|Q].
  - assert (G4 : 0 <= cr (pp q) (pp r) (pp b)) by (apply cyc_cr; auto; unfold cyc3 in *; lia).
    rewrite cr_rot in G4. rewrite (cr_param2 _ _ _ (pp q) _ T1 T2) in G4.
    rewrite (cr_swap (pp a) (pp b)) in G4. nra.
  - assert (G4 : 0 <= cr (pp a) (pp r) (pp q)) by (apply cyc_cr; auto; unfold cyc3 in *; lia).
    rewrite (cr_param1 _ _ _ (pp q) _ T1 T2) in G4. rewrite (cr_swap (pp a) (pp b)) in G4. nra.
Qed.

Theorem insert_step : forall eps B S tot q, poly_inv B S tot -> (q < m)%nat -> 0 <= eps ->
  (forall a b, (a < m)%nat -> (b < m)%nat -> cr (pp q) (pp a) (pp b) = 0 \/ eps < Rabs (cr (pp q) (pp a) (pp b))) ->
  ((forall c d, In (c, d) (cyc B) -> ~ cr (pp q) (pp c) (pp d) < - eps) /\ poly_inv B (q :: S) tot) \/
  (exists a b rest B', Permutation (cyc B) ((a, b) :: rest) /\ cr (pp q) (pp a) (pp b) < - eps /\
     (forall c d, In (c, d) rest -> ~ cr (pp q) (pp c) (pp d) < - eps) /\
     Permutation (cyc B') ((a, q) :: (q, b) :: rest) /\
     poly_inv B' (q :: S) (tot + cr (pp a) (pp q) (pp b))).
Proof.
  intros eps B S tot q [HI HB HL HT HS HC] Hq He SEP.
  destruct (in_dec Nat.eq_dec q B) as [Hin|Hn].
  - left. split.
    + intros c d Hcd. destruct (cyc_in _ _ _ Hcd) as [Hc Hd].
      enough (0 <= cr (pp q) (pp c) (pp d)) by lra.
      destruct (Nat.eq_dec q c) as [->|Nc]; [rewrite cr_same1; lra|].
      destruct (Nat.eq_dec q d) as [->|Nd]; [rewrite cr_same3; lra|].
      destruct (cyc_arc B c d q HI Hcd Hin Nc Nd) as [C3| ->]; [|rewrite cr_same2; lra].
      rewrite cr_rot. apply cyc_cr; auto.
    + constructor; auto. intros r [<-|Hr]; auto. split; auto. left. auto.
  - destruct (cyc_split B q HI ltac:(lia) Hn) as (B' & a & b & rest & I' & L' & M' & P1 & P2 & C3 & RS).
    assert (HAB : In (a, b) (cyc B)) by (apply (Permutation_in _ (Permutation_sym P1)); simpl; auto).
    destruct (cyc_in _ _ _ HAB) as [Ha' Hb']. assert (Ha := HB _ Ha'). assert (Hb := HB _ Hb').
    assert (Hrest : forall c d, In (c, d) rest -> ~ cr (pp q) (pp c) (pp d) < - eps).
    { intros c d Hcd. assert (Hin : In (c, d) (cyc B)) by (apply (Permutation_in _ (Permutation_sym P1)); simpl; auto).
      destruct (cyc_in _ _ _ Hin) as [Hc Hd]. enough (0 <= cr (pp q) (pp c) (pp d)) by lra.
      destruct (RS c d Hcd) as [->|Q]; [rewrite cr_same2; lra|]. apply cyc_cr; auto. }
    assert (G : 0 <= cr (pp a) (pp q) (pp b)) by (apply cyc_cr; auto).
    assert (Sg : cr (pp q) (pp a) (pp b) = - cr (pp a) (pp q) (pp b)).
    { rewrite (cr_rot (pp q)), (cr_swap (pp a)). ring. }
    assert (SEP' := SEP a b Ha Hb). rewrite Sg, Rabs_Ropp, Rabs_pos_eq in SEP' by auto.
    destruct (Req_dec (cr (pp a) (pp q) (pp b)) 0) as [Z|NZ].
    + left. split.
      * intros c d Hcd. apply (Permutation_in _ P1) in Hcd. destruct Hcd as [E|Hcd]; [|auto].
        injection E as <- <-. rewrite Sg. lra.
      * constructor; auto. intros r [<-|Hr]; auto. split; auto. right. exists a, b. auto.
    + assert (V : eps < cr (pp a) (pp q) (pp b)) by (destruct SEP' as [E|E]; [exfalso; apply NZ; lra|auto]).
      right. exists a, b, rest, B'. split; auto. split; [rewrite Sg; lra|]. split; auto. split; auto.
      assert (M1 : forall x, In x B -> In x B') by (intros x Hx; apply M'; auto).
      constructor; auto; try lia.
      * intros x Hx. apply M' in Hx. destruct Hx as [->|Hx]; auto.
      * intros c d Hcd. apply (Permutation_in _ P2) in Hcd. destruct Hcd as [E|[E|Hcd]].
        -- injection E as <- <-. exists b. split; auto. lra.
        -- injection E as <- <-. exists a. split; auto. rewrite <- cr_rot. lra.
        -- destruct (HT c d) as (x & Hx & Px); [apply (Permutation_in _ (Permutation_sym P1)); simpl; auto|].
           exists x. auto.
      * rewrite (esum_perm _ _ P2). cbn [esum fst snd]. rewrite HS, (esum_perm _ _ P1). cbn [esum fst snd].
        assert (D := cr_det2 (pp a) (pp q) (pp b)). lra.
      * intros r [<-|Hr]; [split; auto; left; apply M'; auto|]. destruct (HC r Hr) as [Hr1 Hr2]. split; auto.
        destruct Hr2 as [Hr2|(a2 & b2 & Hin & C3' & Z)]; [left; auto|].
        apply (Permutation_in _ P1) in Hin. destruct Hin as [E|Hin].
        -- exfalso. injection E as <- <-. destruct (HT a b HAB) as (c & Hc & Pc).
           assert (Nab : a <> b) by (unfold cyc3 in C3; lia).
           assert (Nca : c <> a) by (intros ->; rewrite cr_same3 in Pc; lra).
           assert (Ncb : c <> b) by (intros ->; rewrite cr_same2 in Pc; lra).
           destruct (cyc_arc B a b c HI HAB Hc Nca Ncb) as [Q|Q]; [|contradiction].
           apply NZ. apply (zero_blocks a b c r q); auto.
        -- right. exists a2, b2. split; auto. apply (Permutation_in _ (Permutation_sym P2)). simpl. auto.
Qed.

Lemma esum_pairs_map : forall l, esum (pairs l) = chain_sum (map pp l).
Proof.
  induction l as [|a [|b l] IH]; auto. cbn [pairs map chain_sum esum fst snd] in *. rewrite IH. reflexivity.
Qed.

Lemma esum_all : esum (cyc (seq 0 m)) = shoelace P.
Proof.
  assert (E : map pp (seq 0 m) = P).
  { apply nth_ext with (d := origin) (d' := origin); [rewrite map_length, seq_length; auto|].
    intros i Hi. rewrite map_length, seq_length in Hi.
    rewrite nth_indep with (d' := pp 0) by (rewrite map_length, seq_length; auto).
    rewrite map_nth, seq_nth by auto. reflexivity. }
  transitivity (shoelace (map pp (seq 0 m))); [|rewrite E; reflexivity].
  clear E. destruct (seq 0 m) as [|h t]; [reflexivity|].
  unfold cyc, shoelace. rewrite esum_pairs_map, map_app. reflexivity.
Qed.

Theorem inv_total : forall B S tot, poly_inv B S tot -> (forall r, (r < m)%nat -> In r S) -> tot = shoelace P.
Proof.
  intros B S tot [HI HB HL HT HS HC] H. rewrite HS, <- esum_all. apply (fill (m - length B)); auto; try lia.
  intros r Hr. apply HC. auto.
Qed.

End Ranks.
