(** Corners of convex sets: a finite set of corners can be listed counter-clockwise. *)
From Coq Require Import List Reals Lra Lia Classical Permutation Psatz.
From Coquelicot Require Import Coquelicot.
From Verif Require Import S_Geometry S_Quad S_Area L_Polygon L_Hull L_Area L_AreaPolygon.
Import ListNotations.
Open Scope R_scope.

Lemma on_seg0 : forall a b, on_seg a b 0 = a.
Proof. intros [] []. unfold on_seg. cbn [fst snd]. f_equal; ring. Qed.
Lemma on_seg_same : forall a t, on_seg a a t = a.
Proof. intros [] t. unfold on_seg. cbn [fst snd]. f_equal; ring. Qed.

(** A corner that is in the hull of points of the set is one of them. *)
Lemma corner_hull : forall (K : point -> Prop) V p, (forall q, in_hull V q -> K q) -> corner K p -> in_hull V p -> In p V.
Proof.
  intros K V p H [_ C]. induction V as [|q V IH]; intros I.
  - destruct I as (w & L & _ & S & _). destruct w; [|discriminate L]. cbn in S. lra.
  - apply hull_cons in I. destruct I as [->|(y & t & Hy & Ht & E)]; [left; auto|].
    assert (HV : forall z, in_hull V z -> in_hull (q :: V) z).
    { intros z Hz. apply (hull_trans _ _ _ Hz). intros z' Hz'. apply hull_member. right. auto. }
    destruct (Req_dec t 0) as [->|N].
    + right. apply IH; [|subst p; rewrite on_seg0; auto]. auto.
    + left. assert (Y : y = q). { apply (C y q t); auto; [|lra]. apply H. apply hull_member. left. auto. }
      subst y p. symmetry. apply on_seg_same.
Qed.

(** Order around the lowest of the leftmost points. *)
Definition lex (a b : point) : Prop := fst a < fst b \/ (fst a = fst b /\ snd a < snd b).

Lemma lex_total : forall a b, a = b \/ lex a b \/ lex b a.
Proof.
  intros [ax ay] [bx by_]. unfold lex. cbn [fst snd].
  destruct (Rtotal_order ax bx) as [L|[E|L]]; [auto| |auto]. subst.
  destruct (Rtotal_order ay by_) as [L|[E|L]]; subst; auto.
Qed.
Lemma lex_trans : forall a b c, lex a b -> lex b c -> lex a c.
Proof. unfold lex. intros. lra. Qed.

Lemma lex_least : forall l : list point, l <> [] -> exists m, In m l /\ forall p, In p l -> p = m \/ lex m p.
Proof.
  induction l as [|a l IH]; intros N; [congruence|]. destruct l as [|b l].
  - exists a. split; [left; auto|]. intros p [<-|[]]; auto.
  - destruct IH as (m & M1 & M2); [discriminate|]. destruct (lex_total a m) as [->|[L|L]].
    + exists m. split; [left; auto|]. intros p [<-|I]; auto.
    + exists a. split; [left; auto|]. intros p [<-|I]; auto. right. destruct (M2 p I) as [->|L2]; auto. apply (lex_trans a m p); auto.
    + exists m. split; [right; auto|]. intros p [<-|I]; auto.
Qed.

Lemma lex_turn : forall m a b c, lex m a -> lex m b -> lex m c -> 0 < cr m a b -> 0 < cr m b c -> 0 < cr m a c.
Proof.
  intros [mx my] [ax ay] [bx by_] [cx cy]. unfold lex, cr. cbn [fst snd]. intros A B C H1 H2.
  assert (I : (bx - mx) * ((ax - mx) * (cy - my) - (ay - my) * (cx - mx)) =
    (cx - mx) * ((ax - mx) * (by_ - my) - (ay - my) * (bx - mx)) + (ax - mx) * ((bx - mx) * (cy - my) - (by_ - my) * (cx - mx))) by ring.
  destruct A as [A|[A A']], C as [C|[C C']], B as [B|[B B']]; try (subst; nra).
  all: apply (Rmult_lt_reg_l (bx - mx)); [lra|]; rewrite Rmult_0_r, I; try (apply Rplus_lt_0_compat; apply Rmult_lt_0_compat; lra).
  all: subst; nra.
Qed.

(** Sorting with a relation. *)
Inductive chain (lt : point -> point -> Prop) : list point -> Prop :=
| chain_nil : chain lt []
| chain_cons : forall a l, (forall b, In b l -> lt a b) -> chain lt l -> chain lt (a :: l).

Lemma chain_insert : forall (lt : point -> point -> Prop) (S : point -> Prop) a l, S a -> (forall b, In b l -> S b) -> ~ In a l ->
  (forall a b, S a -> S b -> a = b \/ lt a b \/ lt b a) -> (forall a b c, S a -> S b -> S c -> lt a b -> lt b c -> lt a c) ->
  chain lt l -> exists l', Permutation (a :: l) l' /\ chain lt l'.
Proof.
  intros lt S a l Sa Sl Na TOT TR C. induction C as [|b l Hb C IH].
  - exists [a]. split; auto. constructor; [intros ? []|constructor].
  - destruct IH as (l' & P & C'); [intros; apply Sl; right; auto|intros I; apply Na; right; auto|].
    destruct (TOT a b Sa (Sl b (or_introl eq_refl))) as [->|[L|L]].
    + exfalso. apply Na. left. auto.
    + exists (a :: b :: l). split; auto. constructor; [|constructor; auto].
      intros c [<-|I]; auto. apply (TR a b c); auto; [apply Sl; left; auto|apply Sl; right; auto].
    + exists (b :: l'). split; [apply (perm_trans (perm_swap b a l)); auto|]. constructor; auto.
      intros c I. apply (Permutation_in c (Permutation_sym P)) in I. destruct I as [<-|I]; auto.
Qed.

Lemma chain_sort : forall (lt : point -> point -> Prop) (S : point -> Prop) l, (forall b, In b l -> S b) -> NoDup l ->
  (forall a b, S a -> S b -> a = b \/ lt a b \/ lt b a) -> (forall a b c, S a -> S b -> S c -> lt a b -> lt b c -> lt a c) ->
  exists l', Permutation l l' /\ chain lt l'.
Proof.
  intros lt S l Sl ND TOT TR. induction ND as [|a l Na ND IH].
  - exists []. split; auto. constructor.
  - destruct IH as (l' & P & C); [intros; apply Sl; right; auto|].
    destruct (chain_insert lt S a l') as (l2 & P2 & C2); auto.
    + apply Sl. left. auto.
    + intros b I. apply Sl. right. apply (Permutation_in b (Permutation_sym P)); auto.
    + intros I. apply Na. apply (Permutation_in a (Permutation_sym P)); auto.
    + exists l2. split; auto. apply (perm_trans (perm_skip a P) P2).
Qed.

Lemma chain_nth : forall lt l i j, chain lt l -> (i < j)%nat -> (j < length l)%nat -> lt (nthp l i) (nthp l j).
Proof.
  intros lt l i j C. revert i j. induction C as [|a l H C IH]; intros i j L1 L2; cbn in L2; [lia|].
  destruct j as [|j]; [lia|]. destruct i as [|i].
  - apply H. apply (nth_In l origin). lia.
  - apply (IH i j); lia.
Qed.

Lemma corners_not_collinear : forall (K : point -> Prop) a b c, (forall p q t, K p -> K q -> 0 <= t <= 1 -> K (on_seg p q t)) ->
  corner K a -> corner K b -> corner K c -> a <> b -> b <> c -> a <> c -> cr a b c <> 0.
Proof.
  intros K a b c CV A B C N1 N2 N3 Z. apply on_line in Z; auto. destruct Z as (t & T1 & T2).
  assert (Ec : c = on_seg a b t) by (destruct c; cbn [fst snd] in *; subst; reflexivity).
  destruct A as [KA CA], B as [KB CB], C as [KC CC].
  destruct (Req_dec t 0) as [->|T0]; [rewrite on_seg0 in Ec; congruence|].
  destruct (Req_dec t 1) as [->|T1']; [apply N2; rewrite Ec; destruct a, b; unfold on_seg; cbn [fst snd]; f_equal; ring|].
  destruct (Rlt_dec t 0) as [L|L].
  - (* a between c and b *)
    assert (N3' : c = b); [|congruence]. apply (CA c b (t / (t - 1))); auto.
    + assert (t - 1 < 0) by lra. assert (E : t / (t - 1) = (- t) / (1 - t)) by (field; lra). rewrite E.
      split; [apply Rcomplements.Rdiv_lt_0_compat; lra|]. apply (Rmult_lt_reg_r (1 - t)); [lra|]. replace (- t / (1 - t) * (1 - t)) with (- t) by (field; lra). lra.
    + rewrite Ec. destruct a, b. unfold on_seg. cbn [fst snd]. f_equal; field; lra.
  - destruct (Rlt_dec t 1) as [L1|L1].
    + apply N1. apply (CC a b t); auto. lra.
    + apply N3. apply (CB a c (/ t)); auto.
      * split; [apply Rinv_0_lt_compat; lra|]. rewrite <- Rinv_1. apply Rinv_lt_contravar; lra.
      * rewrite Ec. destruct a, b. unfold on_seg. cbn [fst snd]. f_equal; field; lra.
Qed.

Definition convex_set (K : point -> Prop) : Prop := forall p q t, K p -> K q -> 0 <= t <= 1 -> K (on_seg p q t).

Lemma convex_hull_in : forall (K : point -> Prop) V p, convex_set K -> (forall q, In q V -> K q) -> in_hull V p -> K p.
Proof.
  intros K V p CV. revert p. induction V as [|q V IH]; intros p H I.
  - destruct I as (w & L & _ & S & _). destruct w; [|discriminate L]. cbn in S. lra.
  - apply hull_cons in I. destruct I as [->|(y & t & Hy & Ht & ->)]; [apply H; left; auto|].
    apply CV; [|apply H; left; auto|lra]. apply IH; auto. intros z Hz. apply H. right. auto.
Qed.

Theorem corners_ordered : forall (K : point -> Prop) S, convex_set K -> (forall p, In p S -> corner K p) ->
  exists P, NoDup P /\ (forall p, In p P <-> In p S) /\ strict_ccw P.
Proof.
  intros K S CV HC.
  assert (DD : forall x y : point, {x = y} + {x <> y}).
  { intros [x1 x2] [y1 y2]. destruct (Req_EM_T x1 y1), (Req_EM_T x2 y2); subst; auto; right; congruence. }
  set (S' := nodup DD S). assert (ND : NoDup S') by apply NoDup_nodup. assert (IN : forall p, In p S' <-> In p S) by (intros; apply nodup_In).
  clearbody S'. destruct S' as [|s0 S0].
  - exists []. split; auto. split; auto. intros i j k _ L. cbn in L. lia.
  - destruct (lex_least (s0 :: S0)) as (m & M1 & M2); [discriminate|].
    apply in_split in M1. destruct M1 as (l1 & l2 & E). rewrite E in *. clear E s0 S0.
    assert (PM : Permutation (l1 ++ m :: l2) (m :: l1 ++ l2)) by (apply Permutation_sym, Permutation_middle).
    apply (Permutation_NoDup PM) in ND. set (l := l1 ++ l2) in *. apply NoDup_cons_iff in ND. destruct ND as [Nm ND].
    assert (INm : forall p, In p (m :: l) <-> In p S).
    { intros p. rewrite <- IN. split; apply Permutation_in; auto using Permutation_sym. }
    assert (LX : forall p, In p l -> lex m p).
    { intros p I. destruct (M2 p) as [->|]; auto; [|contradiction]. apply (Permutation_in p (Permutation_sym PM)). right. auto. }
    assert (C : forall p, In p (m :: l) -> corner K p) by (intros p I; apply HC, INm; auto).
    destruct (chain_sort (fun a b => 0 < cr m a b) (fun p => In p l) l) as (Q & PQ & CQ); auto.
    { intros a b Ia Ib. destruct (DD a b) as [|N]; auto. right.
      assert (N0 : cr m a b <> 0).
      { apply (corners_not_collinear K); auto; [apply C; left; auto|apply C; right; auto|apply C; right; auto| |]; intros E; subst; contradiction. }
      rewrite (cr_swap m b a). destruct (Rtotal_order 0 (cr m a b)) as [|[|]]; auto; [congruence|right; lra]. }
    { intros a b c Ia Ib Ic. apply lex_turn; auto. }
    exists (m :: Q). split; [|split].
    + constructor; [|apply (Permutation_NoDup PQ); auto]. intros I. apply Nm. apply (Permutation_in m (Permutation_sym PQ)); auto.
    + intros p. rewrite <- INm. split; intros [<-|I]; try (left; auto; fail); right; [apply (Permutation_in p (Permutation_sym PQ))|apply (Permutation_in p PQ)]; auto.
    + intros i j k Hij Hk. cbn in Hk. destruct i as [|i].
      * destruct j as [|j]; [lia|]. destruct k as [|k]; [lia|]. apply (chain_nth _ Q j k CQ); lia.
      * destruct j as [|j]; [lia|]. destruct k as [|k]; [lia|].
        change (0 < cr (nthp Q i) (nthp Q j) (nthp Q k)).
        assert (D1 := chain_nth _ Q i j CQ ltac:(lia) ltac:(lia)). assert (D2 := chain_nth _ Q j k CQ ltac:(lia) ltac:(lia)).
        assert (D3 := chain_nth _ Q i k CQ ltac:(lia) ltac:(lia)). cbv beta in D1, D2, D3.
        assert (Ii : In (nthp Q i) (m :: l)) by (right; apply (Permutation_in _ (Permutation_sym PQ)); apply nth_In; lia).
        assert (Ij : In (nthp Q j) (m :: l)) by (right; apply (Permutation_in _ (Permutation_sym PQ)); apply nth_In; lia).
        assert (Ik : In (nthp Q k) (m :: l)) by (right; apply (Permutation_in _ (Permutation_sym PQ)); apply nth_In; lia).
        apply Rnot_le_lt. intros L.
        assert (T : in_hull [m; nthp Q i; nthp Q k] (nthp Q j)).
        { apply in_triangle; [auto|lra|rewrite (cr_swap (nthp Q i)) in L; lra|]. 
          replace (cr (nthp Q k) m (nthp Q j)) with (cr m (nthp Q j) (nthp Q k)) by (unfold cr; ring). lra. }
        apply (corner_hull K) in T; [|intros q; apply convex_hull_in; auto; intros r [<-|[<-|[<-|[]]]]; apply C; auto; left; auto|apply C; auto].
        destruct T as [E|[E|[E|[]]]].
        -- rewrite <- E, cr_same1 in D2. lra || (rewrite <- E in D2; rewrite cr_same1 in D2; lra).
        -- rewrite E, cr_same2 in D1. lra.
        -- rewrite E, cr_same2 in D2. lra.
Qed.
