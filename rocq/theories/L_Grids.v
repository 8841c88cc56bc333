(** Loops that fill arrays. *)
From Coq Require Import ZArith List Bool Lia FinFun.
From Verif Require Import Base Num M_Grids.
Import ListNotations.
Open Scope Z_scope.

Lemma range_S : forall n, 0 <= n -> range (n + 1) = range n ++ [n].
Proof. intros n H. unfold range, zseq. replace (Z.to_nat (n + 1)) with (S (Z.to_nat n)) by lia. rewrite seq_S, map_app. cbn. do 2 f_equal. lia. Qed.

Lemma foldM_range : forall {S} (P : Z -> S -> Prop) (f : S -> Z -> exec S) n s, 0 <= n -> P 0 s ->
  (forall k s, 0 <= k < n -> P k s -> exists s1, f s k = Ret s1 /\ P (k + 1) s1) ->
  exists s', foldM f (range n) s = Ret s' /\ P n s'.
Proof.
  intros S P f n s Hn H0 Hs. rewrite <- (Z2Nat.id n Hn) in *. generalize dependent (Z.to_nat n). clear n Hn. intros m Hs.
  induction m as [|m IH]; [exists s; auto|]. destruct IH as (s1 & E & H1); [intros; apply Hs; auto; lia|].
  rewrite Nat2Z.inj_succ, <- Z.add_1_r, range_S, foldM_app, E by lia. cbn [bind foldM].
  destruct (Hs (Z.of_nat m) s1) as (s2 & E2 & H2); [lia|auto|]. rewrite E2. cbn [bind]. eauto.
Qed.

Lemma vset_ok : forall {A} (l : list A) i a, 0 <= i < Z.of_nat (length l) -> vset l i a = Ret (upd l (Z.to_nat i) a).
Proof. intros A l i a H. unfold vset. destruct (Z.leb_spec 0 i), (Z.ltb_spec i (Z.of_nat (length l))); cbn; auto; lia. Qed.

Lemma upd_nthZ : forall {A} (l : list A) i k a d, 0 <= i < Z.of_nat (length l) -> 0 <= k ->
  nth (Z.to_nat k) (upd l (Z.to_nat i) a) d = if Z.eqb k i then a else nth (Z.to_nat k) l d.
Proof.
  intros A l i k a d Hi Hk. destruct (Z.eqb_spec k i) as [-> | C].
  - apply upd_nth_same. lia.
  - apply upd_nth_other. lia.
Qed.

Section Arrays.
Context {T : Type}.

Definition at_ (c : arrays T) (k : Z) (d : T) : T * T := (nth (Z.to_nat k) (fst c) d, nth (Z.to_nat k) (snd c) d).
Definition sized (n : Z) (c : arrays T) : Prop := Z.of_nat (length (fst c)) = n /\ Z.of_nat (length (snd c)) = n.
Definition holds (n : Z) (c : arrays T) : Prop := n <= Z.of_nat (length (fst c)) /\ n <= Z.of_nat (length (snd c)).

Lemma store_ok : forall (c : arrays T) k x y n, holds n c -> 0 <= k < n ->
  exists c', store c k x y = Ret c' /\ length (fst c') = length (fst c) /\ length (snd c') = length (snd c) /\
    forall i d, 0 <= i -> at_ c' i d = if Z.eqb i k then (x, y) else at_ c i d.
Proof.
  intros [a b] k x y n [H1 H2] Hk. cbn [fst snd] in *. unfold store. cbn [fst snd]. rewrite !vset_ok by lia. cbn [bind].
  eexists. split; [reflexivity|]. cbn [fst snd]. rewrite !upd_length. do 2 (split; auto).
  intros i d Hi. unfold at_. cbn [fst snd]. rewrite !upd_nthZ by lia. destruct (i =? k); reflexivity.
Qed.

Lemma fill_ok : forall {N : Num T} d0 d1 f (c : arrays T), 0 <= d0 < 2 ^ 31 -> 0 <= d1 < 2 ^ 31 -> holds (d0 * d1) c ->
  exists c', fill d0 d1 f c = Ret c' /\ length (fst c') = length (fst c) /\ length (snd c') = length (snd c) /\
    (forall i j d, 0 <= i < d0 -> 0 <= j < d1 -> at_ c' (i * d1 + j) d = f i j) /\
    (forall k d, d0 * d1 <= k -> at_ c' k d = at_ c k d).
Proof.
  intros N d0 d1 f c H0 H1 HH. unfold fill. unfold wrap64 at 2 3. rewrite !Z.mod_small by lia.
  set (Q := fun (m : Z) (st : arrays T * Z) => snd st = m /\ length (fst (fst st)) = length (fst c) /\ length (snd (fst st)) = length (snd c) /\
    (forall i j d, 0 <= i < d0 -> 0 <= j < d1 -> i * d1 + j < m -> at_ (fst st) (i * d1 + j) d = f i j) /\
    (forall k d, m <= k -> at_ (fst st) k d = at_ c k d)).
  destruct (foldM_range (fun i => Q (i * d1)) (fun st i => foldM (fun (st : arrays T * Z) j =>
      let! c := store (fst st) (snd st) (fst (f i j)) (snd (f i j)) in Ret (c, wrap64 (snd st + 1)))
    (range d1) st) d0 (c, 0)) as (st & E & HQ); [lia| | |].
  - unfold Q. cbn [fst snd]. repeat split; auto. intros i j d Hi Hj H. nia.
  - intros i st Hi HQ. destruct (foldM_range (fun j => Q (i * d1 + j)) (fun (st : arrays T * Z) j =>
      let! c := store (fst st) (snd st) (fst (f i j)) (snd (f i j)) in Ret (c, wrap64 (snd st + 1))) d1 st) as (st' & E & HQ'); [lia|replace (i * d1 + 0) with (i * d1) by lia; auto| |].
    + intros j [c1 m] Hj (A1 & A2 & A3 & A4 & A5). cbn [fst snd] in *. subst m.
      destruct (store_ok c1 (i * d1 + j) (fst (f i j)) (snd (f i j)) (d0 * d1)) as (c2 & E & B1 & B2 & B3).
      { unfold holds in *. rewrite A2, A3. auto. } { nia. }
      rewrite E. cbn [bind]. eexists. split; [reflexivity|]. unfold Q. cbn [fst snd]. rewrite <- surjective_pairing in B3.
      unfold wrap64. rewrite Z.mod_small by (assert (i * d1 + j < d0 * d1) by nia; assert (d0 * d1 < 2 ^ 31 * 2 ^ 31) by nia; nia).
      split; [lia|]. split; [congruence|]. split; [congruence|]. split.
      * intros i' j' d Hi' Hj' H. rewrite B3 by nia. destruct (Z.eqb_spec (i' * d1 + j') (i * d1 + j)) as [X|X].
        -- assert (i' = i) by nia. subst i'. assert (j' = j) by lia. subst j'. reflexivity.
        -- apply A4; auto. lia.
      * intros k d Hk. rewrite B3 by nia. destruct (Z.eqb_spec k (i * d1 + j)); [lia|]. apply A5. lia.
    + exists st'. split; auto. replace ((i + 1) * d1) with (i * d1 + d1) by lia. auto.
  - rewrite E. cbn [bind]. destruct HQ as (A1 & A2 & A3 & A4 & A5). exists (fst st). split; auto. split; auto. split; auto. split.
    + intros i j d Hi Hj. apply A4; auto. nia.
    + intros k d Hk. apply A5. auto.
Qed.

(** Writes at distinct places. *)
Lemma writes_ok : forall {A} (key : A -> Z) (v : A -> T * T) n l (c : arrays T), holds n c -> NoDup (map key l) -> (forall e, In e l -> 0 <= key e < n) ->
  exists c', foldM (fun c e => store c (key e) (fst (v e)) (snd (v e))) l c = Ret c' /\ length (fst c') = length (fst c) /\ length (snd c') = length (snd c) /\
    (forall e d, In e l -> at_ c' (key e) d = v e) /\ (forall k d, 0 <= k -> ~ In k (map key l) -> at_ c' k d = at_ c k d).
Proof.
  intros A key v n. induction l as [|e l IH]; intros c HH ND HK; [exists c; repeat split; auto; contradiction|].
  cbn [map] in ND. inversion ND as [|? ? N1 N2]; subst. cbn [foldM].
  destruct (store_ok c (key e) (fst (v e)) (snd (v e)) n HH) as (c1 & E & B1 & B2 & B3); [apply HK; left; auto|]. rewrite E. cbn [bind].
  destruct (IH c1) as (c' & E' & C1 & C2 & C3 & C4); auto.
  { unfold holds in *. rewrite B1, B2. auto. } { intros; apply HK; right; auto. }
  exists c'. split; auto. split; [congruence|]. split; [congruence|]. split.
  - intros x d [<- | I]; [|auto]. rewrite C4; auto; [|specialize (HK e (or_introl eq_refl)); lia].
    rewrite B3 by (specialize (HK e (or_introl eq_refl)); lia). rewrite Z.eqb_refl. rewrite <- surjective_pairing. reflexivity.
  - intros k d Hk NI. cbn [map] in NI. rewrite C4 by (auto; intros X; apply NI; right; auto). rewrite B3 by auto.
    destruct (Z.eqb_spec k (key e)); [exfalso; apply NI; left; auto|reflexivity].
Qed.

Lemma foldM_ext : forall {A S} (f g : S -> A -> exec S) l, (forall s x, In x l -> f s x = g s x) -> forall s, foldM f l s = foldM g l s.
Proof.
  intros A S f g. induction l as [|x l IH]; intros H s; [reflexivity|]. cbn [foldM]. rewrite H by (left; auto). destruct (g s x); cbn [bind]; auto.
  apply IH. intros; apply H; right; auto.
Qed.

Lemma foldM_prod : forall {A B S} (f : S -> A -> B -> exec S) l2 l1 s,
  foldM (fun s a => foldM (fun s b => f s a b) l2 s) l1 s = foldM (fun s ab => f s (fst ab) (snd ab)) (list_prod l1 l2) s.
Proof.
  intros A B S f l2. induction l1 as [|a l1 IH]; intros s; [reflexivity|]. cbn [foldM list_prod]. rewrite foldM_app.
  assert (E : forall l s, foldM (fun s b => f s a b) l s = foldM (fun s ab => f s (fst ab) (snd ab)) (map (fun y => (a, y)) l) s).
  { induction l as [|b l IH']; intros t; [reflexivity|]. cbn [foldM map fst snd]. destruct (f t a b); cbn [bind]; auto. }
  rewrite E. destruct (foldM _ (map _ l2) s) as [s1|u]; cbn [bind]; auto.
Qed.

Lemma prod_NoDup : forall n js is, (forall i, In i is -> 0 <= i < n) -> NoDup js -> NoDup is ->
  NoDup (map (fun ji => snd ji + fst ji * n) (list_prod js is)).
Proof.
  intros n js is Hi NJ NI. induction NJ as [|j js Nj NJ IH]; [constructor|]. cbn [list_prod]. rewrite map_app, map_map. cbn [fst snd].
  assert (APP : forall (l1 l2 : list Z), NoDup l1 -> NoDup l2 -> (forall x, In x l1 -> ~ In x l2) -> NoDup (l1 ++ l2)).
  { induction l1 as [|x l1 IH1]; intros l2 H1 H2 H; [auto|]. inversion H1; subst. cbn. constructor.
    - rewrite in_app_iff. intros [X|X]; [auto|]. apply (H x); [left; auto|auto].
    - apply IH1; auto. intros y Y. apply H. right; auto. }
  apply APP; [|exact IH|].
  - apply Injective_map_NoDup; auto. intros a b H. lia.
  - intros x X Y. apply in_map_iff in X. destruct X as (i & <- & Ii). apply in_map_iff in Y. destruct Y as ([j' i'] & E & P). apply in_prod_iff in P. destruct P as [P1 P2].
    cbn [fst snd] in E. apply Hi in Ii. apply Hi in P2. assert (j = j') by nia. subst. auto.
Qed.

Lemma rows_ok : forall n m js is f (c : arrays T), holds (n * m) c -> 0 <= n -> n * m <= int_max -> NoDup js -> NoDup is ->
  (forall j, In j js -> 0 <= j < m) -> (forall i, In i is -> 0 <= i < n) ->
  exists c', tp_rows n js is f c = Ret c' /\ length (fst c') = length (fst c) /\ length (snd c') = length (snd c) /\
    (forall j i d, 0 <= j < m -> 0 <= i < n -> In j js -> In i is -> at_ c' (i + j * n) d = f j i) /\
    (forall j i d, 0 <= j < m -> 0 <= i < n -> ~ (In j js /\ In i is) -> at_ c' (i + j * n) d = at_ c (i + j * n) d).
Proof.
  intros n m js is f c HH Hn HM NJ NI HJ HI.
  assert (B : forall j i, 0 <= j < m -> 0 <= i < n -> 0 <= j * n <= int_max /\ 0 <= i + j * n < n * m) by (intros; unfold int_max in *; nia).
  assert (E : tp_rows n js is f c = foldM (fun s ji => store s (snd ji + fst ji * n) (fst (f (fst ji) (snd ji))) (snd (f (fst ji) (snd ji)))) (list_prod js is) c).
  { unfold tp_rows. rewrite (foldM_prod (fun s j i => let! p := chk (j * n) in let! k := chk (i + p) in store s k (fst (f j i)) (snd (f j i)))).
    apply foldM_ext. intros s [j i] P. apply in_prod_iff in P. destruct P as [P1 P2]. cbn [fst snd]. specialize (B j i (HJ j P1) (HI i P2)).
    unfold int_min, int_max in *. rewrite !chk_ok; cbn [bind]; [|unfold int_min, int_max; lia..]. rewrite chk_ok by (unfold int_min, int_max; lia). reflexivity. }
  rewrite E.
  destruct (writes_ok (fun ji => snd ji + fst ji * n) (fun ji => f (fst ji) (snd ji)) (n * m) (list_prod js is) c HH) as (c' & E' & C1 & C2 & C3 & C4).
  - apply prod_NoDup; auto.
  - intros [j i] P. apply in_prod_iff in P. cbn [fst snd]. apply B; [apply HJ|apply HI]; tauto.
  - exists c'. split; auto. split; auto. split; auto. split.
    + intros j i d Hj Hi Ij Ii. apply (C3 (j, i) d). apply in_prod_iff. auto.
    + intros j i d Hj Hi NO. apply C4; [apply B; auto|]. intros X. apply in_map_iff in X. destruct X as ([j' i'] & X & P). apply in_prod_iff in P. destruct P as [P1 P2].
      cbn [fst snd] in X. specialize (HI i' P2). assert (j = j') by nia. subst j'. assert (i = i') by lia. subst i'. apply NO. auto.
Qed.

End Arrays.
