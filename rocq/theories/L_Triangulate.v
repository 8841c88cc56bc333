(** Correctness of the triangulation over the reals for points in convex position. *)
From Coq Require Import ZArith List Bool Reals Lra Lia Permutation.
From Verif Require Import Base Num NumR M_Triangulate S_Geometry L_Polygon.
Import ListNotations.
Open Scope R_scope.

(** ** Sets *)
Lemma eqlb_eq : forall a b, eqlb a b = true -> a = b.
Proof.
  induction a as [|x a IH]; intros [|y b] H; simpl in H; try discriminate; auto.
  apply andb_prop in H. destruct H as [H1 H2]. apply Nat.eqb_eq in H1. f_equal; auto.
Qed.

Lemma set_insert_new : forall x s, ~ In x s -> Permutation (set_insert x s) (x :: s).
Proof.
  intros x s. induction s as [|y s IH]; intros H; simpl; auto.
  destruct (lexb x y); auto. destruct (eqlb x y) eqn:E.
  - exfalso. apply eqlb_eq in E. apply H. simpl. auto.
  - rewrite IH by (simpl in H; tauto). apply perm_swap.
Qed.

Lemma set_insert_in : forall x s y, In y (set_insert x s) -> y = x \/ In y s.
Proof.
  intros x s y. induction s as [|z s IH]; simpl; [intuition|].
  destruct (lexb x z); [simpl; intuition|]. destruct (eqlb x z); simpl; intuition.
Qed.

Lemma filter_perm : forall (A : Type) (f : A -> bool) l l', Permutation l l' -> Permutation (filter f l) (filter f l').
Proof.
  intros A f l l' H. induction H; simpl; auto.
  - destruct (f x); auto.
  - destruct (f y), (f x); auto. apply perm_swap.
  - eapply perm_trans; eauto.
Qed.

Lemma filter_none : forall (A : Type) (f : A -> bool) l, (forall x, In x l -> f x = false) -> filter f l = [].
Proof. induction l as [|a l IH]; intros H; simpl; auto. rewrite H by (simpl; auto). apply IH. intros; apply H; simpl; auto. Qed.

Lemma filter_all : forall (A : Type) (f : A -> bool) l, (forall x, In x l -> f x = true) -> filter f l = l.
Proof. induction l as [|a l IH]; intros H; simpl; auto. rewrite H by (simpl; auto). f_equal. apply IH. intros; apply H; simpl; auto. Qed.

Lemma map_perm_cons : forall (A B : Type) (f : A -> B) l b rest, Permutation (map f l) (b :: rest) ->
  exists a l', Permutation l (a :: l') /\ f a = b /\ Permutation (map f l') rest.
Proof.
  intros A B f l b rest H.
  assert (Hin : In b (map f l)) by (apply (Permutation_in _ (Permutation_sym H)); simpl; auto).
  apply in_map_iff in Hin. destruct Hin as (a & E & Ha). apply in_split in Ha. destruct Ha as (l1 & l2 & ->).
  exists a, (l1 ++ l2). split; [symmetry; apply Permutation_middle|]. split; auto.
  rewrite map_app in *. cbn [map] in H. rewrite E in H.
  apply (Permutation_app_inv [] rest (map f l1) (map f l2) b) in H || idtac.
  apply Permutation_cons_inv with (a := b). rewrite <- H. apply Permutation_middle.
Qed.

(** ** The model over the reals *)
Notation trR := (@tri R).

Lemma cross_R : forall a b c : point, cross (T := R) a b c = cr a b c.
Proof. reflexivity. Qed.

Definition same_mem (s s' : trR) : Prop :=
  tr_buf s' = tr_buf s /\ tr_size s' = tr_size s /\ tr_junk s' = tr_junk s.

Lemma same_mem_pt : forall s s' i, same_mem s s' -> tr_pt s' i = tr_pt s i.
Proof. intros s s' i (E1 & E2 & E3). unfold tr_pt. rewrite E1, E3. reflexivity. Qed.

Definition epsR : R := tr_eps (T := R).
Lemma eps_pos : 0 < epsR.
Proof. unfold epsR, tr_eps. rewrite lit_R. lra. Qed.

(** Sum of the triangles, whatever their order. *)
Definition tcr (s : trR) (t : list nat) : R := tr_area3 s (nth 0 t 0%nat) (nth 1 t 0%nat) (nth 2 t 0%nat).
Fixpoint tsum (s : trR) (l : list (list nat)) : R :=
  match l with [] => 0 | t :: l' => tcr s t + tsum s l' end.

Lemma tsum_perm : forall s l l', Permutation l l' -> tsum s l = tsum s l'.
Proof. induction 1; simpl; lra. Qed.

Lemma tsum_mem : forall s s' l, same_mem s s' -> tsum s' l = tsum s l.
Proof.
  intros s s' l H. induction l as [|t l IH]; simpl; auto. rewrite IH. unfold tcr, tr_area3.
  rewrite !(same_mem_pt s s' _ H). reflexivity.
Qed.

Lemma fold_tsum : forall s l a,
  fold_left (fun a t => (a + tr_area3 s (nth 0 t 0%nat) (nth 1 t 0%nat) (nth 2 t 0%nat))%R) l a = a + tsum s l.
Proof. intros s l. induction l as [|t l IH]; intros a; cbn [tsum fold_left]; [lra|]. rewrite IH. unfold tcr. ring. Qed.

Lemma hullArea_sum : forall s : trR, tr_hullArea s = tsum s (tr_tris s) / 2.
Proof.
  intros s. unfold tr_hullArea.
  change (fold_left (fun a t => nadd a (tr_area3 s (nth 0 t 0%nat) (nth 1 t 0%nat) (nth 2 t 0%nat))) (tr_tris s) n0)
    with (fold_left (fun a t => (a + tr_area3 s (nth 0 t 0%nat) (nth 1 t 0%nat) (nth 2 t 0%nat))%R) (tr_tris s) 0).
  rewrite fold_tsum. unfold nhalf. change (@nmul R NumR) with Rmult. rewrite lit_R. lra.
Qed.

Section Convex.
Variable P : list point.
Hypothesis CV : convex_ccw P.
Hypothesis ND : NoDup P.
Hypothesis NF : not_flat P.
Hypothesis SEP : separated epsR P.
Notation pp := (nthp P).
Let m := length P.

Lemma pp_in : forall r, (r < m)%nat -> In (pp r) P.
Proof. intros r H. apply nth_In. auto. Qed.

Lemma sep3 : forall a b c, (a < m)%nat -> (b < m)%nat -> (c < m)%nat ->
  cr (pp a) (pp b) (pp c) = 0 \/ epsR < Rabs (cr (pp a) (pp b) (pp c)).
Proof. intros. apply SEP; apply pp_in; auto. Qed.

Lemma pos_cyc : forall a b c, (a < m)%nat -> (b < m)%nat -> (c < m)%nat ->
  0 < cr (pp a) (pp b) (pp c) -> cyc3 a b c.
Proof.
  intros a b c Ha Hb Hc H.
  assert (a <> b) by (intros ->; rewrite cr_same1 in H; lra).
  assert (b <> c) by (intros ->; rewrite cr_same2 in H; lra).
  assert (a <> c) by (intros ->; rewrite cr_same3 in H; lra).
  assert (C : cyc3 a b c \/ cyc3 a c b) by (unfold cyc3; lia).
  destruct C as [C|C]; auto. exfalso.
  assert (G := cyc_cr P CV a c b C Ha Hc Hb). rewrite cr_swap in G. lra.
Qed.

(** ** Insertion *)
Variable n : nat.
Variable rk : nat -> nat.
Hypothesis RK : forall i, (i < n)%nat -> (rk i < m)%nat.

Definition holds_points (s : trR) : Prop := forall i, (i < n)%nat -> tr_pt s i = pp (rk i).

Definition erk (e : list nat) : nat * nat := (rk (fst (ends e)), rk (snd (ends e))).

Record tinv (s : trR) (ip : nat) (B : list nat) (tot : R) : Prop := mkTinv {
  ti_pts : holds_points s;
  ti_ip : (ip <= n)%nat;
  ti_edges : Permutation (map erk (tr_edges s)) (cyc B);
  ti_eidx : forall e, In e (tr_edges s) -> exists i j, e = [i; j] /\ (i < ip)%nat /\ (j < ip)%nat;
  ti_tris : tsum s (tr_tris s) = tot;
  ti_tidx : forall t i, In t (tr_tris s) -> In i t -> (i < ip)%nat;
  ti_poly : poly_inv P B (map rk (seq 0 ip)) tot;
  ti_oob : tr_size s = n -> tr_oob s = false;
  ti_cnt : (length (tr_tris s) + 2 <= ip)%nat }.

Lemma visible_spec : forall s ip e, holds_points s -> (ip < n)%nat -> (exists i j, e = [i; j] /\ (i < n)%nat /\ (j < n)%nat) ->
  tr_visible s ip e = true <-> cr (pp (rk ip)) (pp (fst (erk e))) (pp (snd (erk e))) < - epsR.
Proof.
  intros s ip e HP Hip (i & j & -> & Hi & Hj). unfold tr_visible, tr_area3, erk. cbn [ends nth fst snd].
  rewrite !HP by auto. rewrite cross_R. change (nopp (tr_eps (T := R))) with (- epsR).
  split; [apply Rltb_true|]. apply Rltb_true.
Qed.

Lemma out_false : forall (s : trR) l, (forall i, In i l -> (i < tr_size s)%nat) -> tr_out s l = false.
Proof.
  intros s l H. unfold tr_out. induction l as [|x l IH]; auto. cbn [existsb].
  rewrite (proj2 (Nat.leb_gt _ _)) by (apply H; simpl; auto). apply IH. intros; apply H; simpl; auto.
Qed.

Lemma seq_snoc : forall k, map rk (seq 0 (S k)) = map rk (seq 0 k) ++ [rk k].
Proof. intros. rewrite seq_S, map_app. reflexivity. Qed.

Lemma poly_inv_set : forall B S S' tot, (forall x, In x S' -> In x S) -> poly_inv P B S tot -> poly_inv P B S' tot.
Proof. intros B S S' tot H [A1 A2 A3 A4 A5 A6]. constructor; auto. Qed.

Lemma addPoint_inv : forall s ip B tot, tinv s ip B tot -> (ip < n)%nat ->
  exists B' tot', tinv (tr_addPoint s ip) (S ip) B' tot'.
Proof.
  intros s ip B tot [HP HI HE HEI HT HTI HPI HO HCN] Hip.
  assert (HEI' : forall e, In e (tr_edges s) -> exists i j, e = [i; j] /\ (i < n)%nat /\ (j < n)%nat).
  { intros e He. destruct (HEI e He) as (i & j & -> & Hi & Hj). exists i, j. repeat split; lia. }
  assert (MEM : same_mem s (tr_addPoint s ip)) by (repeat split).
  assert (OB : tr_size (tr_addPoint s ip) = n -> tr_oob (tr_addPoint s ip) = false).
  { intros Hn. change (tr_size s = n) in Hn. cbn [tr_oob tr_addPoint]. rewrite HO by auto. cbn [orb].
    destruct (tr_edges s) as [|e0 es] eqn:EE; auto. rewrite <- EE in *. apply out_false. rewrite Hn.
    intros i [<-|Hi]; auto. apply in_concat in Hi. destruct Hi as (e & He & Hi).
    destruct (HEI' e He) as (a & b & -> & Ha & Hb). destruct Hi as [<-|[<-|[]]]; auto. }
  assert (HP' : holds_points (tr_addPoint s ip)).
  { intros i Hi. rewrite (same_mem_pt s _ i MEM). auto. }
  assert (SET : forall x, In x (map rk (seq 0 (S ip))) -> In x (rk ip :: map rk (seq 0 ip))).
  { intros x Hx. rewrite seq_snoc in Hx. apply in_app_or in Hx. simpl in *. intuition. }
  destruct (insert_step P CV ND epsR B _ tot (rk ip) HPI (RK ip Hip) ltac:(pose proof eps_pos; lra))
    as [[NV HPI']|(a & b & rest & B' & P1 & V & NV & P2 & HPI')].
  { intros; apply sep3; auto. }
  - (* no visible edge *)
    assert (NVE : forall e, In e (tr_edges s) -> tr_visible s ip e = false).
    { intros e He. destruct (tr_visible s ip e) eqn:E; auto. exfalso.
      apply (visible_spec s ip e HP Hip (HEI' e He)) in E. revert E. apply NV.
      apply (Permutation_in _ HE). rewrite <- surjective_pairing. apply in_map. auto. }
    assert (V0 : filter (tr_visible s ip) (tr_edges s) = []) by (apply filter_none; auto).
    assert (R0 : filter (fun e => negb (tr_visible s ip e)) (tr_edges s) = tr_edges s).
    { apply filter_all. intros e He. rewrite NVE; auto. }
    exists B, tot. constructor; auto.
    + cbn [tr_edges tr_addPoint]. rewrite V0, R0. exact HE.
    + cbn [tr_edges tr_addPoint]. rewrite V0, R0. intros e He. cbn [flat_map fold_left] in He.
      destruct (HEI e He) as (i & j & -> & Hi & Hj). exists i, j. repeat split; lia.
    + cbn [tr_tris tr_addPoint]. rewrite V0. cbn [fold_left]. rewrite <- HT. apply tsum_mem. exact MEM.
    + cbn [tr_tris tr_addPoint]. rewrite V0. cbn [fold_left]. intros t i Ht Hi. specialize (HTI t i Ht Hi). lia.
    + eapply poly_inv_set; eauto.
    + cbn [tr_tris tr_addPoint]. rewrite V0. cbn [fold_left]. lia.
  - (* one visible edge *)
    destruct (map_perm_cons _ _ erk (tr_edges s) (a, b) rest (perm_trans HE P1)) as (e & es & Q1 & Q2 & Q3).
    assert (He : In e (tr_edges s)) by (apply (Permutation_in _ (Permutation_sym Q1)); simpl; auto).
    assert (Hes : forall x, In x es -> In x (tr_edges s)).
    { intros x Hx. apply (Permutation_in _ (Permutation_sym Q1)). simpl. auto. }
    assert (Ve : tr_visible s ip e = true).
    { apply (visible_spec s ip e HP Hip (HEI' e He)). rewrite Q2. exact V. }
    assert (NVE : forall x, In x es -> tr_visible s ip x = false).
    { intros x Hx. destruct (tr_visible s ip x) eqn:E; auto. exfalso.
      apply (visible_spec s ip x HP Hip (HEI' x (Hes x Hx))) in E. revert E. apply NV.
      apply (Permutation_in _ Q3). rewrite <- surjective_pairing. apply in_map. auto. }
    assert (V1 : filter (tr_visible s ip) (tr_edges s) = [e]).
    { apply Permutation_length_1_inv. rewrite (filter_perm _ _ _ _ Q1). cbn [filter]. rewrite Ve.
      rewrite filter_none; auto. }
    assert (R1 : Permutation (filter (fun x => negb (tr_visible s ip x)) (tr_edges s)) es).
    { rewrite (filter_perm _ _ _ _ Q1). cbn [filter]. rewrite Ve. cbn [negb].
      rewrite filter_all; auto. intros x Hx. rewrite NVE; auto. }
    destruct (HEI e He) as (ia & ib & -> & Hia & Hib).
    set (rs := filter (fun x => negb (tr_visible s ip x)) (tr_edges s)) in *.
    assert (Hrs : forall x, In x rs -> exists i j, x = [i; j] /\ (i < ip)%nat /\ (j < ip)%nat).
    { intros x Hx. apply HEI. apply Hes. apply (Permutation_in _ R1). auto. }
    assert (ED : tr_edges (tr_addPoint s ip) = set_insert [ip; ib] (set_insert [ia; ip] rs)).
    { cbn [tr_edges tr_addPoint]. rewrite V1. reflexivity. }
    assert (F1 : ~ In [ia; ip] rs).
    { intros Hx. destruct (Hrs _ Hx) as (i & j & E & Hi & Hj). injection E as <- <-. lia. }
    assert (F2 : ~ In [ip; ib] (set_insert [ia; ip] rs)).
    { intros Hx. apply set_insert_in in Hx. destruct Hx as [E|Hx]; [injection E as <- <-; lia|].
      destruct (Hrs _ Hx) as (i & j & E & Hi & Hj). injection E as <- <-. lia. }
    assert (EP : Permutation (tr_edges (tr_addPoint s ip)) ([ip; ib] :: [ia; ip] :: es)).
    { rewrite ED, (set_insert_new _ _ F2), (set_insert_new _ _ F1), R1. reflexivity. }
    assert (F3 : ~ In [ia; ip; ib] (tr_tris s)).
    { intros Hx. assert (ip < ip)%nat; [|lia]. apply (HTI _ ip Hx). simpl. auto. }
    assert (TE : tr_tris (tr_addPoint s ip) = set_insert [ia; ip; ib] (tr_tris s)).
    { cbn [tr_tris tr_addPoint]. rewrite V1. reflexivity. }
    injection Q2 as Ea Eb. cbn in Ea, Eb.
    exists B', (tot + cr (pp a) (pp (rk ip)) (pp b)). constructor; auto.
    + rewrite EP, P2. cbn [map]. rewrite Q3. unfold erk at 1 2. cbn [ends nth fst snd]. rewrite Ea, Eb. apply perm_swap.
    + intros x Hx. apply (Permutation_in _ EP) in Hx. destruct Hx as [<-|[<-|Hx]].
      * exists ip, ib. repeat split; lia.
      * exists ia, ip. repeat split; lia.
      * destruct (HEI x (Hes x Hx)) as (i & j & -> & Hi & Hj). exists i, j. repeat split; lia.
    + rewrite (tsum_mem s _ _ MEM), TE, (tsum_perm _ _ _ (set_insert_new _ _ F3)). cbn [tsum]. rewrite HT.
      unfold tcr, tr_area3. cbn [nth]. rewrite !HP by lia. rewrite cross_R, Ea, Eb. lra.
    + rewrite TE. intros t i Ht Hi. apply set_insert_in in Ht. destruct Ht as [->|Ht].
      * destruct Hi as [<-|[<-|[<-|[]]]]; lia.
      * specialize (HTI t i Ht Hi). lia.
    + eapply poly_inv_set; eauto.
    + rewrite TE, (Permutation_length (set_insert_new _ _ F3)). cbn [length]. lia.
Qed.

Lemma addPoints_inv : forall k s ip B tot, tinv s ip B tot -> (ip + k = n)%nat ->
  exists B' tot', tinv (fold_left tr_addPoint (seq ip k) s) n B' tot'.
Proof.
  induction k as [|k IH]; intros s ip B tot H E.
  - exists B, tot. replace n with ip by lia. auto.
  - cbn [seq fold_left]. destruct (addPoint_inv s ip B tot H ltac:(lia)) as (B' & tot' & H').
    apply (IH _ _ B' tot' H'). lia.
Qed.

(** ** The first triangle *)
Definition onseg (a b p : point) : Prop := exists t, 0 <= t <= 1 /\
  fst p = fst a + t * (fst b - fst a) /\ snd p = snd a + t * (snd b - snd a).

Lemma inseg_cyc : forall a b c r t, (a < m)%nat -> (b < m)%nat -> (c < m)%nat -> (r < m)%nat ->
  0 < cr (pp a) (pp b) (pp c) -> 0 < t < 1 ->
  fst (pp r) = fst (pp a) + t * (fst (pp b) - fst (pp a)) -> snd (pp r) = snd (pp a) + t * (snd (pp b) - snd (pp a)) ->
  cyc3 a r b.
Proof.
  intros a b c r t Ha Hb Hc Hr H Ht T1 T2.
  assert (C1 : cyc3 a b c) by (apply pos_cyc; auto).
  assert (C2 : cyc3 a r c) by (apply pos_cyc; auto; rewrite (cr_param1 _ _ _ (pp c) _ T1 T2); nra).
  assert (C3 : cyc3 r b c) by (apply pos_cyc; auto; rewrite (cr_param2 _ _ _ (pp c) _ T1 T2); nra).
  unfold cyc3 in *. lia.
Qed.

(** Three ranks that turn left form a polygon. *)
Lemma first_poly : forall a b c (S : list nat), (a < m)%nat -> (b < m)%nat -> (c < m)%nat ->
  0 < cr (pp a) (pp b) (pp c) ->
  (forall r, In r S -> (r < m)%nat /\ (onseg (pp a) (pp b) (pp r) \/ pp r = pp c)) ->
  exists B, Permutation (cyc B) [(a, b); (b, c); (c, a)] /\ poly_inv P B S (cr (pp a) (pp b) (pp c)).
Proof.
  intros a b c S Ha Hb Hc H HS. assert (C := pos_cyc a b c Ha Hb Hc H).
  assert (EX : exists B, Permutation (cyc B) [(a, b); (b, c); (c, a)] /\ incr B /\ length B = 3%nat /\
            forall x, In x B <-> x = a \/ x = b \/ x = c).
  { destruct C as [C|[C|C]]; [exists [a; b; c]|exists [b; c; a]|exists [c; a; b]]; cbn; repeat split; try lia; auto; try (intros x; intuition).
    - apply (Permutation_app_comm [(b, c); (c, a)] [(a, b)]).
    - apply (Permutation_app_comm [(c, a)] [(a, b); (b, c)]). }
  destruct EX as (B & HP & HI & HL & HB). exists B. split; auto.
  constructor; auto; try lia.
  - intros x Hx. apply HB in Hx. destruct Hx as [-> |[-> | ->]]; auto.
  - intros x y Hxy. apply (Permutation_in _ HP) in Hxy. destruct Hxy as [E|[E|[E|[]]]]; injection E as <- <-.
    + exists c. split; [apply HB; auto|auto].
    + exists a. split; [apply HB; auto|]. rewrite <- cr_rot. auto.
    + exists b. split; [apply HB; auto|]. rewrite cr_rot. auto.
  - rewrite (esum_perm P _ _ HP). cbn [esum fst snd]. unfold cr, det2. ring.
  - intros r Hr. destruct (HS r Hr) as [Hr' [(t & Ht & T1 & T2)|E]]; split; auto.
    + destruct (Req_dec t 0) as [E0|E0]; [|destruct (Req_dec t 1) as [E1|E1]].
      * left. apply HB. left. apply (pp_inj P ND); auto.
        apply (proj1 (param_ends _ _ _ _ T1 T2)); auto.
      * left. apply HB. right. left. apply (pp_inj P ND); auto.
        apply (proj2 (param_ends _ _ _ _ T1 T2)); auto.
      * right. exists a, b. split; [apply (Permutation_in _ (Permutation_sym HP)); simpl; auto|].
        split; [apply (inseg_cyc a b c r t); auto; lra|].
        rewrite cr_swap. unfold cr. rewrite T1, T2. ring.
    + left. apply HB. right. right. apply (pp_inj P ND); auto.
Qed.

Definition seg_inv (s : trR) (i0 i1 i2 : nat) : Prop :=
  (i0 < i2)%nat /\ (i1 < i2)%nat /\ tr_pt s i0 <> tr_pt s i1 /\
  forall i, (i < i2)%nat -> onseg (tr_pt s i0) (tr_pt s i1) (tr_pt s i).

Lemma param_unique : forall (a b p : point) t, a <> b ->
  fst p = fst a + t * (fst b - fst a) -> snd p = snd a + t * (snd b - snd a) ->
  (p = a -> t = 0) /\ (p = b -> t = 1).
Proof.
  intros [ax ay] [bx by_] p t NE T1 T2. cbn [fst snd] in *.
  assert (D : bx - ax <> 0 \/ by_ - ay <> 0).
  { destruct (Req_dec (bx - ax) 0); [|auto]. destruct (Req_dec (by_ - ay) 0); [|auto].
    exfalso. apply NE. f_equal; lra. }
  split; intros ->; cbn [fst snd] in *.
  - destruct D as [D|D]; apply (Rmult_eq_reg_r _ _ _) with (2 := D); lra.
  - destruct D as [D|D]; apply (Rmult_eq_reg_r _ _ _) with (2 := D); lra.
Qed.

Lemma dot_big : forall a b p : point, 0 < epsR ->
  epsR < sqdist a b -> (p = a \/ epsR < sqdist a p) -> forall t, 0 < t ->
  fst p = fst a + t * (fst b - fst a) -> snd p = snd a + t * (snd b - snd a) ->
  epsR < t * sqdist a b.
Proof.
  intros a b p He H1 H2 t Ht T1 T2.
  assert (E : sqdist a p = t * t * sqdist a b) by (unfold sqdist; rewrite T1, T2; ring).
  destruct H2 as [->|H2].
  - exfalso. assert (sqdist a a = 0) by (unfold sqdist; ring). rewrite H in E.
    assert (0 < t * t * sqdist a b) by (apply Rmult_lt_0_compat; nra). lra.
  - rewrite E in H2. destruct (Rlt_le_dec 1 t); [nra|].
    assert (t * t * sqdist a b <= t * sqdist a b); [|lra]. apply Rmult_le_compat_r; nra.
Qed.

Lemma extrema_inv : forall s i0 i1 i2, holds_points s -> (S i2 <= n)%nat -> seg_inv s i0 i1 i2 ->
  cr (tr_pt s i0) (tr_pt s i1) (tr_pt s i2) = 0 ->
  seg_inv s (fst (tr_extrema s i0 i1 i2)) (snd (tr_extrema s i0 i1 i2)) (S i2).
Proof.
  intros s i0 i1 i2 HP Hn (H0 & H1 & NE & HS) Z.
  set (a := tr_pt s i0) in *. set (b := tr_pt s i1) in *. set (p := tr_pt s i2) in *.
  assert (He := eps_pos).
  assert (IN : forall i, (i < n)%nat -> In (tr_pt s i) P) by (intros i Hi; rewrite HP by auto; apply pp_in; apply RK; auto).
  assert (Ia : In a P) by (apply IN; lia). assert (Ib : In b P) by (apply IN; lia). assert (Ip : In p P) by (apply IN; lia).
  destruct (on_line a b p NE Z) as (t & T1 & T2).
  destruct (param_unique a b p t NE T1 T2) as [PE0 PE1].
  assert (AB : epsR < sqdist a b) by (destruct (proj1 SEP a b Ia Ib); [contradiction|auto]).
  assert (D0 : dot_at a b p = t * sqdist a b).
  { unfold dot_at. change (n0 : R) with 0%R. cbn [nadd nmul nsub NumR]. rewrite T1, T2. unfold sqdist. ring. }
  assert (D1 : dot_at b p a = (1 - t) * sqdist a b).
  { unfold dot_at. change (n0 : R) with 0%R. cbn [nadd nmul nsub NumR]. rewrite T1, T2. unfold sqdist. ring. }
  assert (BA : sqdist b a = sqdist a b) by (unfold sqdist; ring).
  assert (big0 : 0 < t -> epsR < t * sqdist a b).
  { intros Ht. apply (dot_big a b p); auto. destruct (proj1 SEP a p Ia Ip); auto. }
  assert (big1 : t < 1 -> epsR < (1 - t) * sqdist a b).
  { intros Ht. rewrite <- BA. apply (dot_big b a p); auto; try lra.
    destruct (proj1 SEP b p Ib Ip); auto. }
  assert (U : nlt (tr_eps (T := R)) n1 = true).
  { apply Rltb_true. unfold tr_eps. rewrite lit_R. change (n1 : R) with 1%R. lra. }
  unfold tr_extrema. fold a b p. rewrite U, D0, D1.
  change (tr_eps (T := R)) with epsR.
  destruct (nlt epsR (t * sqdist a b)) eqn:L0; [apply Rltb_true in L0|apply Rltb_false in L0].
  - assert (t0 : 0 < t) by (destruct (Rle_dec t 0); [exfalso; nra|lra]).
    destruct (nlt epsR ((1 - t) * sqdist a b)) eqn:L1; [apply Rltb_true in L1|apply Rltb_false in L1]; cbn [fst snd].
    + assert (t1 : t < 1) by (destruct (Rle_dec 1 t); [exfalso; nra|lra]).
      unfold seg_inv. fold a b. repeat split; try lia; auto.
      intros i Hi. destruct (Nat.eq_dec i i2) as [->|Ni]; [|apply HS; lia].
      fold p. exists t. split; [lra|auto].
    + assert (t1 : 1 <= t) by (destruct (Rlt_dec t 1) as [X|X]; [specialize (big1 X); lra|lra]).
      unfold seg_inv. fold a b p. repeat split; try lia.
      * intros E. apply PE0 in E. lra.
      * intros i Hi. destruct (Nat.eq_dec i i2) as [->|Ni].
        -- fold p. exists 0. split; [lra|]. split; ring.
        -- destruct (HS i ltac:(lia)) as (u & Hu & U1 & U2). exists ((t - u) / t).
           split; [split; [apply Rmult_le_pos; [lra|apply Rlt_le, Rinv_0_lt_compat; lra]|]|].
           { apply (Rmult_le_reg_r t); [lra|]. field_simplify; lra. }
           rewrite U1, U2, T1, T2. split; field; lra.
  - assert (t0 : t <= 0) by (destruct (Rlt_dec 0 t) as [X|X]; [specialize (big0 X); lra|lra]).
    cbn [fst snd]. unfold seg_inv. fold a b p. repeat split; try lia.
    + intros E. symmetry in E. apply PE1 in E. lra.
    + intros i Hi. destruct (Nat.eq_dec i i2) as [->|Ni].
      * fold p. exists 1. split; [lra|]. split; ring.
      * destruct (HS i ltac:(lia)) as (u & Hu & U1 & U2). exists ((1 - u) / (1 - t)).
        split; [split; [apply Rmult_le_pos; [lra|apply Rlt_le, Rinv_0_lt_compat; lra]|]|].
        { apply (Rmult_le_reg_r (1 - t)); [lra|]. field_simplify; lra. }
        rewrite U1, U2, T1, T2. split; field; lra.
Qed.

(** Every point of the polygon is among the points in use. *)
Definition full (s : trR) : Prop := forall p, In p P -> exists i, (i < tr_size s)%nat /\ tr_pt s i = p.

Lemma seg_not_full : forall s i0 i1, holds_points s -> full s -> (tr_size s <= n)%nat -> ~ seg_inv s i0 i1 (tr_size s).
Proof.
  intros s i0 i1 HP F Hn (H0 & H1 & NE & HS). destruct NF as (i & j & k & Hi & Hj & Hk & NZ). apply NZ.
  destruct (F (pp i)) as (x & Hx & Ex); [apply pp_in; auto|].
  destruct (F (pp j)) as (y & Hy & Ey); [apply pp_in; auto|].
  destruct (F (pp k)) as (z & Hz & Ez); [apply pp_in; auto|].
  destruct (HS x Hx) as (t & _ & T1 & T2). destruct (HS y Hy) as (u & _ & U1 & U2). destruct (HS z Hz) as (v & _ & V1 & V2).
  rewrite Ex in *. rewrite Ey in *. rewrite Ez in *. unfold cr. rewrite T1, T2, U1, U2, V1, V2. ring.
Qed.

Lemma firstLoop_inv : forall fuel s i0 i1 i2, holds_points s -> full s -> (tr_size s <= n)%nat ->
  (i2 < tr_size s)%nat -> seg_inv s i0 i1 i2 -> (tr_size s < i2 + fuel)%nat -> tr_oob s = false ->
  exists s' j0 j1 j2,
    tr_firstLoop fuel s i0 i1 i2 (nabs (tr_area3 s i0 i1 i2)) = (s', (j0, j1, j2), nabs (tr_area3 s j0 j1 j2)) /\
    same_mem s s' /\ tr_edges s' = tr_edges s /\ tr_tris s' = tr_tris s /\ tr_oob s' = false /\
    (j2 < tr_size s)%nat /\ seg_inv s j0 j1 j2 /\ epsR < Rabs (cr (tr_pt s j0) (tr_pt s j1) (tr_pt s j2)).
Proof.
  induction fuel as [|fuel IH]; intros s i0 i1 i2 HP F Hn H2 HS Hf HO; [lia|].
  cbn [tr_firstLoop]. rewrite (proj2 (Nat.ltb_lt _ _) H2). cbn [andb].
  assert (Hi2 : (i2 < n)%nat) by lia. destruct HS as (S0 & S1 & SN & SS) eqn:EHS.
  assert (SP : cr (tr_pt s i0) (tr_pt s i1) (tr_pt s i2) = 0 \/ epsR < Rabs (cr (tr_pt s i0) (tr_pt s i1) (tr_pt s i2))).
  { rewrite !HP by lia. apply sep3; apply RK; lia. }
  assert (AE : tr_area3 s i0 i1 i2 = cr (tr_pt s i0) (tr_pt s i1) (tr_pt s i2)) by reflexivity.
  destruct (nlt (nabs (tr_area3 s i0 i1 i2)) tr_eps) eqn:L.
  - apply Rltb_true in L. change (Rabs (tr_area3 s i0 i1 i2) < epsR) in L. rewrite AE in L.
    destruct SP as [Z|SP]; [|lra].
    assert (HS' := extrema_inv s i0 i1 i2 HP ltac:(lia) (conj S0 (conj S1 (conj SN SS))) Z).
    set (e := tr_extrema s i0 i1 i2) in *.
    assert (H3 : (S i2 < tr_size s)%nat).
    { destruct (Nat.eq_dec (S i2) (tr_size s)) as [E|]; [|lia]. exfalso. rewrite E in HS'.
      revert HS'. apply seg_not_full; auto. }
    set (s1 := tr_flag s [i0; i1; i2; fst e; snd e; S i2]).
    destruct HS' as (A0 & A1 & A2 & A3).
    assert (O1 : tr_oob s1 = false).
    { unfold s1. cbn [tr_oob tr_flag]. rewrite HO. cbn [orb]. apply out_false.
      intros i Hi. simpl in Hi. lia. }
    destruct (IH s1 (fst e) (snd e) (S i2)) as (s' & j0 & j1 & j2 & E1 & (M1 & M2 & M3) & E3 & E4 & E5 & E6 & E7 & E8); auto.
    + exact (conj A0 (conj A1 (conj A2 A3))).
    + change (tr_size s1) with (tr_size s). lia.
    + exists s', j0, j1, j2. split; [exact E1|]. repeat split; auto; apply E7.
  - apply Rltb_false in L. change (epsR <= Rabs (tr_area3 s i0 i1 i2)) in L. rewrite AE in L.
    destruct SP as [Z|SP]; [rewrite Z, Rabs_R0 in L; pose proof eps_pos; lra|].
    exists s, i0, i1, i2. repeat split; auto.
Qed.

Lemma makeFirst_inv : forall s, holds_points s -> full s -> (tr_size s <= n)%nat -> (3 <= tr_size s)%nat ->
  tr_pt s 0 <> tr_pt s 1 -> tr_edges s = [] -> tr_tris s = [] -> tr_oob s = false ->
  exists s' start B tot, tr_makeFirst s = (s', start) /\ same_mem s s' /\ tinv s' start B tot /\ (start <= tr_size s)%nat.
Proof.
  intros s HP F Hn H3 NE HE HT HO. unfold tr_makeFirst.
  rewrite (proj2 (Nat.ltb_ge _ _) H3).
  destruct (firstLoop_inv (S (tr_size s)) s 0 1 2) as (s' & i0 & i1 & i2 & E1 & M & E3 & E4 & E5 & E6 & HS & BIG); auto; try lia.
  { repeat split; try lia; auto. intros i Hi. assert (Q : i = 0%nat \/ i = 1%nat) by lia. destruct Q as [-> | ->].
    - exists 0. split; [lra|]. split; ring.
    - exists 1. split; [lra|]. split; ring. }
  rewrite E1.
  assert (AE : forall a b c, tr_area3 s a b c = cr (tr_pt s a) (tr_pt s b) (tr_pt s c)) by reflexivity.
  assert (L : nlt (nabs (tr_area3 s i0 i1 i2)) tr_eps = false).
  { apply Rltb_false. change (epsR <= Rabs (tr_area3 s i0 i1 i2)). rewrite AE. lra. }
  rewrite L. assert (AE' : tr_area3 s' i0 i1 i2 = cr (tr_pt s i0) (tr_pt s i1) (tr_pt s i2)).
  { unfold tr_area3. rewrite !(same_mem_pt s s' _ M). reflexivity. }
  rewrite AE'. change (nopp (tr_eps (T := R))) with (- epsR).
  destruct HS as (S0 & S1 & SN & SS). assert (He := eps_pos).
  assert (HP' : forall i, (i < n)%nat -> tr_pt s' i = pp (rk i)) by (intros i Hi; rewrite (same_mem_pt s s' i M); auto).
  rewrite !HP in * by lia. set (a := rk i0) in *. set (b := rk i1) in *. set (c := rk i2) in *.
  assert (Ha : (a < m)%nat) by (apply RK; lia). assert (Hb : (b < m)%nat) by (apply RK; lia). assert (Hc : (c < m)%nat) by (apply RK; lia).
  assert (RKS : forall r, In r (map rk (seq 0 (S i2))) -> (r < m)%nat /\ (onseg (pp a) (pp b) (pp r) \/ pp r = pp c)).
  { intros r Hr. apply in_map_iff in Hr. destruct Hr as (i & <- & Hi). apply in_seq in Hi.
    split; [apply RK; lia|]. destruct (Nat.eq_dec i i2) as [->|Ni]; [right; reflexivity|]. left.
    specialize (SS i ltac:(lia)). rewrite HP in SS by lia. exact SS. }
  assert (D : i0 <> i1) by (intros ->; apply SN; reflexivity).
  destruct (Rltb (cr (pp a) (pp b) (pp c)) (- epsR)) eqn:O;
    [apply Rltb_true in O|apply Rltb_false in O];
    change (nlt (cr (pp a) (pp b) (pp c)) (- epsR)) with (Rltb (cr (pp a) (pp b) (pp c)) (- epsR)).
  - (* clockwise: swapped *)
    rewrite (proj2 (Rltb_true _ _) O).
    assert (Pos : 0 < cr (pp b) (pp a) (pp c)) by (replace (cr (pp b) (pp a) (pp c)) with (- cr (pp a) (pp b) (pp c)) by (unfold cr; ring); lra).
    destruct (first_poly b a c (map rk (seq 0 (S i2))) Hb Ha Hc Pos) as (B & PB & PI).
    { intros r Hr. destruct (RKS r Hr) as [R1 [(t & Ht & T1 & T2)|E]]; split; auto. left.
      exists (1 - t). split; [lra|]. rewrite T1, T2. split; ring. }
    eexists _, (S i2), B, (cr (pp b) (pp a) (pp c)). split; [reflexivity|]. split; [destruct M as (M1 & M2 & M3); repeat split; auto|]. split; [|lia].
    rewrite E3, E4, HE, HT.
    assert (EPm : Permutation (set_insert [i1; i0] (set_insert [i2; i1] (set_insert [i0; i2] []))) [[i1; i0]; [i2; i1]; [i0; i2]]).
    { rewrite set_insert_new, set_insert_new; auto.
      - intros [E|[]]. injection E as E E'. lia.
      - intros Hx. apply set_insert_in in Hx. destruct Hx as [E|[E|[]]]; injection E as E E'; lia. }
    constructor; auto.
    + lia.
    + cbn [tr_edges]. rewrite EPm, PB. cbn [map]. unfold erk. cbn [ends nth fst snd]. fold a b c.
      apply perm_skip. apply perm_swap.
    + cbn [tr_edges]. intros e He'. apply (Permutation_in _ EPm) in He'.
      destruct He' as [<-|[<-|[<-|[]]]]; eexists _, _; (split; [reflexivity|lia]).
    + cbn [tr_tris set_insert tsum]. unfold tcr, tr_area3. cbn [nth].
      change (cr (tr_pt s' i0) (tr_pt s' i2) (tr_pt s' i1) + 0 = cr (pp b) (pp a) (pp c)).
      rewrite !HP' by lia. fold a b c. unfold cr. ring.
    + cbn [tr_tris set_insert]. intros t i [<-|[]] Hi. simpl in Hi. lia.
    + cbn [tr_tris set_insert length]. lia.
  - rewrite (proj2 (Rltb_false _ _) O).
    assert (Pos : 0 < cr (pp a) (pp b) (pp c)).
    { unfold Rabs in BIG. destruct (Rcase_abs (cr (pp a) (pp b) (pp c))); lra. }
    destruct (first_poly a b c (map rk (seq 0 (S i2))) Ha Hb Hc Pos RKS) as (B & PB & PI).
    eexists _, (S i2), B, (cr (pp a) (pp b) (pp c)). split; [reflexivity|]. split; [destruct M as (M1 & M2 & M3); repeat split; auto|]. split; [|lia].
    rewrite E3, E4, HE, HT.
    assert (EPm : Permutation (set_insert [i2; i0] (set_insert [i1; i2] (set_insert [i0; i1] []))) [[i2; i0]; [i1; i2]; [i0; i1]]).
    { rewrite set_insert_new, set_insert_new; auto.
      - intros [E|[]]. injection E as E E'. lia.
      - intros Hx. apply set_insert_in in Hx. destruct Hx as [E|[E|[]]]; injection E as E E'; lia. }
    constructor; auto.
    + lia.
    + cbn [tr_edges]. rewrite EPm, PB. cbn [map]. unfold erk. cbn [ends nth fst snd]. fold a b c.
      apply (Permutation_rev [(c, a); (b, c); (a, b)]).
    + cbn [tr_edges]. intros e He'. apply (Permutation_in _ EPm) in He'.
      destruct He' as [<-|[<-|[<-|[]]]]; eexists _, _; (split; [reflexivity|lia]).
    + cbn [tr_tris set_insert tsum]. unfold tcr, tr_area3. cbn [nth].
      change (cr (tr_pt s' i0) (tr_pt s' i1) (tr_pt s' i2) + 0 = cr (pp a) (pp b) (pp c)).
      rewrite !HP' by lia. fold a b c. ring.
    + cbn [tr_tris set_insert]. intros t i [<-|[]] Hi. simpl in Hi. lia.
    + cbn [tr_tris set_insert length]. lia.
Qed.

End Convex.

(** ** The points kept *)
Lemma dist_sq_R : forall p q : point, dist_sq (T := R) p q = sqdist p q.
Proof. intros p q. unfold dist_sq, sqdist. change (n0 : R) with 0%R. cbn [nadd nmul nsub NumR]. ring. Qed.

Lemma keep_incl : forall ps base (p : point), In p (keep_distinct (T := R) base ps) -> In p ps.
Proof.
  induction ps as [|q ps IH]; intros base p; cbn [keep_distinct]; auto.
  destruct (nlt tr_eps (dist_sq base q)); [intros [H|H]; simpl; eauto|simpl; eauto].
Qed.

Lemma keep_all : forall ps base, (forall a b : point, In a (base :: ps) -> In b (base :: ps) -> a = b \/ epsR < sqdist a b) ->
  forall p, In p ps -> p = base \/ In p (keep_distinct (T := R) base ps).
Proof.
  induction ps as [|q ps IH]; intros base H p Hp; [destruct Hp|].
  cbn [keep_distinct]. destruct (nlt tr_eps (dist_sq base q)) eqn:E.
  - assert (H' : forall a b, In a (q :: ps) -> In b (q :: ps) -> a = b \/ epsR < sqdist a b).
    { intros a b Ha Hb. apply H; simpl in *; tauto. }
    destruct Hp as [->|Hp]; [right; simpl; auto|].
    destruct (IH q H' p Hp) as [->|Q]; right; simpl; auto.
  - apply Rltb_false in E. rewrite dist_sq_R in E. change (tr_eps (T := R)) with epsR in E.
    assert (q = base).
    { destruct (H base q) as [->|Q]; simpl; auto. lra. }
    subst q. destruct Hp as [->|Hp]; auto. apply IH; auto. intros a b Ha Hb. apply H; simpl in *; tauto.
Qed.

Lemma keep_length : forall ps base, (length (keep_distinct (T := R) base ps) <= length ps)%nat.
Proof.
  induction ps as [|q ps IH]; intros base; cbn [keep_distinct]; [simpl; lia|].
  destruct (nlt tr_eps (dist_sq base q)); cbn [length]; [specialize (IH q); lia|specialize (IH base); lia].
Qed.

Lemma keep_same : forall ps base, NoDup (base :: ps) ->
  (forall a b : point, In a (base :: ps) -> In b (base :: ps) -> a = b \/ epsR < sqdist a b) ->
  keep_distinct (T := R) base ps = ps.
Proof.
  induction ps as [|q ps IH]; intros base HN H; auto. cbn [keep_distinct].
  apply NoDup_cons_iff in HN. destruct HN as [N1 N2].
  assert (E : nlt tr_eps (dist_sq base q) = true).
  { apply Rltb_true. rewrite dist_sq_R. destruct (H base q) as [->|Q]; simpl; auto.
    exfalso. apply N1. simpl. auto. }
  rewrite E. f_equal. apply IH; auto. intros a b Ha Hb. apply H; simpl in *; tauto.
Qed.

Lemma keep_head : forall ps base (q : point) l, keep_distinct (T := R) base ps = q :: l -> q <> base.
Proof.
  induction ps as [|p ps IH]; intros base q l E; [discriminate|]. cbn [keep_distinct] in E.
  destruct (nlt tr_eps (dist_sq base p)) eqn:D; [|eauto].
  injection E as <- _. intros ->. apply Rltb_true in D. rewrite dist_sq_R in D.
  assert (sqdist base base = 0) by (unfold sqdist; ring). pose proof eps_pos. unfold epsR in *. lra.
Qed.

Lemma ranks_exist : forall (P l : list point), (forall p, In p l -> In p P) ->
  exists rs, length rs = length l /\ forall i, (i < length l)%nat ->
    (nth i rs 0 < length P)%nat /\ nth i l origin = nthp P (nth i rs 0%nat).
Proof.
  intros P l. induction l as [|p l IH]; intros H.
  - exists []. split; auto. simpl. intros. lia.
  - destruct IH as (rs & L & HR); [intros; apply H; simpl; auto|].
    destruct (In_nth P p origin (H p (or_introl eq_refl))) as (r & Hr & E).
    exists (r :: rs). split; [simpl; lia|]. intros [|i] Hi; simpl in *; [unfold nthp; auto|apply HR; lia].
Qed.

Lemma map_nth_seq : forall (A : Type) (d : A) n l, (n <= length l)%nat ->
  map (fun i => nth i l d) (seq 0 n) = firstn n l.
Proof.
  intros A d. induction n as [|n IH]; intros [|a l] H; auto; [simpl in H; lia|].
  cbn [seq map nth firstn]. f_equal. rewrite <- seq_shift, map_map. apply IH. simpl in H. lia.
Qed.

(** The object before the first triangle. *)
Definition tr_start {T} {N : Num T} (srt : (nat -> nat -> bool) -> list nat -> list nat) (junk : nat -> pt T) n (points : list (pt T)) : tri (T := T) :=
  let sorted := map (fun i => nth i points pt0) (srt (closer (gravity n points) points) (seq 0 n)) in
  let kept := remove_degenerate sorted in
  mkTri (kept ++ skipn (length kept) sorted) (length kept) junk [] [] false.

Lemma tr_new_start : forall {T} {N : Num T} srt (junk : nat -> pt T) n points, tr_new srt junk n points =
  let r := tr_makeFirst (tr_start srt junk n points) in fold_left tr_addPoint (seq (snd r) (n - snd r)) (fst r).
Proof. intros. unfold tr_new, tr_start. cbv zeta. destruct (tr_makeFirst _) as [s k]. reflexivity. Qed.

Theorem hull_area_count : forall srt junk n (points P : list point),
  (forall lt l, Permutation (srt lt l) l) -> (n <= length points)%nat ->
  (forall p, In p (firstn n points) <-> In p P) ->
  convex_ccw P -> NoDup P -> not_flat P -> separated epsR P ->
  tr_hullArea (tr_new (T := R) srt junk n points) = polygon_area P /\
  (NoDup (firstn n points) -> tr_oob (tr_new (T := R) srt junk n points) = false) /\
  (snd (tr_makeFirst (tr_start (T := R) srt junk n points)) <= tr_size (tr_start (T := R) srt junk n points))%nat /\
  (length (tr_tris (tr_new (T := R) srt junk n points)) + 2 <= n)%nat.
Proof.
  intros srt junk n points P SRT Hn HP CV ND NF SEP. unfold tr_new, tr_start. change (@pt R) with point.
  set (inds := srt _ _). assert (PI : Permutation inds (seq 0 n)) by apply SRT. clearbody inds.
  set (sorted := map (fun i => nth i points pt0) inds).
  assert (PS : Permutation sorted (firstn n points)).
  { unfold sorted. rewrite (Permutation_map _ PI).
    rewrite map_nth_seq by auto. reflexivity. }
  assert (LS : length sorted = n).
  { rewrite (Permutation_length PS), firstn_length. lia. }
  clearbody sorted.
  assert (IS : forall p, In p sorted <-> In p P).
  { intros p. rewrite <- HP. split; apply Permutation_in; auto. symmetry; auto. }
  set (kept := remove_degenerate sorted : list point).
  assert (SEPS : forall a b, In a sorted -> In b sorted -> a = b \/ epsR < sqdist a b).
  { intros a b Ha Hb. apply SEP; apply IS; auto. }
  assert (IK : forall p, In p kept <-> In p sorted).
  { unfold kept. destruct sorted as [|b ps]; [tauto|]. cbn [remove_degenerate]. intros p. split.
    - intros [->|H]; [simpl; auto|]. right. eapply keep_incl; eauto.
    - intros [->|H]; [simpl; auto|]. destruct (keep_all ps b SEPS p H) as [->|Q]; simpl; auto. }
  assert (LK : (length kept <= n)%nat).
  { unfold kept. rewrite <- LS. destruct sorted as [|b ps]; [simpl; lia|]. cbn [remove_degenerate length].
    pose proof (keep_length ps b) as KL. change (@pt R) with point in *. lia. }
  set (s0 := mkTri (kept ++ skipn (length kept) sorted) (length kept) junk [] [] false).
  assert (LB : length (tr_buf s0) = n).
  { cbn [tr_buf s0]. rewrite app_length, skipn_length. lia. }
  assert (IB : forall p, In p (tr_buf s0) -> In p P).
  { intros p H. apply IS. cbn [tr_buf s0] in H. apply in_app_or in H. destruct H as [H|H]; [apply IK; auto|].
    rewrite <- (firstn_skipn (length kept) sorted). apply in_or_app. auto. }
  destruct (ranks_exist P (tr_buf s0) IB) as (rs & LR & HR). change (@pt R) with point in LB. rewrite LB in HR.
  set (rk := fun i => nth i rs 0%nat).
  assert (HPT : holds_points P n rk s0).
  { intros i Hi. unfold tr_pt. rewrite nth_indep with (d' := origin) by lia. apply HR. auto. }
  assert (RK : forall i, (i < n)%nat -> (rk i < length P)%nat) by (intros; apply HR; auto).
  assert (F : full P s0).
  { intros p Hp. apply IS, IK in Hp. destruct (In_nth kept p origin Hp) as (i & Hi & E).
    exists i. split; auto. unfold tr_pt. rewrite nth_indep with (d' := origin) by lia.
    cbn [tr_buf s0]. rewrite app_nth1 by auto. exact E. }
  assert (K3 : (3 <= length kept)%nat).
  { destruct NF as (i & j & k & Hi & Hj & Hk & NZ).
    destruct kept as [|p [|q [|r l]]] eqn:EK; simpl; try lia; exfalso; apply NZ.
    - exfalso. apply (IK (nthp P i)). apply IS. apply nth_In; auto.
    - assert (A : forall x, (x < length P)%nat -> nthp P x = p).
      { intros x Hx. assert (H : In (nthp P x) [p]) by (apply IK, IS, nth_In; auto). destruct H as [H|[]]; auto. }
      rewrite !A by auto. apply cr_same1.
    - assert (A : forall x, (x < length P)%nat -> nthp P x = p \/ nthp P x = q).
      { intros x Hx. assert (H : In (nthp P x) [p; q]) by (apply IK, IS, nth_In; auto). destruct H as [H|[H|[]]]; auto. }
      destruct (A i Hi) as [-> | ->], (A j Hj) as [-> | ->], (A k Hk) as [-> | ->];
        unfold cr; ring. }
  assert (NE : tr_pt s0 0 <> tr_pt s0 1).
  { unfold tr_pt. cbn [tr_buf s0]. unfold kept in *. destruct sorted as [|b ps]; [simpl in K3; lia|].
    cbn [remove_degenerate] in *. destruct (keep_distinct b ps) as [|q l] eqn:EK; [simpl in K3; lia|].
    cbn. apply keep_head in EK. auto. }
  destruct (makeFirst_inv P CV ND NF SEP n rk RK s0 HPT F LK K3 NE eq_refl eq_refl eq_refl)
    as (s1 & start & B & tot & E1 & M1 & TI & HSZ).
  rewrite E1.
  assert (Hst : (start <= n)%nat) by (apply (ti_ip _ _ _ _ _ _ _ TI)).
  destruct (addPoints_inv P CV ND SEP n rk RK (n - start) s1 start B tot TI ltac:(lia)) as (B' & tot' & TI').
  set (s2 := fold_left tr_addPoint (seq start (n - start)) s1) in *.
  assert (SZ : tr_size s2 = length kept).
  { destruct M1 as (_ & M2 & _). change (length kept) with (tr_size s0). rewrite <- M2. unfold s2.
    generalize (seq start (n - start)). intros l. clear. revert s1. induction l as [|x l IH]; intros s1; auto.
    cbn [fold_left]. rewrite IH. reflexivity. }
  split; [|split; [|split; [exact HSZ|exact (ti_cnt _ _ _ _ _ _ _ TI')]]].
  - rewrite hullArea_sum, (ti_tris _ _ _ _ _ _ _ TI'). unfold polygon_area. f_equal.
    apply (inv_total P ND B' (map rk (seq 0 n)) tot'); [apply (ti_poly _ _ _ _ _ _ _ TI')|].
    intros r Hr. destruct (F (nthp P r)) as (i & Hi & E); [apply nth_In; auto|].
    change (tr_size s0) with (length kept) in Hi.
    rewrite (HPT i) in E by lia. apply (pp_inj P ND) in E; auto; [|apply RK; lia].
    subst r. apply in_map. apply in_seq. lia.
  - intros HN. apply (ti_oob _ _ _ _ _ _ _ TI'). rewrite SZ, <- LS. unfold kept.
    assert (NS : NoDup sorted) by (apply (Permutation_NoDup (Permutation_sym PS)); auto).
    destruct sorted as [|b ps]; auto. cbn [remove_degenerate]. rewrite keep_same; auto.
Qed.

Theorem hull_area : forall srt junk n (points P : list point),
  (forall lt l, Permutation (srt lt l) l) -> (n <= length points)%nat ->
  (forall p, In p (firstn n points) <-> In p P) ->
  convex_ccw P -> NoDup P -> not_flat P -> separated epsR P ->
  tr_hullArea (tr_new (T := R) srt junk n points) = polygon_area P /\
  (NoDup (firstn n points) -> tr_oob (tr_new (T := R) srt junk n points) = false) /\
  (snd (tr_makeFirst (tr_start (T := R) srt junk n points)) <= tr_size (tr_start (T := R) srt junk n points))%nat.
Proof.
  intros srt junk n points P H1 H2 H3 H4 H5 H6 H7.
  destruct (hull_area_count srt junk n points P H1 H2 H3 H4 H5 H6 H7) as (A & B & C & _). auto.
Qed.

(** ** Orientation, for any points *)
Lemma set_insert_cases : forall x s, Permutation (set_insert x s) (x :: s) \/ set_insert x s = s.
Proof.
  intros x s. induction s as [|y s IH]; simpl; auto.
  destruct (lexb x y); auto. destruct (eqlb x y); auto.
  destruct IH as [IH|IH]; [left; rewrite IH; apply perm_swap|right; rewrite IH; auto].
Qed.

Lemma area3_swap : forall (s : trR) a i b, tr_area3 s a i b = - tr_area3 s i a b.
Proof. intros. unfold tr_area3, cross. cbn [nsub nmul NumR]. ring. Qed.

Lemma area3_swap2 : forall (s : trR) a i b, tr_area3 s a i b = - tr_area3 s a b i.
Proof. intros. unfold tr_area3, cross. cbn [nsub nmul NumR]. ring. Qed.

(** The first triangle may have doubled area -eps, all others are larger than eps. *)
Definition oriented (s : trR) : Prop :=
  (tr_tris s = [] /\ tr_edges s = []) \/
  exists t0 rest, Permutation (tr_tris s) (t0 :: rest) /\ (epsR <= tcr s t0 \/ tcr s t0 = - epsR) /\
    forall t, In t rest -> epsR < tcr s t.

Lemma tcr_mem : forall s s' t, same_mem s s' -> tcr s' t = tcr s t.
Proof. intros s s' t H. unfold tcr, tr_area3. rewrite !(same_mem_pt s s' _ H). reflexivity. Qed.

Lemma addPoint_oriented : forall s ip, oriented s -> oriented (tr_addPoint s ip).
Proof.
  intros s ip H. assert (MEM : same_mem s (tr_addPoint s ip)) by (repeat split).
  destruct H as [[H1 H2]|(t0 & rest & H1 & H2 & H3)].
  - left. cbn [tr_tris tr_edges tr_addPoint]. rewrite H1, H2. auto.
  - right. cbn [tr_tris tr_addPoint].
    assert (V : forall e, In e (filter (tr_visible s ip) (tr_edges s)) -> epsR < tcr s [fst (ends e); ip; snd (ends e)]).
    { intros e He. apply filter_In in He. destruct He as [_ He]. unfold tr_visible in He. apply Rltb_true in He.
      unfold tcr. cbn [nth]. rewrite area3_swap. change (nopp (tr_eps (T := R))) with (- epsR) in He. lra. }
    cut (forall vis T, (forall e, In e vis -> epsR < tcr s [fst (ends e); ip; snd (ends e)]) ->
      (exists rest, Permutation T (t0 :: rest) /\ forall t, In t rest -> epsR < tcr s t) ->
      exists rest, Permutation (fold_left (fun t e => set_insert [fst (ends e); ip; snd (ends e)] t) vis T) (t0 :: rest) /\
        forall t, In t rest -> epsR < tcr s t).
    { intros C. destruct (C _ (tr_tris s) V) as (rest' & Q1 & Q2); [exists rest; auto|].
      exists t0, rest'. split; [exact Q1|]. rewrite (tcr_mem s _ t0 MEM). split; [exact H2|].
      intros t Ht. rewrite (tcr_mem s _ t MEM). apply Q2. exact Ht. }
    clear. induction vis as [|e vis IH]; intros T HV (rest & Q1 & Q2); cbn [fold_left]; [eauto|].
    apply IH; [intros; apply HV; simpl; auto|].
    destruct (set_insert_cases [fst (ends e); ip; snd (ends e)] T) as [Q|Q].
    + exists ([fst (ends e); ip; snd (ends e)] :: rest). split.
      * rewrite Q, Q1. apply perm_swap.
      * intros t [<-|Ht]; auto. apply HV. simpl. auto.
    + exists rest. rewrite Q. auto.
Qed.

Lemma firstLoop_mem : forall fuel (s s' : trR) i0 i1 i2 r area,
  tr_firstLoop fuel s i0 i1 i2 (nabs (tr_area3 s i0 i1 i2)) = (s', r, area) ->
  same_mem s s' /\ tr_edges s' = tr_edges s /\ tr_tris s' = tr_tris s /\
  area = nabs (tr_area3 s (fst (fst r)) (snd (fst r)) (snd r)).
Proof.
  induction fuel as [|fuel IH]; intros s s' i0 i1 i2 r area E; cbn [tr_firstLoop] in E.
  - injection E as <- <- <-. repeat split.
  - destruct ((i2 <? tr_size s)%nat && nlt (nabs (tr_area3 s i0 i1 i2)) tr_eps).
    + apply IH in E. destruct E as ((E1 & E2 & E3) & E4 & E5 & E6). repeat split; auto.
    + injection E as <- <- <-. repeat split.
Qed.

Lemma makeFirst_oriented : forall s : trR, tr_tris s = [] -> tr_edges s = [] -> oriented (fst (tr_makeFirst s)).
Proof.
  intros s HT HE. unfold tr_makeFirst. destruct (tr_size s <? 3)%nat; [left; auto|].
  destruct (tr_firstLoop (S (tr_size s)) s 0 1 2 (nabs (tr_area3 s 0 1 2))) as [[s' [[i0 i1] i2]] area] eqn:E.
  apply firstLoop_mem in E. destruct E as (M & E1 & E2 & ->). cbn [fst snd].
  assert (AE : forall a b c, tr_area3 s' a b c = tr_area3 s a b c).
  { intros. unfold tr_area3. rewrite !(same_mem_pt s s' _ M). reflexivity. }
  destruct (nlt (nabs (tr_area3 s i0 i1 i2)) tr_eps) eqn:L.
  - cbn [fst]. left. rewrite E1, E2. auto.
  - apply Rltb_false in L. change (epsR <= Rabs (tr_area3 s i0 i1 i2)) in L. rewrite AE.
    destruct (nlt (tr_area3 s i0 i1 i2) (nopp tr_eps)) eqn:O; cbn [fst]; right;
      rewrite E1, E2, HT, HE; cbn [tr_tris tr_edges tr_buf set_insert];
      [exists [i0; i2; i1], []|exists [i0; i1; i2], []]; (split; [apply Permutation_refl|split; [|intros ? []]]).
    + apply Rltb_true in O. change (nopp (tr_eps (T := R))) with (- epsR) in O. left.
      change (epsR <= tr_area3 s' i0 i2 i1). rewrite AE, area3_swap2. lra.
    + apply Rltb_false in O. change (nopp (tr_eps (T := R))) with (- epsR) in O.
      change (epsR <= tr_area3 s' i0 i1 i2 \/ tr_area3 s' i0 i1 i2 = - epsR). rewrite AE.
      unfold Rabs in L. destruct (Rcase_abs (tr_area3 s i0 i1 i2)); lra.
Qed.

Theorem tr_new_oriented : forall srt junk n (points : list point), oriented (tr_new (T := R) srt junk n points).
Proof.
  intros srt junk n points. unfold tr_new.
  set (s0 := mkTri _ _ junk [] [] false).
  assert (O := makeFirst_oriented s0 eq_refl eq_refl). destruct (tr_makeFirst s0) as [s start]. cbn [fst] in O.
  generalize (seq start (n - start)). intros l. revert s O. induction l as [|i l IH]; intros s O; auto.
  cbn [fold_left]. apply IH. apply addPoint_oriented. auto.
Qed.

Lemma tsum_pos : forall s l, (forall t, In t l -> epsR < tcr s t) -> 0 <= tsum s l /\ (l <> [] -> epsR < tsum s l).
Proof.
  intros s l. pose proof eps_pos. induction l as [|t l IH]; intros HA; cbn [tsum]; [split; [lra|tauto]|].
  assert (H1 := HA t (or_introl eq_refl)). destruct IH as [H2 _]; [intros; apply HA; simpl; auto|].
  split; [lra|]. intros _. lra.
Qed.

Lemma area_lower : forall srt junk n (points : list point),
  let s := tr_new (T := R) srt junk n points in
  0 <= tr_hullArea s \/ (tr_hullArea s = - epsR / 2 /\ length (tr_tris s) = 1%nat).
Proof.
  intros srt junk n points s. rewrite hullArea_sum. pose proof eps_pos.
  assert (O : oriented s) by apply tr_new_oriented. clearbody s.
  destruct O as [[H1 _]|(t0 & rest & H1 & H2 & H3)].
  - left. rewrite H1. simpl. lra.
  - rewrite (tsum_perm _ _ _ H1), (Permutation_length H1). cbn [tsum length].
    destruct (tsum_pos s rest H3) as [Q1 Q2]. destruct H2 as [H2|H2]; [left; lra|].
    destruct rest as [|t rest]; [right|left].
    + cbn [tsum length]. split; auto. lra.
    + assert (epsR < tsum s (t :: rest)) by (apply Q2; discriminate). lra.
Qed.
