(** Proofs about node interpolation. *)
From Coq Require Import ZArith List Bool Lia.
From Verif Require Import Base Num M_LinearSolve M_FindPoint M_SideIterator M_NodeInterp S_Grid S_Interp
  L_LinearSolve L_Interp L_FindPoint L_FindPointR.
Import ListNotations.
Open Scope Z_scope.

Section Generic.
Context {T : Type} {N : Num T}.
Implicit Types f : fp (T:=T).

(** ** Two finders holding the same grid search alike *)
Definition twin f1 f2 : Prop := fp_dims f1 <> [] /\ same_grid f1 f2 /\ solver_ok f1 /\ solver_ok f2.
Definition twin_at f1 f2 : Prop := twin f1 f2 /\ fp_dIndices f1 = fp_dIndices f2 /\ fp_target f1 = fp_target f2.

Definition same_exec {A} (P : A -> A -> Prop) (m1 m2 : exec A) : Prop :=
  (exists u, m1 = Undef u /\ m2 = Undef u) \/ (exists a b, m1 = Ret a /\ m2 = Ret b /\ P a b).

Lemma same_exec_eq : forall {A} (m : exec A), same_exec eq m m.
Proof. intros A [a|u]; [right; eauto|left; eauto]. Qed.

Lemma same_bind : forall {A B} (P : A -> A -> Prop) (Q : B -> B -> Prop) m1 m2 k1 k2,
  same_exec P m1 m2 -> (forall a b, P a b -> same_exec Q (k1 a) (k2 b)) ->
  same_exec Q (bind m1 k1) (bind m2 k2).
Proof.
  intros A B P Q m1 m2 k1 k2 [(u & -> & ->)|(a & b & -> & -> & H)] K; [left; simpl; eauto|]. simpl. auto.
Qed.

Lemma same_ret : forall {A} (P : A -> A -> Prop) a b, P a b -> same_exec P (Ret a) (Ret b).
Proof. intros. right. eauto. Qed.

Lemma next_target : forall g s code s', fp_next g s = Ret (code, s') -> fp_target s' = fp_target s.
Proof.
  intros g s code s' H. apply next_inv in H. destruct H as [(_ & -> & _)|H]; auto.
  destruct H as (_ & jr & sv & info & sv' & xs & err & H). tauto.
Qed.

Lemma twin_next : forall g f1 f2 c1 c2 f1' f2', twin f1 f2 ->
  fp_next g f1 = Ret (c1, f1') -> fp_next g f2 = Ret (c2, f2') -> twin f1' f2'.
Proof.
  intros g f1 f2 c1 c2 f1' f2' (D & G & W1 & W2) H1 H2.
  assert (G1 := next_same_grid _ _ _ _ H1). assert (G2 := next_same_grid _ _ _ _ H2).
  assert (ED : fp_dims f1 = fp_dims f2) by (apply G). assert (ED1 : fp_dims f1 = fp_dims f1') by apply G1.
  split; [congruence|]. split; [|split].
  - eapply same_grid_trans; [apply same_grid_sym; exact G1|]. eapply same_grid_trans; [exact G|exact G2].
  - eapply next_solver_ok; [|exact W1|exact H1]. auto.
  - eapply next_solver_ok; [|exact W2|exact H2]. congruence.
Qed.

Lemma twin_loop : forall g fuel f1 f2, fp_dims f1 <> [] -> alike f1 f2 ->
  same_exec (fun a b => match a, b with
     | None, None => True
     | Some x, Some y => fst x = fst y /\ twin_at (snd x) (snd y)
     | _, _ => False end) (fp_loop g fuel f1) (fp_loop g fuel f2).
Proof.
  intros g. induction fuel as [|fuel IH]; intros f1 f2 D A; [apply same_ret; auto|].
  cbn [fp_loop].
  destruct (next_alike g f1 f2 D A) as [(u & -> & ->)|(code & s1' & s2' & R1 & R2 & E1 & E2 & A')].
  - left. simpl. eauto.
  - rewrite R1, R2. cbn [bind fst snd].
    assert (TW : twin f1 f2) by (destruct A as (G & _ & _ & _ & _ & _ & W1 & W2); repeat split; auto; apply G).
    assert (TN := twin_next g f1 f2 _ _ _ _ TW R1 R2).
    destruct (Z.eqb_spec code 0).
    + apply IH; auto. apply TN.
    + apply same_ret. cbn [fst snd]. split; auto. split; auto. split; auto.
      rewrite (next_target _ _ _ _ R1), (next_target _ _ _ _ R2). apply A.
Qed.

Lemma twin_find : forall g f1 f2 guess target, twin f1 f2 ->
  same_exec (fun a b => fst a = fst b /\ twin_at (snd a) (snd b))
    (ni_findTarget g f1 guess target) (ni_findTarget g f2 guess target).
Proof.
  intros g f1 f2 guess target (D & G & W1 & W2). unfold ni_findTarget, fp_reset.
  assert (ED : fp_dims f1 = fp_dims f2) by apply G. rewrite <- ED.
  destruct (mapM (vget guess) (zseq (length (fp_dims f1)))) as [d|u]; cbn [bind]; [|left; eauto].
  destruct (mapM (vget target) (zseq (length (fp_dims f1)))) as [t|u]; cbn [bind]; [|left; eauto].
  set (s1 := mkFp (fp_slvr f1) _ _ _ _ _ _ _ _ _ _ _ _ _ _).
  set (s2 := mkFp (fp_slvr f2) _ _ _ _ _ _ _ _ _ _ _ _ _ _).
  assert (A : alike s1 s2).
  { unfold alike. cbn. split; [unfold same_grid in *; cbn; tauto|].
    repeat split; auto; try tauto. destruct W2 as (sv & E & W2). exists sv. cbn. rewrite ED. auto. }
  unfold fp_search. cbn [s1 s2 fp_nitermax].
  assert (EN : fp_nitermax f1 = fp_nitermax f2) by apply G. rewrite <- EN.
  assert (L := twin_loop g (S (Z.to_nat (fp_nitermax f1))) s1 s2 D A).
  destruct L as [(u & -> & ->)|([[c1 r1]|] & [[c2 r2]|] & -> & -> & P)]; cbn [bind]; try contradiction.
  - left. eauto.
  - destruct P as [P1 P2]. cbn [fst snd] in P1, P2. subst c2. cbn [fst snd].
    apply same_ret. destruct (0 <? c1); cbn [fst snd]; auto.
  - cbn [fst snd]. apply same_ret. cbn [fst snd]. split; auto. destruct A as (G' & ? & ? & ? & ? & ? & W1' & W2').
    split; [|auto]. split; auto.
Qed.

Lemma twin_error : forall f1 f2, twin_at f1 f2 -> fp_getError f1 = fp_getError f2.
Proof. intros f1 f2 ((_ & G & _) & E1 & E2). apply error_ext; auto. Qed.

Lemma twin_retry : forall g fuel it c0 c1 target f1 f2 guess, twin_at f1 f2 ->
  same_exec (fun a b => fst (fst a) = fst (fst b) /\ twin_at (snd (fst a)) (snd (fst b)) /\ snd a = snd b)
    (ni_retry g fuel it c0 c1 target f1 guess) (ni_retry g fuel it c0 c1 target f2 guess).
Proof.
  intros g. induction fuel as [|fuel IH]; intros it c0 c1 target f1 f2 guess W; [apply same_ret; auto|].
  cbn [ni_retry]. eapply same_bind; [apply same_exec_eq|]. intros side ? <-.
  eapply same_bind; [apply same_exec_eq|]. intros guess' ? <-.
  eapply same_bind; [apply twin_find; apply W|]. intros [a1 a2] [b1 b2] [P1 P2].
  cbn [fst snd] in *. subst b1. destruct ((fst (side_next it) =? 1) || (a1 =? 0)).
  - apply same_ret. cbn [fst snd]. auto.
  - apply IH. auto.
Qed.

Definition st_same (a b : fp (T:=T) * list T * list (Z * list (Z * T))) : Prop :=
  twin (fst (fst a)) (fst (fst b)) /\ snd (fst a) = snd (fst b) /\ snd a = snd b.

Lemma twin_node : forall g dc c0 c1 a b k, st_same a b ->
  same_exec st_same (ni_node g dc c0 c1 a k) (ni_node g dc c0 c1 b k).
Proof.
  intros g dc c0 c1 [[f1 g1] w1] [[f2 g2] w2] k (W & E1 & E2). cbn [fst snd] in *. subst g2 w2.
  unfold ni_node. eapply same_bind; [apply same_exec_eq|]. intros x ? <-.
  eapply same_bind; [apply same_exec_eq|]. intros y ? <-.
  eapply same_bind; [apply twin_find; exact W|]. intros [a1 a2] [b1 b2] [P1 P2]. cbn [fst snd] in *. subst b1.
  assert (P2' := P2). destruct P2' as (P3 & P4 & P5).
  destruct (a1 =? 0).
  - rewrite <- P4, <- (weights_ext a2 b2) by apply P3.
    eapply same_bind; [apply same_exec_eq|]. intros iw ? <-. apply same_ret. repeat split; auto; apply P3.
  - destruct (a1 =? -3); [apply same_ret; repeat split; auto; apply P3|].
    eapply same_bind; [apply same_exec_eq|]. intros sit ? <-.
    eapply same_bind; [apply twin_retry; exact P2|]. intros [[i1 h1] u1] [[i2 h2] u2] (Q1 & Q2 & Q3).
    cbn [fst snd] in *. subst i2 u2. destruct (i1 =? 0).
    + apply same_ret. repeat split; auto; apply Q2.
    + rewrite <- (twin_error h1 h2) by auto. eapply same_bind; [apply same_exec_eq|]. intros e ? <-.
      apply same_ret. repeat split; auto; apply Q2.
Qed.

Lemma twin_foldM : forall g dc c0 c1 l a b, st_same a b ->
  same_exec st_same (foldM (ni_node g dc c0 c1) l a) (foldM (ni_node g dc c0 c1) l b).
Proof.
  intros g dc c0 c1. induction l as [|k l IH]; intros a b H; [apply same_ret; auto|].
  cbn [foldM]. eapply same_bind; [apply twin_node; exact H|]. auto.
Qed.

Definition ni_same (s1 s2 : ni (T:=T)) : Prop :=
  ni_src s1 = ni_src s2 /\ ni_dst s1 = ni_dst s2 /\ twin (ni_finder s1) (ni_finder s2).

Theorem compute_same : forall g s1 s2, ni_same s1 s2 ->
  same_exec (fun a b => ni_same a b /\ ni_weights a = ni_weights b)
    (ni_computeWeights g s1) (ni_computeWeights g s2).
Proof.
  intros g s1 s2 (E1 & E2 & W). unfold ni_computeWeights. rewrite <- E1, <- E2.
  destruct (ni_src s1) as [[d0 d1]|]; [|left; eauto]. destruct (ni_dst s1) as [[n dc]|]; [|left; eauto].
  eapply same_bind; [apply same_exec_eq|]. intros c0 ? <-.
  eapply same_bind; [apply same_exec_eq|]. intros c1 ? <-.
  eapply same_bind; [apply twin_foldM; split; [exact W|split; reflexivity]|].
  intros [[f1 g1] w1] [[f2 g2] w2] (P1 & P2 & P3). cbn [fst snd] in *. apply same_ret.
  cbn. split; auto. split; auto.
Qed.

(** A finder after a search is a twin of itself before. *)
Lemma twin_refl : forall f, fp_dims f <> [] -> solver_ok f -> twin f f.
Proof. intros. repeat split; auto. Qed.

Lemma twin_trans : forall a b c, twin a b -> twin b c -> twin a c.
Proof.
  intros a b c (D & G & W1 & W2) (D' & G' & W1' & W2'). split; auto. split; [eapply same_grid_trans; eauto|]. auto.
Qed.

Lemma twin_sym : forall a b, twin a b -> twin b a.
Proof.
  intros a b (D & G & W1 & W2). split; [|split; [apply same_grid_sym; auto|auto]].
  assert (E : fp_dims a = fp_dims b) by apply G. congruence.
Qed.

Lemma loop_result : forall g fuel s r, fp_dims s <> [] -> solver_ok s ->
  fp_loop g fuel s = Ret (Some r) ->
  twin s (snd r) /\ fp_target (snd r) = fp_target s /\ fst r <> 0 /\
  exists s0, fp_next g s0 = Ret r /\ twin s s0 /\ fp_target s0 = fp_target s.
Proof.
  intros g. induction fuel as [|fuel IH]; intros s r D W H; [discriminate|]. cbn [fp_loop] in H.
  apply bind_ret_inv in H. destruct H as ([c s'] & HN & H). cbn [fst snd] in H.
  assert (G := next_same_grid _ _ _ _ HN). assert (W' := next_solver_ok _ _ _ _ D W HN).
  assert (TS : twin s s') by (repeat split; auto; apply G).
  assert (ET := next_target _ _ _ _ HN).
  destruct (Z.eqb_spec c 0).
  - assert (D' : fp_dims s' <> []) by (assert (E : fp_dims s = fp_dims s') by apply G; congruence).
    destruct (IH s' r D' W' H) as (A & B & C & s0 & E1 & E2 & E3).
    split; [eapply twin_trans; eauto|]. split; [congruence|]. split; auto.
    exists s0. split; auto. split; [eapply twin_trans; eauto|congruence].
  - injection H as <-. cbn [fst snd]. split; auto. split; auto. split; auto.
    exists s. split; auto. split; auto. apply twin_refl; auto.
Qed.

Lemma find_result : forall g f guess target ier f', fp_dims f <> [] -> solver_ok f ->
  ni_findTarget g f guess target = Ret (ier, f') ->
  twin f f' /\ mapM (vget target) (zseq (length (fp_dims f))) = Ret (fp_target f') /\
  (ier = 0 -> exists f0, fp_next g f0 = Ret (1, f')).
Proof.
  intros g f guess target ier f' D W H. unfold ni_findTarget in H.
  apply bind_ret_inv in H. destruct H as (s & HR & H). apply bind_ret_inv in H. destruct H as ([c r] & HS & H).
  unfold fp_reset in HR. apply bind_ret_inv in HR. destruct HR as (d & Hd & HR).
  apply bind_ret_inv in HR. destruct HR as (t & Ht & HR). injection HR as <-.
  set (s := mkFp _ _ _ _ _ _ _ _ _ _ _ _ _ _ _) in *.
  assert (TW : twin f s) by (repeat split; auto; destruct W as (sv & E & W); exists sv; auto).
  unfold fp_search in HS. apply bind_ret_inv in HS. destruct HS as ([[c0 r0]|] & HL & HS).
  - injection HS as <- <-. destruct (loop_result g _ s _ ltac:(apply D) ltac:(apply TW) HL) as (A & B & C & s0 & E1 & E2 & E3).
    cbn [fst snd] in *. split.
    + assert (f' = r0) by (destruct (0 <? c0); injection H; auto). subst f'. exact (twin_trans _ _ _ TW A).
    + split.
      * assert (f' = r0) by (destruct (0 <? c0); injection H; auto). subst f'. rewrite B. exact Ht.
      * intros ->. destruct (0 <? c0) eqn:L.
        -- injection H as <-. apply Z.ltb_lt in L. exists s0.
           assert (c0 = 1); [|subst; auto].
           apply next_inv in E1. destruct E1 as [(-> & _)|(_ & jr & sv & info & sv' & xs & err & H)]; [lia|].
           destruct H as (_ & _ & _ & _ & _ & _ & _ & _ & _ & _ & _ & _ & [(-> & _)|[(-> & _)|[(-> & _)|(-> & _)]]]); lia.
        -- injection H as -> <-. congruence.
  - exfalso. revert HL. apply loop_terminates; [lia|]. cbn [s fp_nitermax fp_iter]. lia.
Qed.

Lemma retry_result : forall g fuel it c0 c1 target f guess ier f' guess', fp_dims f <> [] -> solver_ok f ->
  ni_retry g fuel it c0 c1 target f guess = Ret (ier, f', guess') -> twin f f'.
Proof.
  intros g. induction fuel as [|fuel IH]; intros it c0 c1 target f guess ier f' guess' D W H; cbn [ni_retry] in H.
  - injection H as <- <- <-. apply twin_refl; auto.
  - apply bind_ret_inv in H. destruct H as (side & _ & H). apply bind_ret_inv in H. destruct H as (g1 & _ & H).
    apply bind_ret_inv in H. destruct H as ([i1 f1] & HF & H).
    destruct (find_result _ _ _ _ _ _ D W HF) as (A & _ & _). cbn [fst snd] in H.
    destruct ((fst (side_next it) =? 1) || (i1 =? 0)).
    + injection H as <- <- <-. auto.
    + apply IH in H; [eapply twin_trans; eauto| |apply A].
      assert (E : fp_dims f = fp_dims f1) by apply A. congruence.
Qed.

(** ** C17: what an entry of the weights says *)
Lemma insert_in : forall {V} k (v : V) m j w, In (j, w) (map_insert k v m) -> (j = k /\ w = v) \/ In (j, w) m.
Proof.
  induction m as [|[k' v'] m IH]; cbn [map_insert]; intros j w H.
  - destruct H as [H|[]]. injection H as <- <-. auto.
  - destruct (k <? k'); [destruct H as [H|H]; [injection H as <- <-; auto|auto]|].
    destruct (k =? k'); auto. destruct H as [H|H]; [right; left; auto|].
    apply IH in H. destruct H; auto. right. right. auto.
Qed.

Lemma node_result : forall g dc c0 c1 f guess ws k f' guess' ws' cx cy,
  fp_dims f <> [] -> length (fp_dims f) = 2%nat -> solver_ok f -> fp_coords f = [cx; cy] ->
  ni_node g dc c0 c1 (f, guess, ws) k = Ret (f', guess', ws') ->
  twin f f' /\ (ws' = ws \/ exists iw, ws' = map_insert k iw ws /\ located [cx; cy] (fp_tolpos f) dc k iw).
Proof.
  intros g dc c0 c1 f guess ws k f' guess' ws' cx cy D LD W HC H. unfold ni_node in H.
  apply bind_ret_inv in H. destruct H as (x & Hx & H). apply bind_ret_inv in H. destruct H as (y & Hy & H).
  apply bind_ret_inv in H. destruct H as ([i1 f1] & HF & H). cbn [fst snd] in H.
  destruct (find_result _ _ _ _ _ _ D W HF) as (A & B & C).
  assert (D1 : fp_dims f1 <> []) by (assert (E : fp_dims f = fp_dims f1) by apply A; congruence).
  destruct (Z.eqb_spec i1 0).
  - apply bind_ret_inv in H. destruct H as (iw & HW & H). injection H as <- <- <-. split; auto.
    right. exists iw. split; auto. destruct (C e) as (f0 & HN).
    apply next_converged in HN. destruct HN as (err & HE & HT & _).
    assert (ET : fp_tolpos f = fp_tolpos f1) by apply A. rewrite <- ET in HT.
    assert (EC : fp_coords f1 = [cx; cy]) by (destruct A as (_ & G & _); destruct G as (G & _); congruence).
    assert (EDm : fp_dims f = fp_dims f1) by apply A.
    unfold fp_getError in HE. apply bind_ret_inv in HE. destruct HE as (pos & HP & HE).
    unfold fp_getPosition in HP. rewrite EC in HP. cbn [mapM] in HP.
    apply bind_ret_inv in HP. destruct HP as (px & HPx & HP). apply bind_ret_inv in HP. destruct HP as (l & HPy & HP).
    injection HP as <-. apply bind_ret_inv in HPy. destruct HPy as (py & HPy & HP). cbn [bind] in HP. injection HP as <-.
    assert (ETg : fp_target f1 = [x; y]).
    { rewrite LD in B. change (mapM (vget [x; y]) (zseq 2)) with (Ret [x; y]) in B. injection B as B. auto. }
    rewrite <- EDm, LD, ETg in HE. change (zseq 2) with [0; 1] in HE. cbn [foldM bind] in HE.
    change (vget [px; py] 0) with (Ret px) in HE. change (vget [px; py] 1) with (Ret py) in HE.
    change (vget [x; y] 0) with (Ret x) in HE. change (vget [x; y] 1) with (Ret y) in HE. cbn [bind] in HE.
    injection HE as <-.
    exists x, y, px, py. split; auto. split; auto. cbn [nth]. unfold weighted.
    unfold fp_interp in HPx, HPy. rewrite HW in HPx, HPy. cbn [bind] in HPx, HPy. auto.
  - destruct (i1 =? -3); [injection H as <- <- <-; auto|].
    apply bind_ret_inv in H. destruct H as (sit & _ & H).
    apply bind_ret_inv in H. destruct H as ([[i2 f2] g2] & HR & H).
    apply retry_result in HR; auto; [|apply A].
    assert (TT : twin f f2) by (eapply twin_trans; eauto).
    destruct (i2 =? 0).
    + injection H as <- <- <-. auto.
    + apply bind_ret_inv in H. destruct H as (e & _ & H). injection H as <- <- <-. auto.
Qed.

(** Keys are inserted in increasing order. *)
Definition keys_ok (lo hi : Z) (ws : list (Z * list (Z * T))) : Prop :=
  (forall j w, In (j, w) ws -> lo <= j < hi) /\ NoDup (map fst ws).

Lemma insert_keys : forall k (v : list (Z * T)) m, keys_ok 0 k m -> 0 <= k -> keys_ok 0 (k + 1) (map_insert k v m).
Proof.
  intros k v m [A B] Hk. split.
  - intros j w H. apply insert_in in H. destruct H as [[-> _]|H]; [lia|]. apply A in H. lia.
  - induction m as [|[k' v'] m IH]; cbn [map_insert].
    + constructor; [simpl; auto|constructor].
    + assert (k' < k) by (apply (A k' v'); simpl; auto).
      destruct (Z.ltb_spec k k'); [lia|]. destruct (Z.eqb_spec k k'); [lia|].
      simpl in B. apply NoDup_cons_iff in B. destruct B as [B1 B2]. simpl. constructor.
      * intros C. apply in_map_iff in C. destruct C as ([j w] & E & C). simpl in E. subst j.
        apply insert_in in C. destruct C as [[-> _]|C]; [lia|]. apply B1. apply in_map_iff. exists (k', w). auto.
      * apply IH; auto. intros j w Hin. apply (A j w). simpl. auto.
Qed.

Lemma keys_mono : forall lo hi hi' ws, keys_ok lo hi ws -> hi <= hi' -> keys_ok lo hi' ws.
Proof. intros lo hi hi' ws [A B] H. split; auto. intros j w Hin. apply A in Hin. lia. Qed.

Lemma nodes_result : forall g dc c0 c1 cx cy n f guess f' guess' ws',
  fp_dims f <> [] -> length (fp_dims f) = 2%nat -> solver_ok f -> fp_coords f = [cx; cy] ->
  foldM (ni_node g dc c0 c1) (zseq n) (f, guess, []) = Ret (f', guess', ws') ->
  twin f f' /\ keys_ok 0 (Z.of_nat n) ws' /\
  forall k iw, In (k, iw) ws' -> located [cx; cy] (fp_tolpos f) dc k iw.
Proof.
  intros g dc c0 c1 cx cy. induction n as [|n IH]; intros f guess f' guess' ws' D LD W HC H.
  - change (zseq 0) with (@nil Z) in H. injection H as <- <- <-. split; [apply twin_refl; auto|]. split.
    + split; [intros j w []|constructor]. + intros k iw [].
  - rewrite zseq_S, foldM_app in H. apply bind_ret_inv in H. destruct H as ([[f1 g1] w1] & H1 & H).
    destruct (IH _ _ _ _ _ D LD W HC H1) as (A & B & C). cbn [foldM] in H.
    apply bind_ret_inv in H. destruct H as ([[f2 g2] w2] & H2 & H). injection H as <- <- <-.
    assert (EDm : fp_dims f = fp_dims f1) by apply A.
    assert (EC : fp_coords f1 = [cx; cy]) by (destruct A as (_ & G & _); destruct G as (G & _); congruence).
    assert (ET : fp_tolpos f = fp_tolpos f1) by apply A.
    destruct (node_result g dc c0 c1 f1 g1 w1 (Z.of_nat n) f2 g2 w2 cx cy) as (P & Q); auto; try congruence.
    { apply A. }
    split; [eapply twin_trans; eauto|].
    replace (Z.of_nat (S n)) with (Z.of_nat n + 1) by lia.
    destruct Q as [->|(iw & -> & HL)].
    + split; auto. eapply keys_mono; eauto. lia.
    + split; [apply insert_keys; auto; lia|]. intros k iw' Hin. apply insert_in in Hin.
      destruct Hin as [[-> ->]|Hin]; [rewrite ET; auto|auto].
Qed.

(** ** apply *)
Lemma vset_vset : forall {A} (l : list A) i a b, bind (vset l i a) (fun l => vset l i b) = vset l i b.
Proof.
  intros A l i a b. unfold vset at 1 3. destruct ((0 <=? i) && (i <? Z.of_nat (length l))) eqn:E; auto.
  cbn [bind]. unfold vset. rewrite upd_length, E. f_equal. generalize (Z.to_nat i). clear. 
  induction l; destruct n; simpl; auto. f_equal. auto.
Qed.

Lemma vset_vget : forall {A} (l : list A) i a, 0 <= i < Z.of_nat (length l) ->
  exists l', vset l i a = Ret l' /\ vget l' i = Ret a /\ length l' = length l /\
    (forall j, j <> i -> vget l' j = vget l j) /\ (forall b, vset l' i b = vset l i b).
Proof.
  intros A l i a H. rewrite vset_ok by auto. eexists. split; [reflexivity|]. rewrite upd_length.
  assert (V := vset_vset l i a). rewrite vset_ok in V by auto. cbn [bind] in V.
  split; [|split; [auto|split; [|auto]]].
  - rewrite (vget_nth _ i a) by (rewrite upd_length; auto). rewrite upd_nth_same by lia. reflexivity.
  - intros j Hj. unfold vget. destruct (j <? 0) eqn:L; auto. apply Z.ltb_ge in L.
    replace (nth_error (upd l (Z.to_nat i) a) (Z.to_nat j)) with (nth_error l (Z.to_nat j)); auto.
    assert (Hn : Z.to_nat i <> Z.to_nat j) by lia. revert Hn. generalize (Z.to_nat i), (Z.to_nat j). clear.
    induction l as [|a' l IH]; intros [|n] [|m]; simpl; intros; auto; try lia.
Qed.

Lemma apply_inner : forall (src : list T) k iw dst a, 0 <= k < Z.of_nat (length dst) -> vget dst k = Ret a ->
  foldM (fun dst (iw : Z * T) => let! x := vget src (fst iw) in let! old := vget dst k in
           vset dst k (nadd old (nmul (snd iw) x))) iw dst =
  bind (foldM (fun acc (kw : Z * T) => let! y := vget src (fst kw) in Ret (nadd acc (nmul (snd kw) y))) iw a)
    (fun r => vset dst k r).
Proof.
  intros src k. induction iw as [|[i w] iw IH]; intros dst a Hk Ha; cbn [foldM bind fst snd].
  - rewrite vset_ok by auto. f_equal. apply vget_inv in Ha. destruct Ha as [_ Ha].
    revert Ha. generalize (Z.to_nat k). clear. induction dst; destruct n; simpl; intros; try congruence.
    f_equal. auto.
  - destruct (vget src i) as [x|u]; cbn [bind]; auto. rewrite Ha. cbn [bind].
    destruct (vset_vget dst k (nadd a (nmul w x)) Hk) as (d' & -> & G & L & _ & V). cbn [bind].
    rewrite (IH d' (nadd a (nmul w x))) by (auto; lia). 
    destruct (foldM _ iw _); cbn [bind]; auto.
Qed.

Theorem apply_spec : forall (s : ni (T:=T)) src dst,
  NoDup (map fst (ni_weights s)) ->
  (forall k iw, In (k, iw) (ni_weights s) -> 0 <= k < Z.of_nat (length dst) /\ is_ret (weighted iw src)) ->
  exists out, ni_apply s src dst = Ret out /\ length out = length dst /\
    (forall k iw, In (k, iw) (ni_weights s) -> vget out k = weighted iw src) /\
    (forall k, (forall iw, ~ In (k, iw) (ni_weights s)) -> vget out k = vget dst k).
Proof.
  intros s src. unfold ni_apply. induction (ni_weights s) as [|[k iw] ws IH]; intros dst ND H; cbn [foldM map fst snd] in *.
  - exists dst. repeat split; auto. intros k iw [].
  - apply NoDup_cons_iff in ND. destruct ND as [N1 N2].
    destruct (H k iw ltac:(simpl; auto)) as [Hk [r Hr]].
    destruct (vset_vget dst k n0 Hk) as (d0 & E0 & G0 & L0 & O0 & V0). rewrite E0. cbn [bind].
    rewrite (apply_inner src k iw d0 n0) by (auto; lia). unfold weighted in Hr at 1. rewrite Hr. cbn [bind].
    rewrite V0. destruct (vset_vget dst k r Hk) as (d1 & E1 & G1 & L1 & O1 & _). rewrite E1. cbn [bind].
    destruct (IH d1 N2) as (out & E & L & P & Q).
    { intros k' iw' Hin. rewrite L1. apply H. simpl. auto. }
    exists out. split; auto. split; [lia|]. split.
    + intros k' iw' [Hin|Hin].
      * injection Hin as <- <-. rewrite Q, G1; auto. intros iw2 Hin. apply N1. apply in_map_iff.
        exists (k, iw2). auto.
      * apply P. auto.
    + intros k' Hn. rewrite Q.
      * apply O1. intros ->. apply (Hn iw). simpl. auto.
      * intros iw' Hin. apply (Hn iw'). simpl. auto.
Qed.

(** Summation is defined for every field with as many nodes. *)
Lemma weighted_ret : forall iw (f1 f2 : list T), length f1 = length f2 -> is_ret (weighted iw f1) -> is_ret (weighted iw f2).
Proof.
  intros iw f1 f2 L. unfold weighted. revert f1 f2 L.
  assert (G : forall f1 f2 : list T, length f1 = length f2 -> forall a b,
    is_ret (foldM (fun acc (kw : Z * T) => let! y := vget f1 (fst kw) in Ret (nadd acc (nmul (snd kw) y))) iw a) ->
    is_ret (foldM (fun acc (kw : Z * T) => let! y := vget f2 (fst kw) in Ret (nadd acc (nmul (snd kw) y))) iw b)).
  { intros f1 f2 L. induction iw as [|[k w] iw IH]; intros a b H; cbn [foldM] in *; [eexists; reflexivity|].
    destruct (vget f1 k) as [x|u] eqn:E; cbn [bind fst snd] in H; rewrite E in H; cbn [bind] in H;
      [|destruct H; discriminate].
    apply vget_inv in E. destruct E as [E _]. cbn [fst snd].
    rewrite (vget_nth f2 k x) by lia. cbn [bind]. eapply IH. exact H. }
  intros f1 f2 L H. exact (G f1 f2 L _ _ H).
Qed.

(** ** Histories of calls *)
Inductive ni_op :=
  | NSetDst (d0 d1 : Z) (c0 c1 : list T)
  | NSetSrc (d0 d1 p0 p1 : Z) (c0 c1 : list T)
  | NCompute.
Definition keeps_src (o : ni_op) : Prop := match o with NSetSrc _ _ _ _ _ _ => False | _ => True end.

Definition ni_step (g : gels T) (s : ni (T:=T)) (o : ni_op) : exec (ni (T:=T)) :=
  match o with
  | NSetDst d0 d1 c0 c1 => ni_setDstGrid s d0 d1 c0 c1
  | NSetSrc d0 d1 p0 p1 c0 c1 => ni_setSrcGrid s d0 d1 p0 p1 c0 c1
  | NCompute => ni_computeWeights g s
  end.
Definition ni_run (g : gels T) (ops : list ni_op) (s : ni (T:=T)) : exec (ni (T:=T)) := foldM (ni_step g) ops s.

Lemma node_twin : forall g dc c0 c1 f guess ws k f' guess' ws',
  fp_dims f <> [] -> solver_ok f ->
  ni_node g dc c0 c1 (f, guess, ws) k = Ret (f', guess', ws') -> twin f f'.
Proof.
  intros g dc c0 c1 f guess ws k f' guess' ws' D W H. unfold ni_node in H.
  apply bind_ret_inv in H. destruct H as (x & Hx & H). apply bind_ret_inv in H. destruct H as (y & Hy & H).
  apply bind_ret_inv in H. destruct H as ([i1 f1] & HF & H). cbn [fst snd] in H.
  destruct (find_result _ _ _ _ _ _ D W HF) as (A & _ & _).
  assert (D1 : fp_dims f1 <> []) by (assert (E : fp_dims f = fp_dims f1) by apply A; congruence).
  destruct (i1 =? 0).
  - apply bind_ret_inv in H. destruct H as (iw & HW & H). injection H as <- <- <-. auto.
  - destruct (i1 =? -3); [injection H as <- <- <-; auto|].
    apply bind_ret_inv in H. destruct H as (sit & _ & H).
    apply bind_ret_inv in H. destruct H as ([[i2 f2] g2] & HR & H).
    apply retry_result in HR; auto; [|apply A].
    assert (TT : twin f f2) by (eapply twin_trans; eauto).
    destruct (i2 =? 0).
    + injection H as <- <- <-. auto.
    + apply bind_ret_inv in H. destruct H as (e & _ & H). injection H as <- <- <-. auto.
Qed.

Lemma compute_keeps : forall g s s', fp_dims (ni_finder s) <> [] -> solver_ok (ni_finder s) ->
  ni_computeWeights g s = Ret s' ->
  twin (ni_finder s) (ni_finder s') /\ ni_src s' = ni_src s /\ ni_dst s' = ni_dst s.
Proof.
  intros g s s' D W H. unfold ni_computeWeights in H.
  destruct (ni_src s) as [[d0 d1]|] eqn:ES; [|discriminate]. destruct (ni_dst s) as [[n dc]|] eqn:ED; [|discriminate].
  apply bind_ret_inv in H. destruct H as (c0 & _ & H). apply bind_ret_inv in H. destruct H as (c1 & _ & H).
  apply bind_ret_inv in H. destruct H as ([[f' g'] w'] & HF & H). injection H as <-. cbn. split; [|auto].
  apply (foldM_inv (fun st => twin (ni_finder s) (fst (fst st)))) in HF; auto.
  - cbn [fst]. apply twin_refl; auto.
  - intros [[f1 g1] w1] k [[f2 g2] w2] P _ HN. cbn [fst] in *. apply node_twin in HN; [eapply twin_trans; eauto| |apply P].
    assert (E : fp_dims (ni_finder s) = fp_dims f1) by apply P. congruence.
Qed.

Lemma run_keeps : forall g ops s s', Forall keeps_src ops -> fp_dims (ni_finder s) <> [] -> solver_ok (ni_finder s) ->
  ni_run g ops s = Ret s' -> twin (ni_finder s) (ni_finder s') /\ ni_src s' = ni_src s.
Proof.
  intros g ops s s' K D W H. rewrite Forall_forall in K. unfold ni_run in H.
  apply (foldM_inv (fun x => twin (ni_finder s) (ni_finder x) /\ ni_src x = ni_src s)) in H; auto.
  - split; auto. apply twin_refl; auto.
  - intros s1 o s2 [P1 P2] Hin HS. apply K in Hin.
    destruct o as [d0 d1 c0 c1|d0 d1 p0 p1 c0 c1|]; cbn [ni_step] in HS; [|contradiction|].
    + unfold ni_setDstGrid in HS. apply bind_ret_inv in HS. destruct HS as (? & _ & HS).
      apply bind_ret_inv in HS. destruct HS as (? & _ & HS). apply bind_ret_inv in HS. destruct HS as (? & _ & HS).
      injection HS as <-. auto.
    + apply compute_keeps in HS; [|assert (E : fp_dims (ni_finder s) = fp_dims (ni_finder s1)) by apply P1; congruence|apply P1].
      destruct HS as (A & B & _). split; [eapply twin_trans; eauto|congruence].
Qed.

Lemma setSrc_result : forall (s s1 : ni (T:=T)) d0 d1 p0 p1 c0 c1, grid_data [d0; d1] [c0; c1] ->
  ni_setSrcGrid s d0 d1 p0 p1 c0 c1 = Ret s1 ->
  fp_setGrid (ni_finder s) [d0; d1] [p0; p1] [c0; c1] = Ret (ni_finder s1) /\
  fp_holds [d0; d1] (ni_finder s1) /\ fp_coords (ni_finder s1) = [c0; c1] /\ solver_ok (ni_finder s1) /\
  length (fp_period (ni_finder s1)) = 2%nat /\
  fp_nitermax (ni_finder s1) = fp_nitermax (ni_finder s) /\ fp_tolpos (ni_finder s1) = fp_tolpos (ni_finder s) /\
  ni_src s1 = Some (d0, d1) /\ ni_dst s1 = ni_dst s.
Proof.
  intros s s1 d0 d1 p0 p1 c0 c1 HD H. unfold ni_setSrcGrid in H.
  destruct (setGrid_ok (ni_finder s) [d0; d1] [p0; p1] [c0; c1] HD) as (f & E & A1 & A2 & A3 & A4 & _ & _ & _ & _ & A5 & A6 & _).
  rewrite E in H. cbn [bind] in H.
  apply bind_ret_inv in H. destruct H as (? & _ & H). apply bind_ret_inv in H. destruct H as (? & _ & H).
  apply bind_ret_inv in H. destruct H as (? & _ & H). injection H as <-. cbn. repeat split; auto; apply A1.
Qed.

(** ** C17 *)
Theorem weights_locate : forall g (s s1 s2 s3 : ni (T:=T)) d0 d1 p0 p1 c0 c1 h n dc,
  grid_data [d0; d1] [c0; c1] -> ni_setSrcGrid s d0 d1 p0 p1 c0 c1 = Ret s1 ->
  Forall keeps_src h -> ni_run g h s1 = Ret s2 -> ni_dst s2 = Some (n, dc) -> ni_computeWeights g s2 = Ret s3 ->
  keys_ok 0 n (ni_weights s3) /\
  forall k iw, In (k, iw) (ni_weights s3) -> located [c0; c1] (fp_tolpos (ni_finder s)) dc k iw.
Proof.
  intros g s s1 s2 s3 d0 d1 p0 p1 c0 c1 h n dc HD HS HK HR EDst HC.
  destruct (setSrc_result _ _ _ _ _ _ _ _ HD HS) as (_ & Hh & Hc & W & _ & _ & Ht & ES & _).
  assert (Hd : fp_dims (ni_finder s1) = [d0; d1]) by apply Hh.
  destruct (run_keeps g h s1 s2) as (TW & E2); auto; [rewrite Hd; discriminate|].
  unfold ni_computeWeights in HC. rewrite E2, ES, EDst in HC.
  apply bind_ret_inv in HC. destruct HC as (e0 & _ & HC). apply bind_ret_inv in HC. destruct HC as (e1 & _ & HC).
  apply bind_ret_inv in HC. destruct HC as ([[f' g'] w'] & HF & HC). injection HC as <-. cbn [ni_weights].
  assert (Hd2 : fp_dims (ni_finder s2) = [d0; d1]) by (rewrite <- Hd; symmetry; apply TW).
  assert (Ht2 : fp_tolpos (ni_finder s2) = fp_tolpos (ni_finder s)) by (rewrite <- Ht; symmetry; apply TW).
  assert (Hc2 : fp_coords (ni_finder s2) = [c0; c1]) by (rewrite <- Hc; symmetry; apply TW).
  unfold range in HF. apply nodes_result with (cx := c0) (cy := c1) in HF; auto.
  - destruct HF as (_ & B & C). rewrite Ht2 in C. split; auto. destruct (Z_le_gt_dec 0 n).
    + rewrite Z2Nat.id in B by lia. auto.
    + destruct n; try lia. destruct B as [B1 B2]. split; auto. intros j w Hin. apply B1 in Hin. simpl in Hin. lia.
  - rewrite Hd2. discriminate.
  - rewrite Hd2. reflexivity.
  - apply TW.
Qed.

(** ** Setting grids is defined *)
Lemma copy_total : forall n (c0 c1 : list T), n <= Z.of_nat (length c0) -> n <= Z.of_nat (length c1) ->
  is_ret (ni_copy n c0 c1).
Proof.
  intros n c0 c1 H0 H1. unfold ni_copy.
  assert (A : is_ret (mapM (fun i => let! x := vget c0 i in let! y := vget c1 i in Ret [x; y]) (range n))).
  { assert (B : forall l, (forall i, In i l -> 0 <= i < n) ->
      is_ret (mapM (fun i => let! x := vget c0 i in let! y := vget c1 i in Ret [x; y]) l)).
    { induction l as [|i l IH]; intros H; cbn [mapM]; [eexists; reflexivity|].
      assert (Hi := H i ltac:(simpl; auto)).
      destruct (vget c0 i) as [x|] eqn:E0; [|rewrite (vget_nth c0 i n0) in E0 by lia; discriminate].
      destruct (vget c1 i) as [y|] eqn:E1; [|rewrite (vget_nth c1 i n0) in E1 by lia; discriminate].
      cbn [bind]. destruct (IH ltac:(intros; apply H; simpl; auto)) as [r ->]. eexists. reflexivity. }
    apply B. intros i. apply in_range. }
  destruct A as [l ->]. eexists. reflexivity.
Qed.

Lemma setSrc_total : forall (s : ni (T:=T)) d0 d1 p0 p1 c0 c1, grid_data [d0; d1] [c0; c1] ->
  is_ret (ni_setSrcGrid s d0 d1 p0 p1 c0 c1).
Proof.
  intros s d0 d1 p0 p1 c0 c1 HD. unfold ni_setSrcGrid.
  destruct (setGrid_ok (ni_finder s) [d0; d1] [p0; p1] [c0; c1] HD) as (f & -> & _). cbn [bind].
  destruct HD as (_ & Hok & _ & HF). inversion HF as [|? ? L0 HF']; subst. inversion HF' as [|? ? L1 _]; subst.
  assert (G := grid_ok_cons _ _ Hok). destruct G as (B0 & Hok1 & B1 & B2). apply grid_ok_cons in Hok1.
  destruct Hok1 as (B3 & _ & _ & _). cbn [grid_size] in *.
  assert (I : int_max = 2 ^ 31 - 1) by reflexivity. assert (J : int_min = - 2 ^ 31) by reflexivity.
  rewrite !chk_ok by lia. cbn [bind]. rewrite Z.mul_1_l.
  rewrite !(wrap64_small d0), (wrap64_small d1) by lia. rewrite wrap64_small by nia.
  destruct (copy_total (d0 * d1) c0 c1) as [l ->]; try lia. eexists. reflexivity.
Qed.

Lemma setDst_total : forall (s : ni (T:=T)) d0 d1 c0 c1, 0 <= d0 <= 2 ^ 31 - 1 -> 0 <= d1 <= 2 ^ 31 - 1 ->
  Z.of_nat (length c0) = d0 * d1 -> Z.of_nat (length c1) = d0 * d1 ->
  exists s' dc, ni_setDstGrid s d0 d1 c0 c1 = Ret s' /\ ni_dst s' = Some (d0 * d1, dc) /\
    ni_finder s' = ni_finder s /\ ni_src s' = ni_src s /\
    forall k, 0 <= k < d0 * d1 -> vget dc (k * 2) = vget c0 k /\ vget dc (k * 2 + 1) = vget c1 k.
Proof.
  intros s d0 d1 c0 c1 H0 H1 L0 L1. unfold ni_setDstGrid.
  assert (I : int_max = 2 ^ 31 - 1) by reflexivity. assert (J : int_min = - 2 ^ 31) by reflexivity.
  rewrite !chk_ok by lia. cbn [bind]. rewrite Z.mul_1_l.
  rewrite !(wrap64_small d0), (wrap64_small d1) by lia. rewrite wrap64_small by nia.
  destruct (copy_total (d0 * d1) c0 c1) as [cs E]; try lia. rewrite E. cbn [bind].
  eexists. exists cs. split; [reflexivity|]. cbn [ni_dst ni_finder ni_src]. repeat split; auto.
  - unfold ni_copy in E. apply bind_ret_inv in E. destruct E as (l & HM & E). injection E as <-.
    unfold range in HM. rewrite <- L0, Nat2Z.id in HM.
    assert (forall i, (i < length c0)%nat -> nth_error (concat l) (i * 2) = nth_error c0 i) as A; [|].
    { assert (F := mapM_inv _ _ _ HM). clear - F. 
      assert (G : forall n off l, Forall2 (fun x y => bind (vget c0 x) (fun x0 => bind (vget c1 x) (fun y0 => Ret [x0; y0])) = Ret y)
        (map Z.of_nat (seq off n)) l -> forall i, (i < n)%nat -> nth_error (concat l) (i * 2) = nth_error c0 (off + i)).
      { induction n as [|n IH]; intros off l' F' i Hi; [lia|]. cbn [seq map] in F'. inversion F' as [|? v ? vs E F2]; subst.
        apply bind_ret_inv in E. destruct E as (x & Ex & E). apply bind_ret_inv in E. destruct E as (y & Ey & E). injection E as <-.
        destruct i as [|i]; cbn [Nat.mul Nat.add concat app nth_error].
        - apply vget_inv in Ex. rewrite Nat2Z.id in Ex. rewrite Nat.add_0_r. symmetry. apply Ex.
        - rewrite (IH (S off) vs F2 i) by lia. f_equal. lia. }
      intros i Hi. unfold zseq in F. apply (G _ _ _ F i Hi). }
    unfold vget. replace (k * 2 <? 0) with false by (symmetry; apply Z.ltb_ge; lia).
    replace (k <? 0) with false by (symmetry; apply Z.ltb_ge; lia).
    replace (Z.to_nat (k * 2)) with (Z.to_nat k * 2)%nat by lia. rewrite A by lia. reflexivity.
  - unfold ni_copy in E. apply bind_ret_inv in E. destruct E as (l & HM & E). injection E as <-.
    unfold range in HM. rewrite <- L0, Nat2Z.id in HM.
    assert (forall i, (i < length c0)%nat -> nth_error (concat l) (i * 2 + 1) = nth_error c1 i) as A; [|].
    { assert (F := mapM_inv _ _ _ HM). clear - F. 
      assert (G : forall n off l, Forall2 (fun x y => bind (vget c0 x) (fun x0 => bind (vget c1 x) (fun y0 => Ret [x0; y0])) = Ret y)
        (map Z.of_nat (seq off n)) l -> forall i, (i < n)%nat -> nth_error (concat l) (i * 2 + 1) = nth_error c1 (off + i)).
      { induction n as [|n IH]; intros off l' F' i Hi; [lia|]. cbn [seq map] in F'. inversion F' as [|? v ? vs E F2]; subst.
        apply bind_ret_inv in E. destruct E as (x & Ex & E). apply bind_ret_inv in E. destruct E as (y & Ey & E). injection E as <-.
        destruct i as [|i]; cbn [Nat.mul Nat.add concat app nth_error].
        - apply vget_inv in Ey. rewrite Nat2Z.id in Ey. rewrite Nat.add_0_r. symmetry. apply Ey.
        - rewrite (IH (S off) vs F2 i) by lia. f_equal. lia. }
      intros i Hi. unfold zseq in F. apply (G _ _ _ F i Hi). }
    unfold vget. replace (k * 2 + 1 <? 0) with false by (symmetry; apply Z.ltb_ge; lia).
    replace (k <? 0) with false by (symmetry; apply Z.ltb_ge; lia).
    replace (Z.to_nat (k * 2 + 1)) with (Z.to_nat k * 2 + 1)%nat by lia. rewrite A by lia. reflexivity.
Qed.

(** ** C20, what holds: nodes found by the first search *)
Definition start_guess (d0 d1 : Z) : list T :=
  [ndiv (nofZ (d0 - 1)) (lit 214423 100000); ndiv (nofZ (d1 - 1)) (lit 193265 100000)].

Theorem first_search : forall g (s s' : ni (T:=T)) d0 d1 n dc,
  fp_dims (ni_finder s) <> [] -> solver_ok (ni_finder s) ->
  ni_src s = Some (d0, d1) -> ni_dst s = Some (n, dc) -> ni_computeWeights g s = Ret s' ->
  (forall k x y, 0 <= k < n -> vget dc (k * 2) = Ret x -> vget dc (k * 2 + 1) = Ret y ->
     exists code f, ni_findTarget g (ni_finder s) (start_guess d0 d1) [x; y] = Ret (code, f) /\
       (code = 0 \/ code = -3)) ->
  forall k x y, 0 <= k < n -> vget dc (k * 2) = Ret x -> vget dc (k * 2 + 1) = Ret y ->
    ((exists iw, In (k, iw) (ni_weights s')) <->
     exists f, ni_findTarget g (ni_finder s) (start_guess d0 d1) [x; y] = Ret (0, f)).
Proof.
  intros g s s' d0 d1 n dc D W ES ED H HC. unfold ni_computeWeights in H. rewrite ES, ED in H.
  apply bind_ret_inv in H. destruct H as (e0 & C0 & H). apply bind_ret_inv in H. destruct H as (e1 & C1 & H).
  apply chk_inv in C0. apply chk_inv in C1. destruct C0 as [-> _]. destruct C1 as [-> _].
  apply bind_ret_inv in H. destruct H as ([[f' g'] w'] & HF & H). injection H as <-. cbn [ni_weights].
  fold (start_guess d0 d1) in HF.
  assert (A : forall m f1 g1 w1, (Z.of_nat m <= n) ->
    foldM (ni_node g dc (d0 - 1) (d1 - 1)) (zseq m) (ni_finder s, start_guess d0 d1, []) = Ret (f1, g1, w1) ->
    twin (ni_finder s) f1 /\ g1 = start_guess d0 d1 /\ keys_ok 0 (Z.of_nat m) w1 /\
    forall k x y, 0 <= k < Z.of_nat m -> vget dc (k * 2) = Ret x -> vget dc (k * 2 + 1) = Ret y ->
    ((exists iw, In (k, iw) w1) <->
     exists f, ni_findTarget g (ni_finder s) (start_guess d0 d1) [x; y] = Ret (0, f))).
  { induction m as [|m IH]; intros f1 g1 w1 Hm HM.
    - change (zseq 0) with (@nil Z) in HM. injection HM as <- <- <-. split; [apply twin_refl; auto|].
      split; auto. split; [split; [intros j w []|constructor]|]. intros; lia.
    - rewrite zseq_S, foldM_app in HM. apply bind_ret_inv in HM. destruct HM as ([[f2 g2] w2] & H1 & HM).
      destruct (IH _ _ _ ltac:(lia) H1) as (T1 & -> & K1 & E1). cbn [foldM] in HM.
      apply bind_ret_inv in HM. destruct HM as ([[f3 g3] w3] & H2 & HM). injection HM as <- <- <-.
      assert (T2 : twin f2 f3).
      { apply node_twin in H2; auto; [|apply T1]. assert (E : fp_dims (ni_finder s) = fp_dims f2) by apply T1. congruence. }
      split; [eapply twin_trans; eauto|].
      unfold ni_node in H2. apply bind_ret_inv in H2. destruct H2 as (x & Ex & H2).
      apply bind_ret_inv in H2. destruct H2 as (y & Ey & H2).
      destruct (HC (Z.of_nat m) x y ltac:(lia) Ex Ey) as (code & fc & EF & EC).
      destruct (twin_find g (ni_finder s) f2 (start_guess d0 d1) [x; y] T1) as [(u & E & _)|(a & b & Ea & Eb & P1 & P2)];
        [congruence|]. rewrite EF in Ea. injection Ea as <-. cbn [fst snd] in P1, P2.
      rewrite Eb in H2. cbn [bind] in H2. rewrite <- P1 in H2.
      replace (Z.of_nat (S m)) with (Z.of_nat m + 1) by lia.
      assert (OLD : forall iw, ~ In (Z.of_nat m, iw) w2).
      { intros iw Hin. apply K1 in Hin. lia. }
      destruct EC as [-> | ->]; cbn [Z.eqb] in H2.
      + apply bind_ret_inv in H2. destruct H2 as (iw & HW & H2). injection H2 as <- <- <-.
        split; auto. split; [apply insert_keys; auto; lia|].
        intros k x' y' Hk Ex' Ey'. destruct (Z.eq_dec k (Z.of_nat m)) as [->|Hne].
        * rewrite Ex in Ex'. rewrite Ey in Ey'. injection Ex' as <-. injection Ey' as <-. split; [eauto|].
          intros _. exists iw. clear - OLD. induction w2 as [|[k' v'] m' IHm]; cbn [map_insert]; [simpl; auto|].
          destruct (Z.of_nat m <? k'); [simpl; auto|]. destruct (Z.eqb_spec (Z.of_nat m) k').
          -- subst. exfalso. apply (OLD v'). simpl. auto.
          -- simpl. right. apply IHm. intros iw' C. apply (OLD iw'). simpl. auto.
        * rewrite <- (E1 k x' y') by (auto; lia). split.
          -- intros (iw' & Hin). apply insert_in in Hin. destruct Hin as [[C _]|Hin]; [contradiction|eauto].
          -- intros (iw' & Hin). exists iw'. clear - Hin Hne. induction w2 as [|[k' v'] m' IHm]; [destruct Hin|].
             cbn [map_insert]. destruct (Z.of_nat m <? k'); [simpl in *; auto|].
             destruct (Z.of_nat m =? k'); auto. destruct Hin as [Hin|Hin]; simpl; auto.
      + change (-3 =? 0) with false in H2. change (-3 =? -3) with true in H2. cbv iota in H2. injection H2 as <- <- <-.
        split; auto. split; [eapply keys_mono; eauto; lia|].
        intros k x' y' Hk Ex' Ey'. destruct (Z.eq_dec k (Z.of_nat m)) as [->|Hne].
        * rewrite Ex in Ex'. rewrite Ey in Ey'. injection Ex' as <-. injection Ey' as <-. split.
          -- intros (iw & Hin). exfalso. eapply OLD; eauto.
          -- intros (f & E). rewrite EF in E. discriminate.
        * apply E1; auto. lia. }
  intros k x y Hk Ex Ey. unfold range in HF.
  destruct (A (Z.to_nat n) _ _ _ ltac:(lia) HF) as (_ & _ & _ & B). apply B; auto. lia.
Qed.

End Generic.
