(** C66: no program that uses only live objects makes the library free a block twice.
    C67: memory given back when the objects are deleted. *)
From Coq Require Import ZArith List Bool Arith Lia Permutation.
From Verif Require Import M_Heap S_Heap.
Import ListNotations.

Definition wf (h : heap) : Prop := NoDup (hp_live h) /\ forall b, In b (hp_live h) -> b < hp_next h.
(** The blocks allocated in h are those of l. *)
Definition holds (h : heap) (l : list nat) : Prop := wf h /\ Permutation (hp_live h) l.

Lemma holds_perm : forall h l l', holds h l -> Permutation l l' -> holds h l'.
Proof. intros h l l' [W P] Q. split; [exact W|]. now rewrite P. Qed.

Lemma h_new_ok : forall h l b h', h_new h = (b, h') -> holds h l -> holds h' (b :: l).
Proof.
  intros h l b h' E [[N B] P]. injection E as <- <-. split; [split|]; cbn.
  - constructor; [|exact N]. intros I. apply B in I. lia.
  - intros x [<-|I]; [lia|]. apply B in I. lia.
  - now rewrite P.
Qed.

Lemma filter_out : forall b l, ~ In b l -> filter (fun x => negb (Nat.eqb b x)) l = l.
Proof.
  induction l as [|x l IH]; cbn; intros H; [reflexivity|].
  destruct (Nat.eqb_spec b x) as [->|_]; [tauto|]. cbn. rewrite IH; tauto.
Qed.

Lemma filter_perm : forall (f : nat -> bool) l l', Permutation l l' -> Permutation (filter f l) (filter f l').
Proof.
  intros f l l' H. induction H; cbn.
  - constructor.
  - destruct (f x); [now constructor|assumption].
  - destruct (f x), (f y); try constructor; apply Permutation_refl.
  - now transitivity (filter f l').
Qed.

Lemma h_free_ok : forall h b l, holds h (b :: l) -> exists h', h_free b h = Some h' /\ holds h' l.
Proof.
  intros h b l [[N B] P]. unfold h_free.
  assert (I : In b (hp_live h)) by (rewrite P; now left).
  replace (existsb (Nat.eqb b) (hp_live h)) with true.
  2:{ symmetry. apply existsb_exists. exists b. split; [exact I|]. apply Nat.eqb_refl. }
  eexists. split; [reflexivity|]. split; [split|]; cbn.
  - now apply NoDup_filter.
  - intros x X. apply filter_In in X. apply B. tauto.
  - rewrite (filter_perm _ _ _ P). cbn. rewrite Nat.eqb_refl. cbn.
    rewrite filter_out; [reflexivity|]. pose proof (Permutation_NoDup P N) as N'. now inversion N'.
Qed.

Definition opt (p : option nat) : list nat := match p with None => [] | Some b => [b] end.

Lemma h_delete_ok : forall h p l, holds h (opt p ++ l) -> exists h', h_delete p h = Some h' /\ holds h' l.
Proof. intros h [b|] l H; cbn in *; [now apply h_free_ok|]. now exists h. Qed.

Definition fown (f : finder) : list nat := f_self f :: opt (f_slvr f).
(** The blocks that an object points to. *)
Definition owned (o : object) : list nat :=
  match o with
  | Plain b | Conserve b => [b]
  | Finder f => fown f
  | Holder b f => b :: fown f
  | Flows b x y f => b :: x :: y :: fown f
  | Intersect b s => [b; s]
  | Flow b n c e0 e1 => b :: opt n ++ opt c ++ opt e0 ++ opt e1
  end.

Lemma finder_del_ok : forall h f l, holds h (fown f ++ l) -> exists h', finder_del f h = Some h' /\ holds h' l.
Proof.
  intros h [b s] l H. unfold finder_del, fown in *. cbn in *.
  destruct (h_delete_ok h s (b :: l)) as (h1 & E1 & H1).
  { eapply holds_perm; [exact H|]. cbn. apply Permutation_middle. }
  rewrite E1. cbn. now apply h_free_ok.
Qed.

(** The object and the entry that describes it. *)
Definition kind (o : object) : class :=
  match o with Plain _ => KPlain | Finder _ => KFinder | Holder _ _ => KHolder | Flows _ _ _ _ => KFlows
  | Intersect _ _ => KIntersect | Conserve _ => KConserve | Flow _ _ _ _ _ => KFlow end.
Definition some (p : option nat) : bool := match p with Some _ => true | None => false end.
Definition gridded (o : object) (g : nat) : Prop :=
  let ok p := some p = negb (Nat.eqb g 0) in
  match o with
  | Finder f | Holder _ f | Flows _ _ _ f => ok (f_slvr f)
  | Flow _ n c e0 e1 => ok n /\ ok c /\ ok e0 /\ ok e1
  | _ => True
  end.
Definition describes (oo : option object) (e : entry) : Prop :=
  match oo with
  | None => e_alive e = false
  | Some o => e_alive e = true /\ e_class e = kind o /\ gridded o (e_grids e)
  end.

Definition own (oo : option object) : list nat := match oo with None => [] | Some o => owned o end.

(** Blocks held by no object. *)
Definition stray (e : entry) : nat :=
  (if e_alive e then (e_grids e - 1) * per_grid (e_class e)
   else e_grids e * per_grid (e_class e) - Nat.min 1 (e_grids e) * back_grid (e_class e)) + e_comp e.

Lemma owned_length : forall o e, describes (Some o) e -> length (owned o) + stray e = held e.
Proof.
  intros o [k g c a] (A & K & G). cbn in *. subst a k. unfold stray, held. cbn [e_alive e_class e_grids e_comp].
  destruct o as [b|[b s]|b [b' s]|b x y [b' s]|b s|b|b n cc e0 e1]; cbn in *; try lia.
  - destruct s, g; cbn in *; try discriminate; lia.
  - destruct s, g; cbn in *; try discriminate; lia.
  - destruct s, g; cbn in *; try discriminate; lia.
  - destruct G as (G1 & G2 & G3 & G4).
    destruct n, cc, e0, e1, g; cbn in *; try discriminate; lia.
Qed.

Lemma make_ok : forall k h l o h', make k h = (o, h') -> holds h l ->
  holds h' (owned o ++ l) /\ describes (Some o) (mkEntry k 0 0 true).
Proof.
  intros k h l o h' E H. unfold make in E.
  destruct (h_new h) as [b h1] eqn:E1. pose proof (h_new_ok _ _ _ _ E1 H) as H1.
  destruct k; cbn -[h_new finder_new] in E.
  - injection E as <- <-. split; [exact H1|now repeat split].
  - injection E as <- <-. split; [exact H1|now repeat split].
  - unfold finder_new in E. destruct (h_new h1) as [b2 h2] eqn:E2. pose proof (h_new_ok _ _ _ _ E2 H1) as H2.
    injection E as <- <-. split; [|now repeat split].
    apply (holds_perm _ _ _ H2). cbn. apply perm_swap.
  - unfold finder_new in E.
    destruct (h_new h1) as [b2 h2] eqn:E2. pose proof (h_new_ok _ _ _ _ E2 H1) as H2.
    destruct (h_new h2) as [b3 h3] eqn:E3. pose proof (h_new_ok _ _ _ _ E3 H2) as H3.
    destruct (h_new h3) as [b4 h4] eqn:E4. pose proof (h_new_ok _ _ _ _ E4 H3) as H4.
    injection E as <- <-. split; [|now repeat split].
    apply (holds_perm _ _ _ H4). cbn [owned fown f_self f_slvr opt app].
    change (Permutation (([b4; b3; b2; b]) ++ l) ([b; b2; b3; b4] ++ l)). apply Permutation_app_tail.
    exact (Permutation_sym (Permutation_rev [b; b2; b3; b4])).
  - destruct (h_new h1) as [b2 h2] eqn:E2. pose proof (h_new_ok _ _ _ _ E2 H1) as H2.
    injection E as <- <-. split; [|now repeat split]. apply (holds_perm _ _ _ H2). cbn. apply perm_swap.
  - injection E as <- <-. split; [exact H1|now repeat split].
  - injection E as <- <-. split; [exact H1|now repeat split].
Qed.

Lemma finder_setGrid_ok : forall nd f h l f' h', finder_setGrid nd f h = (f', h') -> holds h (fown f ++ l) ->
  (0 <? nd = false)%Z /\ f' = f /\ h' = h \/
  (0 <? nd = true)%Z /\ some (f_slvr f') = true /\ holds h' (fown f' ++ opt (f_slvr f) ++ l).
Proof.
  intros nd f h l f' h' E H. unfold finder_setGrid in E.
  destruct (Z.leb_spec nd 0) as [L|L].
  - left. injection E as <- <-. split; [apply Z.ltb_ge; lia|now split].
  - right. destruct (h_new h) as [b h1] eqn:E1. injection E as <- <-.
    split; [apply Z.ltb_lt; lia|]. split; [reflexivity|].
    apply (holds_perm _ _ _ (h_new_ok _ _ _ _ E1 H)). destruct f as [b0 s]. unfold fown. cbn. apply perm_swap.
Qed.

Lemma some_pos : forall p g, some p = negb (Nat.eqb g 0) -> length (opt p) = Nat.min 1 g.
Proof. intros [b|] [|g]; cbn; intros H; try discriminate; reflexivity. Qed.

Lemma setGrid_ok : forall nd o h l k g c o' h', setGrid nd o h = (o', h') -> holds h (owned o ++ l) ->
  describes (Some o) (mkEntry k g c true) ->
  let e' := mkEntry k (if gives_grid k nd then S g else g) c true in
  describes (Some o') e' /\
  exists lost, holds h' (owned o' ++ lost ++ l) /\ length lost + stray (mkEntry k g c true) = stray e'.
Proof.
  intros nd o h l k g c o' h' E H (_ & K & G). cbn in K, G. subst k.
  assert (S0 : forall k, (S g - 1) * k = Nat.min 1 g * k + (g - 1) * k) by (intros k; destruct g; cbn; lia).
  destruct o as [b|f|b f|b x y f|b s|b|b n cc e0 e1]; cbn -[stray h_new finder_setGrid] in *.
  1, 5, 6: injection E as <- <-; split; [now repeat split|]; exists []; split; [exact H|reflexivity].
  - destruct (finder_setGrid nd f h) as [f' h1] eqn:E1. injection E as <- <-.
    destruct (finder_setGrid_ok _ _ _ _ _ _ E1 H) as [(Z0 & -> & ->)|(Z0 & SS & HH)]; rewrite Z0.
    + split; [now repeat split|]. exists []. now split.
    + split; [now repeat split|]. exists (opt (f_slvr f)). split; [exact HH|].
      rewrite (some_pos _ _ G). unfold stray; cbn. specialize (S0 1). lia.
  - destruct (finder_setGrid 2 f h) as [f' h1] eqn:E1. injection E as <- <-.
    assert (H0 : holds h (fown f ++ b :: l)) by (apply (holds_perm _ _ _ H); apply (Permutation_middle (fown f) l b)).
    destruct (finder_setGrid_ok _ _ _ _ _ _ E1 H0) as [(Z0 & _)|(Z0 & SS & HH)]; [discriminate|].
    split; [now repeat split|]. exists (opt (f_slvr f)). split.
    + apply (holds_perm _ _ _ HH).
      change (Permutation (fown f' ++ opt (f_slvr f) ++ b :: l) (b :: (fown f' ++ opt (f_slvr f) ++ l))).
      rewrite !app_assoc. symmetry. apply Permutation_middle.
    + rewrite (some_pos _ _ G). unfold stray; cbn. specialize (S0 1). lia.
  - destruct (finder_setGrid 2 f h) as [f' h1] eqn:E1. injection E as <- <-.
    assert (H0 : holds h (fown f ++ [b; x; y] ++ l)).
    { apply (holds_perm _ _ _ H). rewrite app_assoc.
      change (Permutation (([b; x; y] ++ fown f) ++ l) ((fown f ++ [b; x; y]) ++ l)). apply Permutation_app_tail. apply Permutation_app_comm. }
    destruct (finder_setGrid_ok _ _ _ _ _ _ E1 H0) as [(Z0 & _)|(Z0 & SS & HH)]; [discriminate|].
    split; [now repeat split|]. exists (opt (f_slvr f)). split.
    + apply (holds_perm _ _ _ HH).
      change (Permutation (fown f' ++ opt (f_slvr f) ++ [b; x; y] ++ l) ([b; x; y] ++ fown f' ++ opt (f_slvr f) ++ l)).
      rewrite (app_assoc (fown f')), (app_assoc (fown f') _ l). rewrite (app_assoc _ [b; x; y] l), (app_assoc [b; x; y]).
      apply Permutation_app_tail. apply Permutation_app_comm.
    + rewrite (some_pos _ _ G). unfold stray; cbn. specialize (S0 1). lia.
  - destruct (h_new h) as [b1 h1] eqn:E1. pose proof (h_new_ok _ _ _ _ E1 H) as H1.
    destruct (h_new h1) as [b2 h2] eqn:E2. pose proof (h_new_ok _ _ _ _ E2 H1) as H2.
    destruct (h_new h2) as [b3 h3] eqn:E3. pose proof (h_new_ok _ _ _ _ E3 H2) as H3.
    destruct (h_new h3) as [b4 h4] eqn:E4. pose proof (h_new_ok _ _ _ _ E4 H3) as H4.
    injection E as <- <-. split; [now repeat split|].
    exists (opt n ++ opt cc ++ opt e0 ++ opt e1). split.
    + apply (holds_perm _ _ _ H4). cbn [app opt].
      set (r := (opt n ++ opt cc ++ opt e0 ++ opt e1) ++ l).
      change (Permutation (([b4; b3; b2; b1; b]) ++ r) ([b; b1; b2; b3; b4] ++ r)). apply Permutation_app_tail.
      exact (Permutation_sym (Permutation_rev [b; b1; b2; b3; b4])).
    + destruct G as (G1 & G2 & G3 & G4). rewrite !app_length, (some_pos _ _ G1), (some_pos _ _ G2), (some_pos _ _ G3), (some_pos _ _ G4).
      unfold stray; cbn -[Nat.mul]. specialize (S0 4). lia.
Qed.

Lemma finder_setGrids_ok : forall n f h l f' h', finder_setGrids n f h = (f', h') -> holds h (fown f ++ l) ->
  exists lost, holds h' (fown f' ++ lost ++ l) /\
    length lost + length (opt (f_slvr f')) = n + length (opt (f_slvr f)) /\ (0 < n -> some (f_slvr f') = true) /\
    (n = 0 -> f_slvr f' = f_slvr f).
Proof.
  induction n as [|n IH]; intros f h l f' h' E H; cbn -[finder_setGrid] in E.
  - injection E as <- <-. exists []. split; [exact H|]. split; [reflexivity|]. split; [lia|reflexivity].
  - destruct (finder_setGrid 2 f h) as [f1 h1] eqn:E1.
    destruct (finder_setGrid_ok _ _ _ _ _ _ E1 H) as [(Z0 & _)|(Z0 & SS & HH)]; [discriminate|].
    destruct (IH _ _ _ _ _ E HH) as (lost & HL & LL & P & Q).
    exists (lost ++ opt (f_slvr f)). split; [now rewrite <- app_assoc|]. rewrite app_length.
    assert (length (opt (f_slvr f1)) = 1) by (destruct (f_slvr f1); [reflexivity|discriminate]).
    split; [lia|]. split; [|lia]. intros _. destruct n; [now rewrite (Q eq_refl)|apply P; lia].
Qed.

Lemma compute_ok : forall n o h l, holds h l ->
  exists h' lost, compute n o h = Some h' /\ holds h' (lost ++ l) /\ length lost = comp_cost (kind o) n.
Proof.
  intros n o h l H. destruct o as [b|f|b f|b x y f|b s|b|b nn cc e0 e1]; cbn [compute kind comp_cost].
  1-5: exists h, []; split; [reflexivity|split; [exact H|reflexivity]].
  - destruct (h_new h) as [b1 h1] eqn:E1. pose proof (h_new_ok _ _ _ _ E1 H) as H1. cbn.
    exists h1, [b1]. split; [reflexivity|split; [exact H1|reflexivity]].
  - destruct (h_new h) as [b1 h1] eqn:E1. pose proof (h_new_ok _ _ _ _ E1 H) as H1.
    destruct (h_new h1) as [x h2] eqn:E2. pose proof (h_new_ok _ _ _ _ E2 H1) as H2.
    destruct (h_new h2) as [y h3] eqn:E3. pose proof (h_new_ok _ _ _ _ E3 H2) as H3.
    unfold finder_new. destruct (h_new h3) as [f0 h4] eqn:E4. pose proof (h_new_ok _ _ _ _ E4 H3) as H4.
    destruct (finder_setGrids n (mkFinder f0 None) h4) as [f h5] eqn:E5.
    destruct (finder_setGrids_ok _ _ _ _ _ _ E5 H4) as (lost & HL & LL & P & Q). cbn in LL, Q.
    destruct (h_free_ok h5 x (fown f ++ lost ++ y :: b1 :: l)) as (h6 & E6 & H6).
    { apply (holds_perm _ _ _ HL). rewrite !app_assoc.
      transitivity ((fown f ++ lost) ++ x :: y :: b1 :: l).
      - apply Permutation_app_head. apply perm_swap.
      - symmetry. apply Permutation_middle. }
    rewrite E6. cbn [then_].
    destruct (h_free_ok h6 y (fown f ++ lost ++ b1 :: l)) as (h7 & E7 & H7).
    { apply (holds_perm _ _ _ H6). rewrite !app_assoc. symmetry. apply Permutation_middle. }
    rewrite E7. cbn [then_].
    destruct (finder_del_ok h7 f (lost ++ b1 :: l) H7) as (h8 & E8 & H8).
    exists h8, (b1 :: lost). split; [exact E8|]. split.
    + apply (holds_perm _ _ _ H8). cbn. symmetry. apply Permutation_middle.
    + cbn. f_equal. destruct n as [|n].
      * rewrite (Q eq_refl) in LL. cbn in LL. cbn. lia.
      * specialize (P ltac:(lia)). destruct (f_slvr f); [cbn in *; lia|discriminate].
Qed.

Lemma del_ok : forall o h l e, holds h (owned o ++ l) -> describes (Some o) e ->
  let e' := mkEntry (e_class e) (e_grids e) (e_comp e) false in
  exists h' lost, del o h = Some h' /\ holds h' (lost ++ l) /\ length lost + stray e = stray e'.
Proof.
  intros o h l [k g c a] H (A & K & G). cbn in A, K, G. subst a k.
  unfold stray; cbn [e_class e_grids e_comp e_alive].
  assert (S0 : forall p k, some p = negb (Nat.eqb g 0) -> (g - 1) * k = g * k - Nat.min 1 g * k)
    by (intros p k _; destruct g; cbn; lia).
  destruct o as [b|f|b f|b x y f|b s|b|b n cc e0 e1]; cbn [del kind per_grid back_grid owned] in *.
  - destruct (h_free_ok _ _ _ H) as (h' & E & H'). exists h', []. split; [exact E|split; [exact H'|]]. cbn. lia.
  - destruct (finder_del_ok _ _ _ H) as (h' & E & H'). exists h', []. split; [exact E|split; [exact H'|]].
    cbn [length]. destruct g; cbn -[Nat.mul]; lia.
  - destruct (finder_del_ok h f (b :: l)) as (h1 & E1 & H1).
    { apply (holds_perm _ _ _ H). apply (Permutation_middle (fown f) l b). }
    rewrite E1. cbn [then_]. destruct (h_free_ok _ _ _ H1) as (h' & E & H').
    exists h', []. split; [exact E|split; [exact H'|]]. cbn [length]. destruct g; cbn -[Nat.mul]; lia.
  - destruct (h_free_ok h x (b :: y :: fown f ++ l)) as (h1 & E1 & H1).
    { apply (holds_perm _ _ _ H). cbn. apply perm_swap. }
    rewrite E1. cbn [then_].
    destruct (h_free_ok h1 y (b :: fown f ++ l)) as (h2 & E2 & H2).
    { apply (holds_perm _ _ _ H1). apply perm_swap. }
    rewrite E2. cbn [then_].
    destruct (finder_del_ok h2 f (b :: l)) as (h3 & E3 & H3).
    { apply (holds_perm _ _ _ H2). apply (Permutation_middle (fown f) l b). }
    rewrite E3. cbn [then_]. destruct (h_free_ok _ _ _ H3) as (h' & E & H').
    exists h', []. split; [exact E|split; [exact H'|]]. cbn [length]. destruct g; cbn -[Nat.mul]; lia.
  - destruct (h_free_ok h s (b :: l)) as (h1 & E1 & H1).
    { apply (holds_perm _ _ _ H). apply perm_swap. }
    rewrite E1. cbn [then_]. destruct (h_free_ok _ _ _ H1) as (h' & E & H').
    exists h', []. split; [exact E|split; [exact H'|]]. cbn [length]. lia.
  - destruct (h_free_ok _ _ _ H) as (h' & E & H'). exists h', []. split; [exact E|split; [exact H'|]]. cbn. lia.
  - cbn in G. destruct G as (G1 & G2 & G3 & G4).
    destruct (h_delete_ok h n (b :: opt cc ++ opt e0 ++ opt e1 ++ l)) as (h1 & E1 & H1).
    { apply (holds_perm _ _ _ H). cbn. rewrite <- !app_assoc. apply Permutation_middle. }
    rewrite E1. cbn [then_].
    destruct (h_delete_ok h1 e0 (b :: opt cc ++ opt e1 ++ l)) as (h2 & E2 & H2).
    { apply (holds_perm _ _ _ H1). change (b :: opt cc ++ opt e0 ++ opt e1 ++ l) with ((b :: opt cc) ++ opt e0 ++ opt e1 ++ l).
      change (b :: opt cc ++ opt e1 ++ l) with ((b :: opt cc) ++ opt e1 ++ l).
      rewrite !app_assoc. do 2 apply Permutation_app_tail. apply Permutation_app_comm. }
    rewrite E2. cbn [then_].
    destruct (h_delete_ok h2 e1 (b :: opt cc ++ l)) as (h3 & E3 & H3).
    { apply (holds_perm _ _ _ H2). change (b :: opt cc ++ opt e1 ++ l) with ((b :: opt cc) ++ opt e1 ++ l).
      change (b :: opt cc ++ l) with ((b :: opt cc) ++ l).
      rewrite !app_assoc. apply Permutation_app_tail. apply Permutation_app_comm. }
    rewrite E3. cbn [then_]. destruct (h_free_ok _ _ _ H3) as (h' & E & H').
    exists h', (opt cc). split; [exact E|split; [exact H'|]].
    rewrite (some_pos _ _ G2). destruct g; cbn -[Nat.mul]; lia.
Qed.

(** * The state and the ledger *)
Record agree (st : state) (l : list entry) : Prop := {
  ag_desc : Forall2 describes (snd st) l;
  ag_lost : exists lost, holds (fst st) (flat_map own (snd st) ++ lost) /\ length lost = list_sum (map stray l)
}.

Lemma set_nth_split : forall {A} (l1 l2 : list A) x y i, length l1 = i -> set_nth i y (l1 ++ x :: l2) = l1 ++ y :: l2.
Proof. intros A l1 l2 x y i <-. induction l1; intros; cbn; [reflexivity|]. now rewrite IHl1. Qed.

Lemma nth_split_l : forall (os : list (option object)) l i o, nth i os None = Some o -> Forall2 describes os l ->
  exists os1 os2 l1 l2 e, os = os1 ++ Some o :: os2 /\ l = l1 ++ e :: l2 /\ length os1 = i /\ length l1 = i /\
    Forall2 describes os1 l1 /\ Forall2 describes os2 l2 /\ describes (Some o) e.
Proof.
  intros os l i o H F. revert i H. induction F as [|a e os l D F IH]; intros i H.
  - destruct i; discriminate.
  - destruct i as [|i]; cbn in H.
    + subst a. exists [], os, [], l, e. repeat (split; [reflexivity || constructor|]). now split.
    + destruct (IH i H) as (os1 & os2 & l1 & l2 & e0 & -> & -> & L1 & L2 & F1 & F2 & D0).
      exists (a :: os1), os2, (e :: l1), l2, e0.
      split; [reflexivity|]. split; [reflexivity|]. split; [cbn; now rewrite L1|]. split; [cbn; now rewrite L2|].
      split; [now constructor|]. now split.
Qed.

Lemma nth_none : forall (os : list (option object)) l i, nth i os None = None -> Forall2 describes os l ->
  match nth_error l i with Some (mkEntry _ _ _ true) => False | _ => True end.
Proof.
  intros os l i H F. revert i H. induction F as [|a e os l D F IH]; intros i H.
  - now destruct i.
  - destruct i as [|i]; cbn in *.
    + subst a. destruct e as [k g c a]. cbn in D. now subst a.
    + now apply IH.
Qed.

Lemma nth_error_mid : forall {A} (l1 l2 : list A) x i, length l1 = i -> nth_error (l1 ++ x :: l2) i = Some x.
Proof. intros A l1 l2 x i <-. induction l1; intros; cbn; [reflexivity|apply IHl1]. Qed.

Lemma own_mid : forall os1 os2 o r,
  Permutation (flat_map own (os1 ++ Some o :: os2) ++ r) (owned o ++ (flat_map own os1 ++ flat_map own os2) ++ r).
Proof.
  intros. rewrite flat_map_app. cbn [flat_map own]. rewrite !app_assoc. do 2 apply Permutation_app_tail.
  apply Permutation_app_comm.
Qed.

Lemma own_mid_none : forall os1 os2 r,
  flat_map own (os1 ++ None :: os2) ++ r = (flat_map own os1 ++ flat_map own os2) ++ r.
Proof. intros. now rewrite flat_map_app. Qed.

Lemma stray_mid : forall l1 l2 e, list_sum (map stray (l1 ++ e :: l2)) = stray e + list_sum (map stray (l1 ++ l2)).
Proof. intros. rewrite !map_app, !list_sum_app. cbn [map].
  change (list_sum (stray e :: map stray l2)) with (stray e + list_sum (map stray l2)). lia. Qed.

Lemma Forall2_mid : forall os1 os2 l1 l2 o e, Forall2 describes os1 l1 -> Forall2 describes os2 l2 -> describes o e ->
  Forall2 describes (os1 ++ o :: os2) (l1 ++ e :: l2).
Proof. intros. apply Forall2_app; [assumption|now constructor]. Qed.

Lemma step_ok : forall c st l, agree st l -> exists st', step st c = Some st' /\ agree st' (note l c).
Proof.
  intros c [h os] l [D (lost & H & L)]. cbn [fst snd] in *. destruct c as [k|i nd|i n|i]; cbn [step note].
  - destruct (make k h) as [o h'] eqn:E. destruct (make_ok _ _ _ _ _ E H) as [H' D'].
    eexists. split; [reflexivity|]. split; cbn [fst snd].
    + apply Forall2_app; [exact D|]. constructor; [exact D'|constructor].
    + exists lost. split.
      * apply (holds_perm _ _ _ H'). rewrite flat_map_app. cbn [flat_map own]. rewrite app_nil_r, !app_assoc.
        apply Permutation_app_tail. apply Permutation_app_comm.
      * rewrite L, map_app, list_sum_app. change (list_sum (map stray [mkEntry k 0 0 true])) with 0. lia.
  - destruct (nth i os None) as [o|] eqn:N.
    + destruct (nth_split_l _ _ _ _ N D) as (os1 & os2 & l1 & l2 & e & -> & -> & L1 & L2 & F1 & F2 & D0).
      rewrite (nth_error_mid l1 l2 e i L2). destruct e as [k g cc a]. pose proof (proj1 D0) as A. cbn in A. subst a.
      destruct (setGrid nd o h) as [o' h'] eqn:E.
      assert (H0 : holds h (owned o ++ (flat_map own os1 ++ flat_map own os2) ++ lost))
        by (apply (holds_perm _ _ _ H), own_mid).
      destruct (setGrid_ok _ _ _ _ _ _ _ _ _ E H0 D0) as (D' & lost' & H' & L').
      eexists. split; [reflexivity|]. rewrite (set_nth_split os1 os2 _ _ i L1), (set_nth_split l1 l2 _ _ i L2).
      split; cbn [fst snd].
      * now apply Forall2_mid.
      * exists (lost' ++ lost). split.
        -- apply (holds_perm _ _ _ H'). rewrite own_mid. apply Permutation_app_head.
           generalize (flat_map own os1 ++ flat_map own os2) as r. intros r.
           rewrite !app_assoc. apply Permutation_app_tail. apply Permutation_app_comm.
        -- rewrite stray_mid in *. rewrite app_length. lia.
    + pose proof (nth_none _ _ _ N D) as Q. exists (h, os). split; [reflexivity|].
      destruct (nth_error l i) as [[k g cc []]|]; [contradiction| |]; split; cbn; eauto.
  - destruct (nth i os None) as [o|] eqn:N.
    + destruct (nth_split_l _ _ _ _ N D) as (os1 & os2 & l1 & l2 & e & -> & -> & L1 & L2 & F1 & F2 & D0).
      rewrite (nth_error_mid l1 l2 e i L2). destruct e as [k g cc a]. pose proof (proj1 D0) as A. cbn in A. subst a.
      destruct (compute_ok n o h _ H) as (h' & lost' & E & H' & L'). rewrite E.
      eexists. split; [reflexivity|]. rewrite (set_nth_split l1 l2 _ _ i L2).
      split; cbn [fst snd].
      * now apply Forall2_mid.
      * exists (lost' ++ lost). split.
        -- apply (holds_perm _ _ _ H'). rewrite !app_assoc. apply Permutation_app_tail. apply Permutation_app_comm.
        -- rewrite stray_mid in *. rewrite app_length, L', L. destruct D0 as (_ & K & _). cbn in K. subst k.
           unfold stray; cbn [e_alive e_grids e_class e_comp]. lia.
    + pose proof (nth_none _ _ _ N D) as Q. exists (h, os). split; [reflexivity|].
      destruct (nth_error l i) as [[k g cc []]|]; [contradiction| |]; split; cbn; eauto.
  - destruct (nth i os None) as [o|] eqn:N.
    + destruct (nth_split_l _ _ _ _ N D) as (os1 & os2 & l1 & l2 & e & -> & -> & L1 & L2 & F1 & F2 & D0).
      rewrite (nth_error_mid l1 l2 e i L2).
      assert (H0 : holds h (owned o ++ (flat_map own os1 ++ flat_map own os2) ++ lost))
        by (apply (holds_perm _ _ _ H), own_mid).
      destruct (del_ok _ _ _ _ H0 D0) as (h' & lost' & E & H' & L'). rewrite E.
      destruct e as [k g cc a]. pose proof (proj1 D0) as A. cbn in A. subst a. cbn [e_class e_grids e_comp] in L'.
      eexists. split; [reflexivity|]. rewrite (set_nth_split os1 os2 _ _ i L1), (set_nth_split l1 l2 _ _ i L2).
      split; cbn [fst snd].
      * now apply Forall2_mid.
      * exists (lost' ++ lost). split.
        -- apply (holds_perm _ _ _ H'). rewrite own_mid_none.
           generalize (flat_map own os1 ++ flat_map own os2) as r. intros r.
           rewrite !app_assoc. apply Permutation_app_tail. apply Permutation_app_comm.
        -- rewrite stray_mid in *. rewrite app_length. lia.
    + pose proof (nth_none _ _ _ N D) as Q. exists (h, os). split; [reflexivity|].
      destruct (nth_error l i) as [[k g cc []]|]; [contradiction| |]; split; cbn; eauto.
Qed.

Lemma run_ok : forall p st l, agree st l -> exists st', run st p = Some st' /\ agree st' (fold_left note p l).
Proof.
  induction p as [|c p IH]; intros st l A; cbn.
  - now exists st.
  - destruct (step_ok c st l A) as (st' & E & A'). rewrite E. now apply IH.
Qed.

Lemma start_agrees : agree start [].
Proof.
  split; cbn; [constructor|]. exists []. repeat split; cbn; try constructor. contradiction.
Qed.

Lemma own_sum : forall os l, Forall2 describes os l ->
  length (flat_map own os) + list_sum (map stray l) = total l.
Proof.
  intros os l F. induction F as [|o e os l D F IH]; [reflexivity|]. unfold total in *. cbn [flat_map map list_sum fold_right].
  rewrite app_length. change (fold_right Nat.add 0 (map stray l)) with (list_sum (map stray l)).
  change (fold_right Nat.add 0 (map held l)) with (list_sum (map held l)).
  assert (length (own o) + stray e = held e).
  { destruct o as [o|]; [now apply owned_length|]. cbn. destruct e as [k g c a]. cbn in D. subst a. reflexivity. }
  lia.
Qed.

(** * C66: whatever is called in whatever order on objects in use, the library never frees a block that is not
    allocated: no block is freed twice. *)
Theorem C66_no_bad_free : forall p, run start p <> None.
Proof. intros p. destruct (run_ok p start [] start_agrees) as (st & E & _). now rewrite E. Qed.
Print Assumptions C66_no_bad_free.

(** The same holds for the blocks of objects in use: they are allocated, and no two objects (nor two
    members of an object) share a block. *)
Theorem C66_no_dangling : forall p h os, run start p = Some (h, os) ->
  NoDup (flat_map own os) /\ forall b, In b (flat_map own os) -> In b (hp_live h).
Proof.
  intros p h os E. destruct (run_ok p start [] start_agrees) as (st & E' & [D (lost & [[N B] P] & L)]).
  rewrite E in E'. injection E' as <-. cbn in *. split.
  - pose proof (Permutation_NoDup P N) as N'. clear -N'. induction (flat_map own os) as [|x l IH]; [constructor|].
    cbn in N'. inversion N' as [|? ? X Y]; subst. constructor; [|now apply IH]. intros I. apply X, in_or_app. now left.
  - intros b I. rewrite P. apply in_or_app. now left.
Qed.
Print Assumptions C66_no_dangling.

(** * C67: the number of blocks that are allocated is given by the calls. *)
Theorem C67_blocks : forall p h os, run start p = Some (h, os) -> length (hp_live h) = total (ledger p).
Proof.
  intros p h os E. destruct (run_ok p start [] start_agrees) as (st & E' & [D (lost & [_ P] & L)]).
  rewrite E in E'. injection E' as <-. cbn in *. rewrite (Permutation_length P), app_length, L.
  now apply own_sum.
Qed.
Print Assumptions C67_blocks.

(** Nothing is left over when all objects are deleted, provided that no object was given more than one grid, and the
    conservative and the flow interpolation were not used beyond the creation of their objects. *)
Theorem C67_no_leak_partial : forall p h os, run start p = Some (h, os) ->
  (forall e, In e (ledger p) -> e_alive e = false /\ e_grids e <= 1 /\ e_comp e = 0 /\
     (e_class e = KFlow -> e_grids e = 0)) ->
  hp_live h = [].
Proof.
  intros p h os E H. apply length_zero_iff_nil. rewrite (C67_blocks p h os E). unfold total.
  induction (ledger p) as [|e l IH]; [reflexivity|]. cbn [map list_sum fold_right].
  change (fold_right Nat.add 0 (map held l)) with (list_sum (map held l)).
  rewrite IH by (intros x I; apply H; now right).
  destruct (H e (or_introl eq_refl)) as (A & G & C & F). unfold held. rewrite A, C.
  destruct e as [k g c a]. cbn in *. destruct g as [|[|g]]; [destruct k; reflexivity| |lia].
  destruct k; cbn; try reflexivity. specialize (F eq_refl). discriminate.
Qed.
Print Assumptions C67_no_leak_partial.

(** The conservative interpolation loses one block in every computation of weights, the flow interpolation one
    in every computation, one more for every crossed cell after the first, and one for its grid; a cell
    finder loses one for every grid after the first. *)
Definition used (k : class) (cs : list command) : list command := New k :: cs ++ [Del 0].

Lemma ledger_used : forall k cs, ledger (used k cs) = note (fold_left note cs [mkEntry k 0 0 true]) (Del 0).
Proof. intros. unfold ledger, used. cbn [fold_left]. now rewrite fold_left_app. Qed.

Lemma used_repeat : forall n c e0 e1 (f : nat -> entry), f 0 = e0 ->
  (forall i, note [f i] c = [f (S i)]) -> f n = e1 -> fold_left note (repeat c n) [e0] = [e1].
Proof.
  intros n c e0 e1 f <- S <-. replace n with (0 + n) at 2 by reflexivity. generalize 0 as i.
  induction n as [|n IH]; intros i; cbn [repeat fold_left].
  - now rewrite Nat.add_0_r.
  - rewrite S, IH. do 2 f_equal. lia.
Qed.

Theorem C67_leak_refuted :
  (forall n k h os, run start (used KConserve (repeat (Compute 0 k) n)) = Some (h, os) -> length (hp_live h) = n) /\
  (forall n k h os, run start (used KFlow (SetGrid 0 2 :: repeat (Compute 0 (S k)) n)) = Some (h, os) ->
     length (hp_live h) = 1 + n * S k) /\
  (forall n h os, run start (used KFinder (repeat (SetGrid 0 2) (S n))) = Some (h, os) -> length (hp_live h) = n).
Proof.
  repeat split; intros * E; rewrite (C67_blocks _ _ _ E), ledger_used; clear E.
  - rewrite (used_repeat n _ _ (mkEntry KConserve 0 n true) (fun i => mkEntry KConserve 0 i true));
      [cbn; lia|reflexivity| |reflexivity].
    intros i. cbn. do 2 f_equal. lia.
  - cbn [fold_left note nth_error set_nth gives_grid].
    rewrite (used_repeat n _ _ (mkEntry KFlow 1 (n * S k) true) (fun i => mkEntry KFlow 1 (i * S k) true));
      [cbn -[Nat.mul]; lia|reflexivity| |reflexivity].
    intros i. cbn -[Nat.mul]. do 2 f_equal. lia.
  - rewrite (used_repeat (S n) _ _ (mkEntry KFinder (S n) 0 true) (fun i => mkEntry KFinder i 0 true));
      [cbn -[Nat.mul]; lia|reflexivity| |reflexivity].
    intros i. reflexivity.
Qed.
Print Assumptions C67_leak_refuted.

(** Concrete cases: two interpolations at work at the same time, with all blocks given back; and a flow interpolation
    of which four blocks remain. *)
Example C66_nonvacuous :
  run start [New KHolder; New KFinder; SetGrid 0 2; New KIntersect; SetGrid 1 3; Del 0; Compute 1 0; Del 2; Del 1]
  = Some (mkHeap 7 [], [None; None; None]).
Proof. reflexivity. Qed.
Example C67_nonvacuous :
  run start [New KFlow; SetGrid 0 2; Compute 0 3; Del 0] = Some (mkHeap 12 [10; 9; 5; 2], [None]).
Proof. reflexivity. Qed.
