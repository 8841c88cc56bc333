(** Proofs about the octree. *)
From Coq Require Import ZArith List Bool Lia Reals Lra.
From Verif Require Import Base Num NumR M_Octree.
Import ListNotations.
Open Scope Z_scope.

(** ** Any arithmetic: the set of keys *)
Section Keys.
Context {T : Type} {N : Num T}.

Lemma key_eqb_true : forall a b, key_eqb a b = true <-> a = b.
Proof. intros. unfold key_eqb. destruct (list_eq_dec Z.eq_dec a b); split; intros; auto; discriminate. Qed.

Lemma key_eqb_refl : forall a, key_eqb a a = true.
Proof. intros. apply key_eqb_true. reflexivity. Qed.

Lemma oc_find_app : forall (t : list (list Z * (list T * list T))) k v key,
  oc_find (t ++ [(k, v)]) key =
  match oc_find t key with
  | Some x => Some x
  | None => if key_eqb k key then Some v else None
  end.
Proof.
  induction t as [|[k' v'] t IH]; intros; simpl; auto.
  destruct (key_eqb k' key); auto.
Qed.

Lemma oc_find_insert : forall (t : list (list Z * (list T * list T))) k v key x,
  oc_find (oc_insert t k v) key = Some x <->
  oc_find t key = Some x \/ (oc_find t key = None /\ key = k /\ x = v).
Proof.
  intros. unfold oc_insert. destruct (oc_find t k) eqn:E.
  - split; auto. intros [H|(H & -> & _)]; auto. congruence.
  - rewrite oc_find_app. destruct (oc_find t key) eqn:E2.
    + split; auto. intros [H|(H & _)]; [auto|discriminate].
    + destruct (key_eqb k key) eqn:E3.
      * apply key_eqb_true in E3. subst. split.
        -- intros H; inversion H; subst; auto.
        -- intros [H|(_ & _ & ->)]; [discriminate|auto].
      * split; [discriminate|]. intros [H|(_ & -> & _)]; [discriminate|].
        rewrite key_eqb_refl in E3. discriminate.
Qed.

Definition digits_ok (ndims : nat) (s : list Z) : Prop :=
  Forall (fun d => 0 <= d < 2 ^ Z.of_nat ndims) s.

(** Keys added below [key]. *)
Definition adds (ndims nlevs : nat) (key k : list Z) : Prop :=
  exists s, k = key ++ s /\ s <> [] /\ digits_ok ndims s /\
            (length s = 1%nat \/ (length k <= nlevs)%nat).

Definition extends (t t' : list (list Z * (list T * list T))) (A : list Z -> Prop)
  (box : list Z -> list T * list T) : Prop :=
  forall k x, oc_find t' k = Some x <->
     oc_find t k = Some x \/ (oc_find t k = None /\ A k /\ x = box k).

Lemma extends_trans : forall t1 t2 t3 A B box,
  extends t1 t2 A box -> extends t2 t3 B box ->
  (forall k, A k \/ ~ A k) ->
  extends t1 t3 (fun k => A k \/ B k) box.
Proof.
  intros t1 t2 t3 A B box H1 H2 D k x. split.
  - intros H. apply H2 in H. destruct H as [H|(Hn & HB & ->)].
    + apply H1 in H. destruct H as [H|(Hn & HA & ->)]; [auto|right; auto].
    + destruct (oc_find t1 k) eqn:E; [|right; auto].
      assert (Q : oc_find t2 k = Some p) by (apply H1; auto). congruence.
  - intros [H|(Hn & HAB & ->)].
    + apply H2. left. apply H1. auto.
    + apply H2. destruct (D k) as [HA|HnA].
      * left. apply H1. right. auto.
      * destruct HAB as [HA|HB]; [tauto|]. right. split; auto.
        destruct (oc_find t2 k) eqn:E; auto.
        apply H1 in E. destruct E as [E|(_ & HA & _)]; [congruence|tauto].
Qed.

Lemma extends_ext : forall t1 t2 A B box,
  extends t1 t2 A box -> (forall k, A k <-> B k) -> extends t1 t2 B box.
Proof. intros t1 t2 A B box H E k x. rewrite (H k x), E. reflexivity. Qed.

Lemma extends_insert : forall t k box,
  extends t (oc_insert t k (box k)) (fun k' => k' = k) box.
Proof.
  intros t k box k' x. rewrite oc_find_insert. split.
  - intros [H|(H & -> & ->)]; auto.
  - intros [H|(H & -> & ->)]; auto.
Qed.

Definition adds_in (ndims nlevs : nat) (l : list Z) (key k : list Z) : Prop :=
  exists q s, In q l /\ k = (key ++ [q]) ++ s /\ digits_ok ndims s /\
            (s = [] \/ (length k <= nlevs)%nat).

Lemma digits_dec : forall ndims s, digits_ok ndims s \/ ~ digits_ok ndims s.
Proof.
  intros. destruct (Forall_dec (fun d => 0 <= d < 2 ^ Z.of_nat ndims)) with (l := s); auto.
  intros d. destruct (Z_le_dec 0 d); destruct (Z_lt_dec d (2 ^ Z.of_nat ndims)); auto; right; lia.
Qed.

Lemma adds_in_dec : forall ndims nlevs l key k,
  adds_in ndims nlevs l key k \/ ~ adds_in ndims nlevs l key k.
Proof.
  intros ndims nlevs l key k.
  destruct (list_eq_dec Z.eq_dec (firstn (length key) k) key) as [E|E].
  - destruct (skipn (length key) k) as [|q s] eqn:S.
    + right. intros (q & s & Hq & -> & _). rewrite <- app_assoc in S.
      rewrite skipn_app, Nat.sub_diag, skipn_all in S. simpl in S. discriminate.
    + assert (K : k = (key ++ [q]) ++ s).
      { rewrite <- app_assoc. simpl. rewrite <- S, <- E at 1. symmetry.
        rewrite E at 1. rewrite <- E at 1. apply firstn_skipn. }
      assert (U : forall q' s', k = (key ++ [q']) ++ s' -> q' = q /\ s' = s).
      { intros q' s' K'. rewrite K in K'. rewrite <- !app_assoc in K'.
        apply app_inv_head in K'. simpl in K'. inversion K'. auto. }
      destruct (in_dec Z.eq_dec q l) as [I|I].
      * destruct (digits_dec ndims s) as [D|D].
        -- destruct (list_eq_dec Z.eq_dec s []) as [Es|Es].
           ++ left. exists q, s. auto.
           ++ destruct (le_dec (length k) nlevs) as [L|L].
              ** left. exists q, s. auto.
              ** right. intros (q' & s' & _ & K' & _ & [C|C]); [|tauto].
                 apply U in K'. destruct K'; subst; tauto.
        -- right. intros (q' & s' & _ & K' & D' & _). apply U in K'. destruct K'; subst; tauto.
      * right. intros (q' & s' & I' & K' & _). apply U in K'. destruct K'; subst; tauto.
  - right. intros (q & s & _ & -> & _). apply E.
    rewrite <- app_assoc, firstn_app, Nat.sub_diag, firstn_all. simpl. apply app_nil_r.
Qed.

Lemma oc_refine_unfold : forall (box : list Z -> list T * list T) ndims nlevs fuel key t,
  oc_refine box ndims nlevs fuel key t =
  fold_left (fun t iQ =>
      let key2 := key ++ [iQ] in
      let t1 := oc_insert t key2 (box key2) in
      if (length key2 <? nlevs)%nat then
        match fuel with
        | O => t1
        | S fuel' => oc_refine box ndims nlevs fuel' key2 t1
        end
      else t1)
    (range (2 ^ Z.of_nat ndims)) t.
Proof. destruct fuel; reflexivity. Qed.

Lemma refine_extends : forall (box : list Z -> list T * list T) ndims nlevs fuel key t,
  (nlevs <= length key + 1 + fuel)%nat ->
  extends t (oc_refine box ndims nlevs fuel key t) (adds ndims nlevs key) box.
Proof.
  intros box ndims nlevs. induction fuel as [|fuel IH]; intros key t Hf;
    rewrite oc_refine_unfold.
  - (* no recursion possible *)
    assert (G : forall l t, extends t
      (fold_left (fun t iQ =>
        let key2 := key ++ [iQ] in
        let t1 := oc_insert t key2 (box key2) in
        if (length key2 <? nlevs)%nat then t1 else t1) l t) (adds_in ndims nlevs l key) box).
    { induction l as [|q l IHl]; intros t0; simpl.
      - intros k x. split; auto. intros [H|(_ & (q & s & [] & _) & _)]; auto.
      - eapply extends_ext.
        + eapply extends_trans; [|apply IHl|].
          * replace (if (length (key ++ [q]) <? nlevs)%nat then oc_insert t0 (key ++ [q]) (box (key ++ [q]))
                   else oc_insert t0 (key ++ [q]) (box (key ++ [q])))
              with (oc_insert t0 (key ++ [q]) (box (key ++ [q]))) by (destruct (_ <? _)%nat; auto).
            apply extends_insert.
          * intros k. destruct (list_eq_dec Z.eq_dec k (key ++ [q])); auto.
        + intros k. split.
          * intros [->|(q' & s & I & E & D & L)].
            -- exists q, []. rewrite app_nil_r. repeat split; simpl; auto. constructor.
            -- exists q', s. simpl; auto.
          * intros (q' & s & [<-|I] & E & D & [Es|L]).
            -- left. subst. apply app_nil_r.
            -- left. rewrite E in L. rewrite !app_length in L. simpl in L.
               destruct s; [subst; apply app_nil_r|simpl in L; lia].
            -- right. exists q', s. auto.
            -- right. exists q', s. auto. }
    eapply extends_ext; [apply G|]. intros k. split.
    + intros (q & s & I & E & D & L). apply in_range in I.
      exists (q :: s). rewrite <- app_assoc in E. simpl in E.
      repeat split; auto; [discriminate| constructor; auto |].
      destruct L as [->|L]; auto.
    + intros (s & E & Hs & D & L). destruct s as [|q s]; [tauto|].
      exists q, s. inversion D; subst. split; [apply in_range; auto|].
      rewrite <- app_assoc. simpl. repeat split; auto.
      destruct L as [L|L]; auto. left. destruct s; auto; simpl in L; lia.
  - assert (G : forall l t, extends t
      (fold_left (fun t iQ =>
        let key2 := key ++ [iQ] in
        let t1 := oc_insert t key2 (box key2) in
        if (length key2 <? nlevs)%nat then oc_refine box ndims nlevs fuel key2 t1 else t1) l t)
        (adds_in ndims nlevs l key) box).
    { induction l as [|q l IHl]; intros t0; simpl.
      - intros k x. split; auto. intros [H|(_ & (q & s & [] & _) & _)]; auto.
      - eapply extends_ext.
        + eapply extends_trans; [|apply IHl|].
          * assert (Q : extends t0
              (if (length (key ++ [q]) <? nlevs)%nat
               then oc_refine box ndims nlevs fuel (key ++ [q]) (oc_insert t0 (key ++ [q]) (box (key ++ [q])))
               else oc_insert t0 (key ++ [q]) (box (key ++ [q])))
              (adds_in ndims nlevs [q] key) box).
            { destruct (length (key ++ [q]) <? nlevs)%nat eqn:E.
              - apply Nat.ltb_lt in E. eapply extends_ext.
                + eapply extends_trans; [apply extends_insert|apply IH|].
                  * rewrite app_length. simpl. lia.
                  * intros k. destruct (list_eq_dec Z.eq_dec k (key ++ [q])); auto.
                + intros k. split.
                  * intros [->|(s & K & Hs & D & L)].
                    -- exists q, []. rewrite app_nil_r. repeat split; simpl; auto. constructor.
                    -- exists q, s. repeat split; simpl; auto. right.
                       destruct L as [L|L]; auto. rewrite K, app_length. lia.
                  * intros (q' & s & [<-|[]] & K & D & L). destruct s as [|d s].
                    -- left. subst. apply app_nil_r.
                    -- right. exists (d :: s). repeat split; auto; [discriminate|].
                       destruct L as [L|L]; [discriminate|auto].
              - apply Nat.ltb_ge in E. eapply extends_ext; [apply extends_insert|].
                intros k. split.
                + intros ->. exists q, []. rewrite app_nil_r. repeat split; simpl; auto. constructor.
                + intros (q' & s & [<-|[]] & K & D & [Es|L]).
                  * subst. apply app_nil_r.
                  * rewrite K, app_length in L. destruct s; [subst; apply app_nil_r|simpl in L; lia]. }
            exact Q.
          * intros k. apply adds_in_dec.
        + intros k. split.
          * intros [(q' & s & [<-|[]] & R)|(q' & s & I & R)].
            -- exists q, s. split; [left; auto|exact R].
            -- exists q', s. split; [right; auto|exact R].
          * intros (q' & s & [<-|I] & R).
            -- left. exists q, s. split; [left; auto|exact R].
            -- right. exists q', s. split; auto. }
    eapply extends_ext; [apply G|]. intros k. split.
    + intros (q & s & I & E & D & L). apply in_range in I.
      exists (q :: s). rewrite <- app_assoc in E. simpl in E.
      repeat split; auto; [discriminate| constructor; auto |].
      destruct L as [->|L]; auto.
    + intros (s & E & Hs & D & L). destruct s as [|q s]; [tauto|].
      exists q, s. inversion D; subst. split; [apply in_range; auto|].
      rewrite <- app_assoc. simpl. repeat split; auto.
      destruct L as [L|L]; auto. left. destruct s; auto; simpl in L; lia.
Qed.

Definition valid_key (ndims nlevs : nat) (k : list Z) : Prop :=
  (1 <= length k <= Nat.max 1 nlevs)%nat /\
  forall d, In d k -> 0 <= d < 2 ^ Z.of_nat ndims.

Lemma adds_valid : forall ndims nlevs k, adds ndims nlevs [] k <-> valid_key ndims nlevs k.
Proof.
  intros. unfold adds, valid_key. split.
  - intros (s & -> & Hs & D & L). cbn [app] in *. split.
    + destruct s; [tauto|]. cbn [length] in *. lia.
    + apply Forall_forall. exact D.
  - intros [L D]. exists k. simpl. split; auto. split; [destruct k; simpl in L; [lia|discriminate]|].
    split; [apply Forall_forall; exact D|]. lia.
Qed.

Lemma oc_new_inv : forall nlevs ndims (points : list T) o, oc_new nlevs ndims points = Ret o ->
  (0 < ndims)%nat /\ oc_ndims o = ndims /\ oc_nlevs o = nlevs /\ oc_prodDims o = oc_prods ndims /\
  oc_tree o = oc_refine (oc_computeLoHi ndims (oc_prods ndims) (oc_xmins o) (oc_xmaxs o)) ndims nlevs nlevs [] [] /\
  (exists i, foldM (oc_minmax_step ndims) points (0, (repeat nmax ndims, repeat (nopp nmax) ndims))
             = Ret (i, (oc_xmins o, oc_xmaxs o))) /\
  oc_attach o (length points / ndims) points = Ret (oc_node2Key o).
Proof.
  intros nlevs ndims points o H. unfold oc_new in H. destruct ndims as [|n]; [discriminate|].
  apply bind_ret_inv in H. destruct H as ([i [mins maxs]] & H1 & H).
  apply bind_ret_inv in H. destruct H as (n2k & H2 & H). inversion H; subst; clear H.
  cbn [oc_ndims oc_nlevs oc_prodDims oc_tree oc_xmins oc_xmaxs oc_node2Key].
  repeat split; auto; try lia; eauto.
  rewrite <- H2. clear H1 H2. set (q := (length points / S n)%nat). clearbody q.
  assert (E : forall pt lev,
    oc_getKey (mkOct (oc_refine (oc_computeLoHi (S n) (oc_prods (S n)) mins maxs) (S n) nlevs nlevs [] [])
       n2k (oc_prods (S n)) mins maxs (S n) nlevs) pt lev =
    oc_getKey (mkOct (oc_refine (oc_computeLoHi (S n) (oc_prods (S n)) mins maxs) (S n) nlevs nlevs [] [])
       [] (oc_prods (S n)) mins maxs (S n) nlevs) pt lev) by reflexivity.
  revert points. induction q; intros points; simpl; auto.
  rewrite E. destruct (oc_getKey _ _ _); simpl; auto. rewrite IHq. reflexivity.
Qed.

Lemma oc_tree_find : forall nlevs ndims (points : list T) o, oc_new nlevs ndims points = Ret o ->
  forall k x, oc_find (oc_tree o) k = Some x <->
    valid_key ndims nlevs k /\
    x = oc_computeLoHi ndims (oc_prods ndims) (oc_xmins o) (oc_xmaxs o) k.
Proof.
  intros nlevs ndims points o H k x. apply oc_new_inv in H.
  destruct H as (Hn & H1 & H2 & H3 & H4 & H5 & H6). rewrite H4.
  rewrite (refine_extends _ ndims nlevs nlevs [] [] ltac:(simpl; lia) k x).
  rewrite adds_valid. simpl. split.
  - intros [C|(_ & V & ->)]; [discriminate|auto].
  - intros [V ->]. right. auto.
Qed.

Lemma oc_keyloop_length : forall prods xs n el xbase k,
  oc_keyloop prods xs xbase el n = Ret k -> length k = n.
Proof.
  induction n as [|n IH]; intros el xbase k H; simpl in H.
  - inversion H; auto.
  - apply bind_ret_inv in H. destruct H as ([xb d] & H1 & H).
    apply bind_ret_inv in H. destruct H as (ks & H2 & H). inversion H; subst. simpl. f_equal. eauto.
Qed.

Lemma oc_keyloop_prefix : forall prods xs n el xbase k,
  oc_keyloop prods xs xbase el (S n) = Ret k ->
  oc_keyloop prods xs xbase el n = Ret (firstn n k).
Proof.
  induction n as [|n IH]; intros el xbase k H; auto.
  remember (S n) as m. simpl in H. apply bind_ret_inv in H. destruct H as ([xb d] & H1 & H).
  apply bind_ret_inv in H. destruct H as (ks & H2 & H). inversion H; subst.
  simpl. rewrite H1. simpl. rewrite (IH _ _ _ H2). reflexivity.
Qed.

Lemma oc_getKey_prefix : forall o (pt : list T) l k,
  oc_getKey o pt (S l) = Ret k -> oc_getKey o pt l = Ret (firstn l k).
Proof. intros. apply oc_keyloop_prefix. exact H. Qed.

Lemma skipn_plus : forall {A} a b (l : list A), skipn (a + b) l = skipn b (skipn a l).
Proof.
  induction a; intros b l; simpl; auto. destruct l; auto. rewrite skipn_nil. reflexivity.
Qed.

Lemma oc_attach_spec : forall o n (points : list T) ks,
  oc_attach o n points = Ret ks ->
  length ks = n /\
  forall i, (i < n)%nat ->
    oc_getKey o (firstn (oc_ndims o) (skipn (i * oc_ndims o) points)) (oc_nlevs o) = Ret (nth i ks []).
Proof.
  induction n as [|n IH]; intros points ks H; simpl in H.
  - inversion H; subst. split; auto. intros; lia.
  - apply bind_ret_inv in H. destruct H as (k & H1 & H).
    apply bind_ret_inv in H. destruct H as (ks' & H2 & H). inversion H; subst.
    destruct (IH _ _ H2) as [L G]. split; [simpl; lia|].
    intros [|i] Hi.
    + rewrite Nat.mul_0_l. simpl. exact H1.
    + cbn [nth]. rewrite <- (G i) by lia. f_equal. f_equal.
      replace (S i * oc_ndims o)%nat with (i * oc_ndims o + oc_ndims o)%nat by lia.
      rewrite Nat.add_comm. apply skipn_plus.
Qed.

End Keys.

(** Number of keys is not needed by any client; the set is characterised above. *)

(** ** Exact arithmetic: boxes and keys *)
Open Scope R_scope.

(** Value in [0,1) of a list of binary digits, most significant first. *)
Fixpoint dyad (ds : list Z) : R :=
  match ds with
  | [] => 0
  | d :: ds' => (IZR d + dyad ds') / 2
  end.

Definition digit (p q : Z) : Z := ((q / p) mod 2)%Z.

Lemma oc_prods_S : forall n, oc_prods (S n) = (2 ^ Z.of_nat n)%Z :: oc_prods n.
Proof.
  induction n; [reflexivity|].
  change (oc_prods (S (S n))) with
    (match oc_prods (S n) with [] => [1%Z] | p :: ps => (p * 2)%Z :: p :: ps end).
  rewrite IHn. f_equal. rewrite Nat2Z.inj_succ, Z.pow_succ_r by lia. lia.
Qed.

Lemma oc_prods_length : forall n, length (oc_prods n) = n.
Proof. induction n; auto. rewrite oc_prods_S. simpl. auto. Qed.

Lemma oc_prods_nth : forall n j, (j < n)%nat ->
  nth j (oc_prods n) 0%Z = (2 ^ (Z.of_nat n - 1 - Z.of_nat j))%Z.
Proof.
  induction n; intros j Hj; [lia|]. rewrite oc_prods_S. destruct j; simpl.
  - f_equal. lia.
  - rewrite IHn by lia. f_equal. lia.
Qed.

Lemma oc_step_length : forall {T} {N : Num T} (lo : list T) inds dx, length lo = length inds ->
  length (fst (oc_step lo inds dx)) = length lo /\ length (snd (oc_step lo inds dx)) = length lo.
Proof.
  intros T N. induction lo as [|l lo IH]; destruct inds as [|i inds]; intros dx H; simpl in *; try lia; auto.
  specialize (IH inds dx ltac:(lia)). destruct (oc_step lo inds dx). simpl in *. lia.
Qed.

Lemma oc_step_nth : forall lo inds dx j, length lo = length inds -> (j < length lo)%nat ->
  nth j (fst (oc_step lo inds dx)) 0 = nth j lo 0 + IZR (nth j inds 0%Z) * dx /\
  nth j (snd (oc_step lo inds dx)) 0 = nth j lo 0 + IZR (nth j inds 0%Z) * dx + dx.
Proof.
  induction lo as [|l lo IH]; destruct inds as [|i inds]; intros dx j H Hj; simpl in *; try lia.
  destruct (oc_step lo inds dx) as [los his] eqn:E. destruct j as [|j]; simpl.
  - auto.
  - specialize (IH inds dx j ltac:(lia) ltac:(lia)). rewrite E in IH. simpl in IH. exact IH.
Qed.

Lemma getIndices_nth : forall prods q j, (j < length prods)%nat ->
  nth j (oc_getIndices prods q) 0%Z = digit (nth j prods 0%Z) q.
Proof.
  intros. unfold oc_getIndices.
  rewrite (nth_indep _ 0%Z (digit (nth 0 [] 0%Z) q)) by (rewrite map_length; auto).
  change (digit (nth 0 [] 0%Z) q) with ((fun p => ((q / p) mod 2)%Z) 0%Z). rewrite map_nth. reflexivity.
Qed.

Lemma oc_levels_spec : forall prods key (lo hi : list R) dx,
  length lo = length prods ->
  length (fst (oc_levels prods key lo hi dx)) = length lo /\
  forall j, (j < length lo)%nat ->
  nth j (fst (oc_levels prods key lo hi dx)) 0 =
    nth j lo 0 + 2 * dx * dyad (map (digit (nth j prods 0%Z)) key) /\
  (key <> [] ->
   nth j (snd (oc_levels prods key lo hi dx)) 0 =
    nth j lo 0 + 2 * dx * (dyad (map (digit (nth j prods 0%Z)) key) + / 2 ^ length key)) /\
  (length hi = length lo -> length (snd (oc_levels prods key lo hi dx)) = length lo).
Proof.
  intros prods. induction key as [|q key IH]; intros lo hi dx HL; simpl.
  - split; auto. intros j Hj. repeat split; auto; try lra. tauto.
  - destruct (oc_step lo (oc_getIndices prods q) dx) as [lo' hi'] eqn:E.
    assert (L : length (oc_getIndices prods q) = length prods) by (unfold oc_getIndices; apply map_length).
    assert (SL := oc_step_length lo (oc_getIndices prods q) dx ltac:(lia)). rewrite E in SL. simpl in SL.
    destruct SL as [SL1 SL2].
    destruct (IH lo' hi' (dx / 2) ltac:(lia)) as [I1 I2].
    split; [lia|]. intros j Hj.
    destruct (I2 j ltac:(lia)) as (J1 & J2 & J3).
    assert (SN := oc_step_nth lo (oc_getIndices prods q) dx j ltac:(lia) Hj). rewrite E in SN. simpl in SN.
    destruct SN as [SN1 SN2]. rewrite getIndices_nth in SN1, SN2 by lia.
    repeat split.
    + cbn [ndiv NumR nofZ] in *. rewrite J1, SN1. simpl. field.
    + intros _. destruct key as [|q' key'].
      * simpl. rewrite SN2. simpl. field.
      * cbn [ndiv NumR nofZ] in *. rewrite J2 by discriminate. rewrite SN1.
        cbn [length pow map dyad]. field. apply pow_nonzero. lra.
    + intros _. rewrite J3 by lia. lia.
Qed.

Lemma oc_scale_nth : forall v mins maxs j, length v = length mins -> length v = length maxs ->
  (j < length v)%nat ->
  nth j (oc_scale v mins maxs) 0 = nth j v 0 * (nth j maxs 0 - nth j mins 0) + nth j mins 0.
Proof.
  induction v as [|x v IH]; destruct mins as [|a mins]; destruct maxs as [|b maxs];
    intros j H1 H2 Hj; simpl in *; try lia.
  destruct j; simpl; auto. apply IH; lia.
Qed.

(** Box of a key. *)
Lemma oc_computeLoHi_spec : forall ndims mins maxs key j,
  length mins = ndims -> length maxs = ndims -> key <> [] -> (j < ndims)%nat ->
  let w := nth j maxs 0 - nth j mins 0 in
  let f := dyad (map (digit (2 ^ (Z.of_nat ndims - 1 - Z.of_nat j))) key) in
  nth j (fst (oc_computeLoHi ndims (oc_prods ndims) mins maxs key)) 0 = nth j mins 0 + f * w /\
  nth j (snd (oc_computeLoHi ndims (oc_prods ndims) mins maxs key)) 0 =
    nth j mins 0 + (f + / 2 ^ length key) * w.
Proof.
  intros ndims mins maxs key j H1 H2 Hk Hj w f. unfold oc_computeLoHi.
  assert (S := oc_levels_spec (oc_prods ndims) key (repeat 0 ndims) (repeat 1 ndims) (1 / 2)).
  rewrite repeat_length, oc_prods_length in S. specialize (S eq_refl). destruct S as [S1 S2].
  destruct (S2 j Hj) as (A & B & C). rewrite repeat_length in C. specialize (C eq_refl). specialize (B Hk).
  change (nhalf (T:=R)) with (1/2). change (nofZ (T:=R) 0) with 0. change (nofZ (T:=R) 1) with 1.
  destruct (oc_levels (oc_prods ndims) key (repeat 0 ndims) (repeat 1 ndims) (1 / 2)) as [lo hi].
  simpl in *. rewrite !oc_scale_nth by lia. rewrite A, B.
  rewrite nth_repeat, oc_prods_nth by auto. fold f. fold w. split; field. apply pow_nonzero; lra.
Qed.

(** One level of getKey on one coordinate. *)
Lemma min_max_floor : forall y, 0 <= y <= 2 ->
  exists b, (b = 0 \/ b = 1)%Z /\
    ntoZ (smin (nofZ 1) (smax (nofZ 0) (nfloor y))) = Some b /\
    0 <= y - IZR b <= 1 /\ (y < 2 -> y - IZR b < 1) /\ (y = 2 -> b = 1%Z).
Proof.
  intros y Hy. cbn [nfloor NumR nofZ ntoZ]. unfold smin, smax. cbn [nlt NumR].
  assert (B := Int_part_bounds y).
  assert (L := Int_part_le y 0 ltac:(simpl; lra)).
  assert (U := Int_part_lt y 3 ltac:(lra)).
  assert (C : (Int_part y = 0 \/ Int_part y = 1 \/ Int_part y = 2)%Z) by lia.
  destruct C as [E|[E|E]]; rewrite E in *; [exists 0%Z|exists 1%Z|exists 1%Z];
    (split; [auto|]); repeat rcase; try lra; (split; [f_equal; apply Rtrunc_IZR|]);
    repeat split; intros; try lra; auto.
Qed.

(** Flat index of a vector of binary digits, and recovery of the digits. *)
Fixpoint flat2 (prods inds : list Z) : Z :=
  match prods, inds with
  | p :: prods', i :: inds' => (p * i + flat2 prods' inds')%Z
  | _, _ => 0%Z
  end.

Lemma flat2_bounds : forall n inds, length inds = n -> Forall (fun b => b = 0 \/ b = 1)%Z inds ->
  (0 <= flat2 (oc_prods n) inds < 2 ^ Z.of_nat n)%Z.
Proof.
  induction n; intros inds HL HF; destruct inds as [|i inds]; simpl in HL; try lia.
  - simpl. lia.
  - rewrite oc_prods_S. cbn [flat2]. inversion HF; subst.
    specialize (IHn inds ltac:(lia) H2).
    rewrite Nat2Z.inj_succ, Z.pow_succ_r by lia. nia.
Qed.

Lemma flat2_digit : forall n inds j m, length inds = n -> Forall (fun b => b = 0 \/ b = 1)%Z inds ->
  (j < n)%nat ->
  digit (2 ^ (Z.of_nat n - 1 - Z.of_nat j)) (flat2 (oc_prods n) inds + m * 2 ^ Z.of_nat n) = nth j inds 0%Z.
Proof.
  induction n; intros inds j m HL HF Hj; destruct inds as [|i inds]; simpl in HL; try lia.
  inversion HF; subst. rewrite oc_prods_S. cbn [flat2].
  assert (B := flat2_bounds n inds ltac:(lia) H2).
  rewrite Nat2Z.inj_succ. rewrite Z.pow_succ_r by lia.
  replace (2 ^ Z.of_nat n * i + flat2 (oc_prods n) inds + m * (2 * 2 ^ Z.of_nat n))%Z
    with (flat2 (oc_prods n) inds + (i + m * 2) * 2 ^ Z.of_nat n)%Z by ring.
  destruct j as [|j].
  - replace (Z.succ (Z.of_nat n) - 1 - Z.of_nat 0)%Z with (Z.of_nat n) by lia.
    unfold digit. rewrite Z.div_add by lia. rewrite Z.div_small by lia.
    rewrite Z.add_0_l, Z.mod_add by lia. simpl. destruct H1; subst; reflexivity.
  - replace (Z.succ (Z.of_nat n) - 1 - Z.of_nat (S j))%Z with (Z.of_nat n - 1 - Z.of_nat j)%Z by lia.
    simpl. apply IHn; auto; lia.
Qed.

(** State of the key computation: base and remaining offset. *)
Definition base_ok (el : nat) (xs xb : list R) : Prop :=
  length xs = length xb /\
  forall j, (j < length xs)%nat -> 0 <= nth j xs 0 - nth j xb 0 <= / 2 ^ el /\
    (nth j xs 0 - nth j xb 0 = / 2 ^ el -> nth j xs 0 = 1).

Lemma base_ok_cons : forall el x xs b xb,
  base_ok el (x :: xs) (b :: xb) <->
  ((0 <= x - b <= / 2 ^ el /\ (x - b = / 2 ^ el -> x = 1)) /\ base_ok el xs xb).
Proof.
  intros. unfold base_ok. simpl. split.
  - intros [H1 H2]. split; [apply (H2 0%nat); lia|]. split; [lia|].
    intros j Hj. apply (H2 (S j)). lia.
  - intros [H0 [H1 H2]]. split; [lia|]. intros [|j] Hj; auto. apply H2; lia.
Qed.

Lemma oc_digit_spec : forall el xs xb prods acc,
  length xs = length prods -> base_ok el xs xb ->
  exists bs inds, oc_digit xs xb prods (IZR (2 ^ (Z.of_nat el + 1))) acc = Ret (bs, (acc + flat2 prods inds)%Z) /\
    length inds = length xs /\ Forall (fun b => b = 0 \/ b = 1)%Z inds /\
    base_ok (S el) xs bs /\
    (forall j, (j < length xs)%nat -> nth j bs 0 = nth j xb 0 + IZR (nth j inds 0%Z) * / 2 ^ (S el)).
Proof.
  intros el. induction xs as [|x xs IH]; intros xb prods acc HL HB.
  - exists [], []. simpl. destruct prods; [|simpl in HL; lia]. simpl. rewrite Z.add_0_r.
    split; auto. split; auto. split; [constructor|]. split; [|intros; lia].
    split; auto. simpl; intros; lia.
  - destruct prods as [|p prods]; [simpl in HL; lia|].
    destruct xb as [|b xb]; [destruct HB as [HB _]; simpl in HB; lia|].
    apply base_ok_cons in HB. destruct HB as [[H0 H1] HB].
    assert (F : IZR (2 ^ (Z.of_nat el + 1)) = 2 ^ S el).
    { replace (Z.of_nat el + 1)%Z with (Z.of_nat (S el)) by lia. rewrite <- pow_IZR. reflexivity. }
    assert (P : 0 < 2 ^ el) by (apply pow_lt; lra).
    assert (Y : 0 <= (x - b) * 2 ^ S el <= 2).
    { simpl. split; [apply Rmult_le_pos; lra|].
      apply Rle_trans with (/ 2 ^ el * (2 * 2 ^ el)); [apply Rmult_le_compat_r; lra|].
      right. field. lra. }
    destruct (min_max_floor _ Y) as (d & Hd & HZ & D1 & D2 & D3).
    destruct (IH xb prods (acc + p * d)%Z ltac:(simpl in HL; lia) HB) as (bs & inds & R & L & FA & BO & BN).
    rewrite F in R.
    exists ((b + IZR d / 2 ^ S el) :: bs), (d :: inds).
    split.
    { cbn [oc_digit]. cbn [nmul nsub NumR nofZ nadd ndiv] in *. rewrite F.
      rewrite HZ. rewrite R. simpl bind. cbn [flat2]. f_equal. f_equal. lia. }
    split; [simpl; lia|]. split; [constructor; auto|].
    assert (X : x - (b + IZR d / 2 ^ S el) = ((x - b) * 2 ^ S el - IZR d) * / 2 ^ S el).
    { field. apply pow_nonzero; lra. }
    assert (P' : 0 < / 2 ^ S el) by (apply Rinv_0_lt_compat, pow_lt; lra).
    split.
    { apply base_ok_cons. split; auto. rewrite X. split.
      - split; [apply Rmult_le_pos; lra|].
        apply Rle_trans with (1 * / 2 ^ S el); [apply Rmult_le_compat_r; lra|lra].
      - intros E. apply H1.
        assert (E1 : (x - b) * 2 ^ S el - IZR d = 1).
        { apply Rmult_eq_reg_r with (/ 2 ^ S el); lra. }
        destruct (Rlt_dec ((x - b) * 2 ^ S el) 2) as [C|C]; [specialize (D2 C); lra|].
        assert (E2 : (x - b) * 2 ^ S el = 2) by lra.
        simpl in E2. apply Rmult_eq_reg_r with (2 * 2 ^ el); [|lra]. rewrite E2. field. lra. }
    intros [|j] Hj; simpl.
    + unfold Rdiv. simpl. reflexivity.
    + simpl in BN. apply BN. simpl in Hj. lia.
Qed.

Lemma oc_keyloop_spec : forall ndims xs n el xb,
  length xs = ndims -> base_ok el xs xb ->
  exists ks bs, oc_keyloop (oc_prods ndims) xs xb el n = Ret ks /\ length ks = n /\
    (forall d, In d ks -> (0 <= d < 2 ^ Z.of_nat ndims)%Z) /\
    base_ok (el + n) xs bs /\
    (forall j, (j < ndims)%nat -> nth j bs 0 = nth j xb 0 +
        / 2 ^ el * dyad (map (digit (2 ^ (Z.of_nat ndims - 1 - Z.of_nat j))) ks)).
Proof.
  intros ndims xs. induction n as [|n IH]; intros el xb HL HB.
  - exists [], xb. simpl. rewrite Nat.add_0_r. repeat split; auto; try tauto.
    + apply HB.
    + apply HB; auto.
    + apply HB; auto.
    + apply HB; auto.
    + intros; lra.
  - destruct (oc_digit_spec el xs xb (oc_prods ndims) 0 ltac:(rewrite oc_prods_length; auto) HB)
      as (bs & inds & R & L & FA & BO & BN).
    destruct (IH (S el) bs HL BO) as (ks & bs' & R' & L' & V' & BO' & BN').
    exists ((0 + flat2 (oc_prods ndims) inds)%Z :: ks), bs'.
    assert (FB := flat2_bounds ndims inds ltac:(lia) FA).
    split.
    { cbn [oc_keyloop]. cbn [nofZ NumR] in *. rewrite R. simpl bind. rewrite R'. reflexivity. }
    split; [simpl; lia|]. split.
    { intros d [<-|Hd]; auto. }
    split.
    { replace (el + S n)%nat with (S el + n)%nat by lia. exact BO'. }
    intros j Hj. rewrite BN' by auto. rewrite BN by lia. cbn [map dyad].
    assert (FD := flat2_digit ndims inds j 0 ltac:(lia) FA Hj).
    rewrite Z.mul_0_l, Z.add_0_r in FD. rewrite Z.add_0_l, FD. simpl. field. apply pow_nonzero; lra.
Qed.

Lemma oc_normalize_spec : forall pt mins maxs, length pt = length mins -> length pt = length maxs ->
  (forall j, (j < length pt)%nat -> nth j mins 0 < nth j maxs 0 /\ nth j mins 0 <= nth j pt 0 <= nth j maxs 0) ->
  length (oc_normalize pt mins maxs) = length pt /\
  forall j, (j < length pt)%nat ->
    nth j (oc_normalize pt mins maxs) 0 = (nth j pt 0 - nth j mins 0) / (nth j maxs 0 - nth j mins 0).
Proof.
  induction pt as [|p pt IH]; destruct mins as [|a mins]; destruct maxs as [|b maxs];
    intros H1 H2 H; simpl in *; try lia.
  - split; auto. intros; lia.
  - destruct (IH mins maxs ltac:(lia) ltac:(lia) (fun j Hj => H (S j) ltac:(lia))) as [I1 I2].
    split; [lia|]. intros [|j] Hj; [|apply I2; lia].
    specialize (H 0%nat ltac:(lia)). simpl in H. destruct H as [Hlt [Ha Hb]].
    cbn [ndiv nsub nofZ NumR]. unfold smin, smax. cbn [nlt NumR].
    assert (Q : 0 <= (p - a) / (b - a) <= 1).
    { split.
      - apply Rmult_le_pos; [lra|]. left. apply Rinv_0_lt_compat. lra.
      - apply Rmult_le_reg_r with (b - a); [lra|]. unfold Rdiv. rewrite Rmult_assoc, Rinv_l by lra. lra. }
    repeat rcase; lra.
Qed.

Lemma minmax_length : forall {T} {N : Num T} ndims (points : list T) i mins maxs r, (0 < ndims)%nat ->
  foldM (oc_minmax_step ndims) points (i, (mins, maxs)) = Ret r ->
  length (fst (snd r)) = length mins /\ length (snd (snd r)) = length maxs.
Proof.
  intros T N ndims points. induction points as [|p points IH]; intros i mins maxs r Hn H; simpl in H.
  - inversion H; subst. auto.
  - apply bind_ret_inv in H. destruct H as ([i1 [m1 M1]] & H1 & H).
    apply IH in H; auto. unfold oc_minmax_step in H1.
    apply bind_ret_inv in H1. destruct H1 as (mn & G1 & H1).
    apply bind_ret_inv in H1. destruct H1 as (mx & G2 & H1).
    apply bind_ret_inv in H1. destruct H1 as (m2 & G3 & H1).
    apply bind_ret_inv in H1. destruct H1 as (M2 & G4 & H1). inversion H1; subst.
    unfold vset in G3, G4.
    destruct (_ && _) in G3; [|discriminate]. inversion G3; subst.
    destruct (_ && _) in G4; [|discriminate]. inversion G4; subst.
    rewrite !upd_length in H. exact H.
Qed.

(** The corner points bound every point. *)
Lemma minmax_bounds : forall ndims (points : list R) i mins maxs r, (0 < ndims)%nat -> (0 <= i)%Z ->
  length mins = ndims -> length maxs = ndims ->
  foldM (oc_minmax_step ndims) points (i, (mins, maxs)) = Ret r ->
  (forall j, (j < ndims)%nat -> nth j (fst (snd r)) 0 <= nth j mins 0 /\ nth j maxs 0 <= nth j (snd (snd r)) 0) /\
  (forall k, (k < length points)%nat ->
     let j := Z.to_nat ((i + Z.of_nat k) mod Z.of_nat ndims) in
     nth j (fst (snd r)) 0 <= nth k points 0 <= nth j (snd (snd r)) 0).
Proof.
  intros ndims points. induction points as [|p points IH]; intros i mins maxs r Hn Hi L1 L2 H; simpl in H.
  - inversion H; subst. simpl. split; [intros; lra|intros; lia].
  - apply bind_ret_inv in H. destruct H as ([i1 [m1 M1]] & H1 & H).
    assert (H1' := H1). unfold oc_minmax_step in H1.
    apply bind_ret_inv in H1. destruct H1 as (mn & G1 & H1).
    apply bind_ret_inv in H1. destruct H1 as (mx & G2 & H1).
    apply bind_ret_inv in H1. destruct H1 as (m2 & G3 & H1).
    apply bind_ret_inv in H1. destruct H1 as (M2 & G4 & H1). injection H1 as <- <- <-.
    set (d := (i mod Z.of_nat ndims)%Z) in *.
    assert (D : (0 <= d < Z.of_nat ndims)%Z) by (apply Z.mod_pos_bound; lia).
    rewrite (vget_nth _ _ 0) in G1 by lia. rewrite (vget_nth _ _ 0) in G2 by lia.
    injection G1 as <-. injection G2 as <-.
    unfold vset in G3, G4.
    destruct (_ && _) in G3; [|discriminate]. injection G3 as <-.
    destruct (_ && _) in G4; [|discriminate]. injection G4 as <-.
    apply IH in H; rewrite ?upd_length; auto; try lia.
    destruct H as [A B]. cbn [nlt NumR] in *. split.
    + intros j Hj. destruct (A j Hj) as [A1 A2].
      destruct (Nat.eq_dec (Z.to_nat d) j) as [<-|C].
      * rewrite upd_nth_same in A1 by lia. rewrite upd_nth_same in A2 by lia.
        revert A1 A2. repeat rcase; intros; lra.
      * rewrite upd_nth_other in A1 by auto. rewrite upd_nth_other in A2 by auto. lra.
    + intros [|k] Hk; cbv zeta.
      * change (Z.of_nat 0) with 0%Z. rewrite Z.add_0_r. fold d. destruct (A (Z.to_nat d) ltac:(lia)) as [A1 A2].
        rewrite upd_nth_same in A1 by lia. rewrite upd_nth_same in A2 by lia.
        simpl. revert A1 A2. repeat rcase; intros; lra.
      * cbn [nth]. specialize (B k ltac:(simpl in Hk; lia)). cbv zeta in B.
        replace (i + 1 + Z.of_nat k)%Z with (i + Z.of_nat (S k))%Z in B by lia. exact B.
Qed.

(** Lengths of the corner points of a constructed octree. *)
Lemma oc_corner_length : forall {T} {N : Num T} nlevs ndims (points : list T) o, oc_new nlevs ndims points = Ret o ->
  length (oc_xmins o) = ndims /\ length (oc_xmaxs o) = ndims.
Proof.
  intros T N nlevs ndims points o H. apply oc_new_inv in H.
  destruct H as (Hn & H1 & H2 & H3 & H4 & (i & H5) & H6).
  apply minmax_length in H5; auto. simpl in H5. rewrite !repeat_length in H5. auto.
Qed.

Lemma oc_root : forall {T} {N : Num T} nlevs ndims (points : list T) o, oc_new nlevs ndims points = Ret o ->
  oc_getLo o [] = oc_xmins o /\ oc_getHi o [] = oc_xmaxs o.
Proof.
  intros T N nlevs ndims points o H. unfold oc_getLo, oc_getHi.
  destruct (oc_find (oc_tree o) []) as [x|] eqn:E; auto.
  apply (oc_tree_find _ _ _ _ H) in E. destruct E as [[V _] _]. simpl in V. lia.
Qed.

(** Corner points of the box of a valid key. *)
Lemma oc_key_box : forall nlevs ndims (points : list R) o key j, oc_new nlevs ndims points = Ret o ->
  valid_key ndims nlevs key -> (j < ndims)%nat ->
  let w := nth j (oc_xmaxs o) 0 - nth j (oc_xmins o) 0 in
  let f := dyad (map (digit (2 ^ (Z.of_nat ndims - 1 - Z.of_nat j))) key) in
  nth j (oc_getLo o key) 0 = nth j (oc_xmins o) 0 + f * w /\
  nth j (oc_getHi o key) 0 = nth j (oc_xmins o) 0 + (f + / 2 ^ length key) * w.
Proof.
  intros nlevs ndims points o key j H V Hj w f.
  assert (F : oc_find (oc_tree o) key =
    Some (oc_computeLoHi ndims (oc_prods ndims) (oc_xmins o) (oc_xmaxs o) key)).
  { apply (oc_tree_find _ _ _ _ H). auto. }
  unfold oc_getLo, oc_getHi. rewrite F.
  destruct (oc_corner_length _ _ _ _ H) as [L1 L2].
  assert (key <> []) by (destruct V as [V _]; destruct key; [simpl in V; lia|discriminate]).
  assert (S := oc_computeLoHi_spec ndims (oc_xmins o) (oc_xmaxs o) key j L1 L2 H0 Hj). cbv zeta in S.
  destruct (oc_computeLoHi ndims (oc_prods ndims) (oc_xmins o) (oc_xmaxs o) key) as [lo hi].
  simpl in S. exact S.
Qed.

Theorem octree_point_in_box : forall nlevs ndims (points : list R) o,
  oc_new nlevs ndims points = Ret o ->
  (forall j, (j < ndims)%nat -> nth j (oc_getLo o []) 0 < nth j (oc_getHi o []) 0) ->
  forall pt, length pt = ndims ->
  (forall j, (j < ndims)%nat -> nth j (oc_getLo o []) 0 <= nth j pt 0 <= nth j (oc_getHi o []) 0) ->
  forall lev, (lev <= nlevs)%nat ->
  exists key, oc_getKey o pt lev = Ret key /\ length key = lev /\
    (forall d, In d key -> (0 <= d < 2 ^ Z.of_nat ndims)%Z) /\
    forall j, (j < ndims)%nat ->
      nth j (oc_getLo o key) 0 <= nth j pt 0 /\
      (nth j pt 0 < nth j (oc_getHi o key) 0 \/
       (nth j pt 0 = nth j (oc_getHi o key) 0 /\ nth j pt 0 = nth j (oc_getHi o []) 0)) /\
      nth j (oc_getHi o key) 0 - nth j (oc_getLo o key) 0 =
        (nth j (oc_getHi o []) 0 - nth j (oc_getLo o []) 0) / 2 ^ lev.
Proof.
  intros nlevs ndims points o H Hdom pt Hpt Hin lev Hlev.
  destruct (oc_corner_length _ _ _ _ H) as [L1 L2].
  destruct (oc_root _ _ _ _ H) as [R1 R2]. rewrite R1, R2 in *.
  assert (I := oc_new_inv _ _ _ _ H). destruct I as (Hn & H1 & H2 & H3 & _).
  destruct (oc_normalize_spec pt (oc_xmins o) (oc_xmaxs o) ltac:(lia) ltac:(lia)) as [N1 N2].
  { intros j Hj. split; [apply Hdom; lia|apply Hin; lia]. }
  set (xs := oc_normalize pt (oc_xmins o) (oc_xmaxs o)) in *.
  assert (X : forall j, (j < ndims)%nat -> 0 <= nth j xs 0 <= 1 /\
     nth j pt 0 = nth j (oc_xmins o) 0 + nth j xs 0 * (nth j (oc_xmaxs o) 0 - nth j (oc_xmins o) 0)).
  { intros j Hj. specialize (Hdom j Hj). specialize (Hin j Hj). rewrite (N2 j) by lia.
    split; [|field; lra]. split.
    - apply Rmult_le_pos; [lra|]. left. apply Rinv_0_lt_compat. lra.
    - apply Rmult_le_reg_r with (nth j (oc_xmaxs o) 0 - nth j (oc_xmins o) 0); [lra|].
      unfold Rdiv. rewrite Rmult_assoc, Rinv_l by lra. lra. }
  assert (B0 : base_ok 0 xs (repeat 0 ndims)).
  { split; [rewrite repeat_length; lia|]. intros j Hj. rewrite nth_repeat.
    destruct (X j ltac:(lia)) as [X1 _]. simpl. rewrite Rinv_1. split; lra. }
  destruct (oc_keyloop_spec ndims xs lev 0 (repeat 0 ndims) ltac:(lia) B0)
    as (ks & bs & K1 & K2 & K3 & K4 & K5).
  exists ks. split.
  { unfold oc_getKey. rewrite H3, H1. exact K1. }
  split; auto. split; auto. intros j Hj.
  destruct (X j Hj) as [X1 X2]. destruct K4 as [_ K4]. specialize (K4 j ltac:(lia)).
  specialize (K5 j Hj). rewrite nth_repeat in K5. simpl in K5. rewrite Rinv_1 in K5.
  specialize (Hdom j Hj). rewrite Nat.add_0_l in K4.
  destruct lev as [|lev'].
  - destruct ks; [|simpl in K2; lia]. rewrite R1, R2. specialize (Hin j Hj). split; [lra|].
    split; [|simpl; field]. destruct (Req_dec (nth j pt 0) (nth j (oc_xmaxs o) 0)); [right; auto|left; lra].
  - assert (V : valid_key ndims nlevs ks) by (split; auto; lia).
    assert (B := oc_key_box _ _ _ _ ks j H V Hj). cbv zeta in B. destruct B as [B1 B2].
    rewrite B1, B2, K2. set (f := dyad _) in *. set (w := nth j (oc_xmaxs o) 0 - nth j (oc_xmins o) 0) in *.
    assert (Hw : 0 < w) by (unfold w; lra).
    assert (Hb : nth j bs 0 = f) by lra. rewrite Hb in K4. destruct K4 as [K4a K4b].
    split.
    + rewrite X2. fold w. assert (f * w <= nth j xs 0 * w) by (apply Rmult_le_compat_r; lra). lra.
    + split.
      * rewrite X2. fold w.
        destruct (Req_dec (nth j xs 0 - f) (/ 2 ^ S lev')) as [E|E].
        -- right. specialize (K4b E). split.
           ++ replace (f + / 2 ^ S lev') with (nth j xs 0) by lra. reflexivity.
           ++ rewrite K4b. unfold w. ring.
        -- left. assert (nth j xs 0 * w < (f + / 2 ^ S lev') * w) by (apply Rmult_lt_compat_r; lra). lra.
      * field. apply pow_nonzero. lra.
Qed.

(** The stored key of each input point. *)
Theorem octree_stored_keys : forall nlevs ndims (points : list R) o,
  oc_new nlevs ndims points = Ret o ->
  (forall j, (j < ndims)%nat -> nth j (oc_getLo o []) 0 < nth j (oc_getHi o []) 0) ->
  length (oc_node2Key o) = (length points / ndims)%nat /\
  forall i, (i < length points / ndims)%nat ->
    let key := nth i (oc_node2Key o) [] in
    length key = nlevs /\
    forall j, (j < ndims)%nat ->
      nth j (oc_getLo o key) 0 <= nth (i * ndims + j) points 0 <= nth j (oc_getHi o key) 0.
Proof.
  intros nlevs ndims points o H Hdom.
  assert (I := oc_new_inv _ _ _ _ H). destruct I as (Hn & H1 & H2 & H3 & H4 & (c & H5) & H6).
  apply oc_attach_spec in H6. destruct H6 as [A1 A2]. split; auto.
  intros i Hi key. specialize (A2 i Hi). rewrite H1, H2 in A2. fold key in A2.
  set (pt := firstn ndims (skipn (i * ndims) points)) in *.
  assert (LB : (i * ndims + ndims <= length points)%nat).
  { assert (ndims * (length points / ndims) <= length points)%nat by (apply Nat.mul_div_le; lia). nia. }
  assert (Lpt : length pt = ndims).
  { unfold pt. rewrite firstn_length, skipn_length. lia. }
  assert (Npt : forall j, (j < ndims)%nat -> nth j pt 0 = nth (i * ndims + j) points 0).
  { intros j Hj. unfold pt. rewrite <- (firstn_skipn (i * ndims) points) at 2.
    rewrite app_nth2; rewrite firstn_length, Nat.min_l by lia; [|lia].
    replace (i * ndims + j - i * ndims)%nat with j by lia.
    rewrite <- (firstn_skipn ndims (skipn (i * ndims) points)) at 2.
    rewrite app_nth1; auto. unfold pt in Lpt. lia. }
  destruct (oc_root _ _ _ _ H) as [R1 R2].
  assert (MB := minmax_bounds ndims points 0 (repeat nmax ndims) (repeat (nopp nmax) ndims) _ Hn
    ltac:(lia) ltac:(apply repeat_length) ltac:(apply repeat_length) H5).
  destruct MB as [_ MB]. simpl in MB.
  assert (Hin : forall j, (j < ndims)%nat -> nth j (oc_getLo o []) 0 <= nth j pt 0 <= nth j (oc_getHi o []) 0).
  { intros j Hj. rewrite R1, R2, Npt by auto.
    specialize (MB (i * ndims + j)%nat ltac:(lia)). rewrite Z.add_0_l in MB.
    replace (Z.to_nat (Z.of_nat (i * ndims + j) mod Z.of_nat ndims)) with j in MB; auto.
    rewrite Nat2Z.inj_add, Nat2Z.inj_mul, Z.add_comm, Z.mod_add, Z.mod_small by lia. lia. }
  destruct (octree_point_in_box _ _ _ _ H Hdom pt Lpt Hin nlevs ltac:(lia)) as (k & K1 & K2 & K3 & K4).
  assert (k = key) by congruence. subst k. split; auto.
  intros j Hj. destruct (K4 j Hj) as (B1 & B2 & _). rewrite <- Npt by auto. split; auto.
  destruct B2 as [B2|[B2 _]]; lra.
Qed.

(** ** Children tile their parent *)
Lemma digit_binary : forall p q, digit p q = 0%Z \/ digit p q = 1%Z.
Proof. intros. unfold digit. assert (H := Z.mod_pos_bound (q / p) 2 ltac:(lia)). lia. Qed.

Lemma dyad_app : forall a b, dyad (a ++ b) = dyad a + dyad b / 2 ^ length a.
Proof.
  induction a as [|x a IH]; intros b; simpl.
  - field.
  - rewrite IH. field. apply pow_nonzero. lra.
Qed.

(** Box of a key of length 0 .. (valid or empty). *)
Lemma oc_key_box0 : forall nlevs ndims (points : list R) o key j, oc_new nlevs ndims points = Ret o ->
  (key = [] \/ valid_key ndims nlevs key) -> (j < ndims)%nat ->
  let w := nth j (oc_xmaxs o) 0 - nth j (oc_xmins o) 0 in
  let f := dyad (map (digit (2 ^ (Z.of_nat ndims - 1 - Z.of_nat j))) key) in
  nth j (oc_getLo o key) 0 = nth j (oc_xmins o) 0 + f * w /\
  nth j (oc_getHi o key) 0 = nth j (oc_xmins o) 0 + (f + / 2 ^ length key) * w.
Proof.
  intros nlevs ndims points o key j H [->|V] Hj w f.
  - destruct (oc_root _ _ _ _ H) as [R1 R2]. rewrite R1, R2. unfold f, w. simpl. split; field.
  - exact (oc_key_box _ _ _ _ _ _ H V Hj).
Qed.

Lemma oc_child_box : forall nlevs ndims (points : list R) o key q j, oc_new nlevs ndims points = Ret o ->
  (key = [] \/ valid_key ndims nlevs key) -> valid_key ndims nlevs (key ++ [q]) -> (j < ndims)%nat ->
  let b := IZR (digit (2 ^ (Z.of_nat ndims - 1 - Z.of_nat j)) q) in
  let lo := nth j (oc_getLo o key) 0 in
  let hi := nth j (oc_getHi o key) 0 in
  nth j (oc_getLo o (key ++ [q])) 0 = lo + b * ((hi - lo) / 2) /\
  nth j (oc_getHi o (key ++ [q])) 0 = lo + (b + 1) * ((hi - lo) / 2).
Proof.
  intros nlevs ndims points o key q j H V V2 Hj b lo hi.
  destruct (oc_key_box0 _ _ _ _ key j H V Hj) as [A1 A2].
  destruct (oc_key_box _ _ _ _ _ j H V2 Hj) as [B1 B2].
  unfold lo, hi. rewrite A1, A2, B1, B2.
  rewrite map_app, dyad_app, map_length, app_length. simpl map. simpl dyad. fold b.
  simpl length. rewrite pow_add. simpl pow.
  assert (2 ^ length key <> 0) by (apply pow_nonzero; lra).
  split; field; auto.
Qed.

(** Two different quadrant numbers differ in some binary digit. *)
Lemma digits_inj : forall n p q, (0 <= p < 2 ^ Z.of_nat n)%Z -> (0 <= q < 2 ^ Z.of_nat n)%Z ->
  (forall j, (j < n)%nat -> digit (2 ^ (Z.of_nat n - 1 - Z.of_nat j)) p = digit (2 ^ (Z.of_nat n - 1 - Z.of_nat j)) q) ->
  p = q.
Proof.
  induction n; intros p q Hp Hq H.
  - simpl in *. change (2 ^ Z.of_nat 0)%Z with 1%Z in *. lia.
  - rewrite Nat2Z.inj_succ, Z.pow_succ_r in Hp, Hq by lia.
    assert (P : (0 < 2 ^ Z.of_nat n)%Z) by lia.
    assert (H0 := H 0%nat ltac:(lia)).
    replace (Z.of_nat (S n) - 1 - Z.of_nat 0)%Z with (Z.of_nat n) in H0 by lia. unfold digit in H0.
    rewrite (Z.mod_small (p / _)) in H0.
    2:{ split; [apply Z.div_pos; lia|apply Z.div_lt_upper_bound; lia]. }
    rewrite (Z.mod_small (q / _)) in H0.
    2:{ split; [apply Z.div_pos; lia|apply Z.div_lt_upper_bound; lia]. }
    assert (E : (p mod 2 ^ Z.of_nat n = q mod 2 ^ Z.of_nat n)%Z).
    { apply IHn; try (apply Z.mod_pos_bound; lia). intros j Hj.
      assert (HS := H (S j) ltac:(lia)).
      replace (Z.of_nat (S n) - 1 - Z.of_nat (S j))%Z with (Z.of_nat n - 1 - Z.of_nat j)%Z in HS by lia.
      assert (DM : forall z, (0 <= z)%Z -> digit (2 ^ (Z.of_nat n - 1 - Z.of_nat j)) (z mod 2 ^ Z.of_nat n)
                     = digit (2 ^ (Z.of_nat n - 1 - Z.of_nat j)) z).
      { intros z Hz. unfold digit.
        set (m := (Z.of_nat n - 1 - Z.of_nat j)%Z). assert (Hm : (0 <= m < Z.of_nat n)%Z) by lia.
        rewrite <- !Z.shiftr_div_pow2 by lia. rewrite <- !Z.bit0_mod.
        rewrite !Z.shiftr_spec by lia. rewrite Z.mod_pow2_bits_low by lia. reflexivity. }
      rewrite !DM by lia. exact HS. }
    rewrite (Z.div_mod p (2 ^ Z.of_nat n)), (Z.div_mod q (2 ^ Z.of_nat n)) by lia. rewrite H0, E. reflexivity.
Qed.

(** A quadrant number with prescribed digits. *)
Lemma choose_digits : forall n (P : nat -> Z -> Prop),
  (forall j, (j < n)%nat -> exists b, (b = 0 \/ b = 1)%Z /\ P j b) ->
  exists q, (0 <= q < 2 ^ Z.of_nat n)%Z /\
    forall j, (j < n)%nat -> P j (digit (2 ^ (Z.of_nat n - 1 - Z.of_nat j)) q).
Proof.
  intros n P H.
  assert (exists inds, length inds = n /\ Forall (fun b => b = 0 \/ b = 1)%Z inds /\
            forall j, (j < n)%nat -> P j (nth j inds 0%Z)) as (inds & L & F & G).
  { clear - H. revert P H. induction n; intros P H.
    - exists []. repeat split; auto. intros; lia.
    - destruct (H 0%nat ltac:(lia)) as (b & Hb & Pb).
      destruct (IHn (fun j => P (S j))) as (inds & L & F & G).
      { intros j Hj. apply H. lia. }
      exists (b :: inds). split; [simpl; lia|]. split; [constructor; auto|].
      intros [|j] Hj; simpl; auto. apply G. lia. }
  exists (flat2 (oc_prods n) inds). split; [apply flat2_bounds; auto|].
  intros j Hj. assert (D := flat2_digit n inds j 0 L F Hj). rewrite Z.mul_0_l, Z.add_0_r in D.
  rewrite D. auto.
Qed.

Theorem octree_children_tile : forall nlevs ndims (points : list R) o,
  oc_new nlevs ndims points = Ret o ->
  (forall j, (j < ndims)%nat -> nth j (oc_getLo o []) 0 < nth j (oc_getHi o []) 0) ->
  forall key, (length key < nlevs)%nat -> (forall d, In d key -> (0 <= d < 2 ^ Z.of_nat ndims)%Z) ->
  (* children cover the parent *)
  (forall pt, (forall j, (j < ndims)%nat ->
      nth j (oc_getLo o key) 0 <= nth j pt 0 <= nth j (oc_getHi o key) 0) ->
    exists q, (0 <= q < 2 ^ Z.of_nat ndims)%Z /\ forall j, (j < ndims)%nat ->
      nth j (oc_getLo o (key ++ [q])) 0 <= nth j pt 0 <= nth j (oc_getHi o (key ++ [q])) 0) /\
  (* children are inside the parent *)
  (forall q j, (0 <= q < 2 ^ Z.of_nat ndims)%Z -> (j < ndims)%nat ->
      nth j (oc_getLo o key) 0 <= nth j (oc_getLo o (key ++ [q])) 0 /\
      nth j (oc_getLo o (key ++ [q])) 0 < nth j (oc_getHi o (key ++ [q])) 0 /\
      nth j (oc_getHi o (key ++ [q])) 0 <= nth j (oc_getHi o key) 0) /\
  (* distinct children have no common interior point *)
  (forall p q pt, (0 <= p < 2 ^ Z.of_nat ndims)%Z -> (0 <= q < 2 ^ Z.of_nat ndims)%Z -> p <> q ->
     (forall j, (j < ndims)%nat ->
        nth j (oc_getLo o (key ++ [p])) 0 < nth j pt 0 < nth j (oc_getHi o (key ++ [p])) 0) ->
     (forall j, (j < ndims)%nat ->
        nth j (oc_getLo o (key ++ [q])) 0 < nth j pt 0 < nth j (oc_getHi o (key ++ [q])) 0) -> False).
Proof.
  intros nlevs ndims points o H Hdom key Hlen Hdig.
  assert (V : key = [] \/ valid_key ndims nlevs key).
  { destruct key; auto. right. split; auto. cbn [length] in *. lia. }
  assert (V2 : forall q, (0 <= q < 2 ^ Z.of_nat ndims)%Z -> valid_key ndims nlevs (key ++ [q])).
  { intros q Hq. split; [rewrite app_length; cbn [length]; lia|]. intros d Hd. apply in_app_or in Hd.
    destruct Hd as [Hd|[<-|[]]]; auto. }
  assert (W : forall j, (j < ndims)%nat -> nth j (oc_getLo o key) 0 < nth j (oc_getHi o key) 0).
  { intros j Hj. destruct (oc_key_box0 _ _ _ _ key j H V Hj) as [A1 A2].
    destruct (oc_root _ _ _ _ H) as [R1 R2]. specialize (Hdom j Hj). rewrite R1, R2 in Hdom.
    rewrite A1, A2. set (w := nth j (oc_xmaxs o) 0 - nth j (oc_xmins o) 0) in *.
    assert (0 < / 2 ^ length key) by (apply Rinv_0_lt_compat, pow_lt; lra).
    assert (0 < / 2 ^ length key * w) by (apply Rmult_lt_0_compat; unfold w; lra). lra. }
  assert (C : forall q j, (0 <= q < 2 ^ Z.of_nat ndims)%Z -> (j < ndims)%nat ->
     let lo := nth j (oc_getLo o key) 0 in let hi := nth j (oc_getHi o key) 0 in
     let b := digit (2 ^ (Z.of_nat ndims - 1 - Z.of_nat j)) q in
     nth j (oc_getLo o (key ++ [q])) 0 = lo + IZR b * ((hi - lo) / 2) /\
     nth j (oc_getHi o (key ++ [q])) 0 = lo + (IZR b + 1) * ((hi - lo) / 2)).
  { intros q j Hq Hj. exact (oc_child_box _ _ _ _ _ _ _ H V (V2 q Hq) Hj). }
  split; [|split].
  - intros pt Hpt.
    destruct (choose_digits ndims (fun j b =>
       nth j (oc_getLo o key) 0 + IZR b * ((nth j (oc_getHi o key) 0 - nth j (oc_getLo o key) 0) / 2) <= nth j pt 0 <=
       nth j (oc_getLo o key) 0 + (IZR b + 1) * ((nth j (oc_getHi o key) 0 - nth j (oc_getLo o key) 0) / 2)))
      as (q & Hq & G).
    { intros j Hj. specialize (W j Hj). specialize (Hpt j Hj).
      destruct (Rle_dec (nth j pt 0) ((nth j (oc_getLo o key) 0 + nth j (oc_getHi o key) 0) / 2)).
      - exists 0%Z. split; auto. simpl. lra.
      - exists 1%Z. split; auto. simpl. lra. }
    exists q. split; auto. intros j Hj. destruct (C q j Hq Hj) as [C1 C2]. rewrite C1, C2. apply G; auto.
  - intros q j Hq Hj. destruct (C q j Hq Hj) as [C1 C2]. rewrite C1, C2. specialize (W j Hj).
    destruct (digit_binary (2 ^ (Z.of_nat ndims - 1 - Z.of_nat j)) q) as [E|E]; rewrite E; simpl; lra.
  - intros p q pt Hp Hq Hne Hpp Hqq. apply Hne. apply (digits_inj ndims); auto.
    intros j Hj. destruct (C p j Hp Hj) as [P1 P2]. destruct (C q j Hq Hj) as [Q1 Q2].
    specialize (W j Hj). specialize (Hpp j Hj). specialize (Hqq j Hj).
    rewrite P1, P2 in Hpp. rewrite Q1, Q2 in Hqq.
    destruct (digit_binary (2 ^ (Z.of_nat ndims - 1 - Z.of_nat j)) p) as [E|E];
    destruct (digit_binary (2 ^ (Z.of_nat ndims - 1 - Z.of_nat j)) q) as [E'|E'];
    rewrite E, E' in *; auto; simpl in *; lra.
Qed.
