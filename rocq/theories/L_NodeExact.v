(** Which destination nodes get weights, and where every search starts. *)
From Coq Require Import ZArith List Bool Lia.
From Verif Require Import Base Num M_LinearSolve M_FindPoint M_SideIterator M_NodeInterp
  L_LinearSolve L_Interp L_FindPoint L_NodeInterp.
Import ListNotations.
Open Scope Z_scope.

Section Exact.
Context {T : Type} {N : Num T}.

(** The search for the point [p] with a finder that holds the grid of [f], started at [start], ends
    with [code] (0 is found, -3 is outside of the bounding box). *)
Definition search_ends (g : gels T) (f : fp (T:=T)) (start p : list T) (code : Z) : Prop :=
  exists f', ni_findTarget g f start p = Ret (code, f').

(** It ends at a position with the weights [iw]. *)
Definition search_weights (g : gels T) (f : fp (T:=T)) (start p : list T) (iw : list (Z * T)) : Prop :=
  exists f', ni_findTarget g f start p = Ret (0, f') /\ fp_getSrcIndicesAndWeights f' (fp_dIndices f') = Ret iw.

(** The sides of the grid in the order in which they are tried, and the index positions there. *)
Definition nine_sides : list (Z * Z) := [(-1, -1); (-1, 0); (-1, 1); (0, -1); (0, 0); (0, 1); (1, -1); (1, 0); (1, 1)].
Definition side_pos (d0 d1 : Z) (s : Z * Z) : list T := [ndiv (nofZ ((fst s + 1) * (d0 - 1))) n2; ndiv (nofZ ((snd s + 1) * (d1 - 1))) n2].

(** The sides tried for [p]: those of [pre] without success, then [s] with success or as the last. *)
Definition sides_tried (g : gels T) (f : fp (T:=T)) (d0 d1 : Z) (p : list T) (sides : list (Z * Z)) (last : list T) : Prop :=
  exists pre s post, sides = pre ++ s :: post /\ last = side_pos d0 d1 s /\
    (forall s', In s' pre -> exists c, search_ends g f (side_pos d0 d1 s') p c /\ c <> 0) /\
    exists c, search_ends g f (side_pos d0 d1 s) p c /\ (c = 0 \/ post = []).

(** Where the search for the next node starts. *)
Definition next_start (g : gels T) (f : fp (T:=T)) (d0 d1 : Z) (p start start' : list T) : Prop :=
  exists code, search_ends g f start p code /\
    ((code = 0 \/ code = -3) /\ start' = start \/ code <> 0 /\ code <> -3 /\ sides_tried g f d0 d1 p nine_sides start').

Lemma ends_twin : forall g f f' start p code, twin f f' -> search_ends g f start p code -> search_ends g f' start p code.
Proof.
  intros g f f' start p code TW (h & E). destruct (twin_find g f f' start p TW) as [(u & A & _)|([a1 a2] & [b1 b2] & Ea & Eb & P1 & _)]; [congruence|].
  rewrite E in Ea. injection Ea as <- <-. cbn [fst] in P1. subst b1. exists b2. exact Eb.
Qed.

Lemma weights_twin : forall g f f' start p iw, twin f f' -> search_weights g f start p iw -> search_weights g f' start p iw.
Proof.
  intros g f f' start p iw TW (h & E & EW). destruct (twin_find g f f' start p TW) as [(u & A & _)|([a1 a2] & [b1 b2] & Ea & Eb & P1 & P2)]; [congruence|].
  rewrite E in Ea. injection Ea as <- <-. cbn [fst snd] in P1, P2. subst b1. exists b2. split; [exact Eb|].
  destruct P2 as (P2 & P3 & _). rewrite <- P3, <- (weights_ext h b2) by apply P2. exact EW.
Qed.

Lemma side_list : forall i s rest, (0 <= i < 9) -> skipn (Z.to_nat i) nine_sides = s :: rest ->
  side_get (mkSide i 9 [3; 1]) = Ret [fst s; snd s] /\ (rest = [] <-> i = 8) /\ skipn (Z.to_nat (i + 1)) nine_sides = rest.
Proof.
  intros i s rest H E. assert (C : (i = 0 \/ i = 1 \/ i = 2 \/ i = 3 \/ i = 4 \/ i = 5 \/ i = 6 \/ i = 7 \/ i = 8)) by lia.
  repeat (destruct C as [-> |C]; [injection E as <- <-; (split; [vm_compute; reflexivity|split; [split; discriminate|reflexivity]])|]).
  subst. injection E as <- <-. split; [vm_compute; reflexivity|split; [split; auto|reflexivity]].
Qed.

Lemma sideGuess_pos : forall s d0 d1 guess, ni_sideGuess [fst s; snd s] (d0 - 1) (d1 - 1) = Ret guess -> guess = side_pos d0 d1 s.
Proof.
  intros [a b] d0 d1 guess H. unfold ni_sideGuess in H. change (vget [fst (a, b); snd (a, b)] 0) with (Ret a) in H. change (vget [fst (a, b); snd (a, b)] 1) with (Ret b) in H. cbn [bind] in H.
  do 4 (apply bind_ret_inv in H; let C := fresh in destruct H as (? & C & H); apply chk_inv in C; destruct C as [-> _]). injection H as <-. reflexivity.
Qed.

Lemma retry_sides : forall g d0 d1 p f0 fuel i f guess ier f' guess', twin f0 f -> (0 <= i < 9) -> (9 <= i + Z.of_nat fuel) ->
  ni_retry g fuel (mkSide i 9 [3; 1]) (d0 - 1) (d1 - 1) p f guess = Ret (ier, f', guess') ->
  sides_tried g f0 d0 d1 p (skipn (Z.to_nat i) nine_sides) guess'.
Proof.
  intros g d0 d1 p f0. induction fuel as [|fuel IH]; intros i f guess ier f' guess' TW Hi Hf H; [lia|].
  destruct (skipn (Z.to_nat i) nine_sides) as [|s rest] eqn:ES.
  { exfalso. apply (f_equal (@length _)) in ES. rewrite skipn_length in ES. change (length nine_sides) with 9%nat in ES. cbn [length] in ES. lia. }
  destruct (side_list i s rest Hi ES) as (EG & RE & ER). cbn [ni_retry] in H. rewrite EG in H. cbn [bind] in H.
  apply bind_ret_inv in H. destruct H as (g1 & HG & H). apply sideGuess_pos in HG. subst g1.
  apply bind_ret_inv in H. destruct H as ([code f1] & HF & H). cbn [fst snd] in H.
  assert (SE : search_ends g f0 (side_pos d0 d1 s) p code) by (apply (ends_twin g f f0); [apply twin_sym; exact TW|exists f1; exact HF]).
  unfold side_next at 1 in H. cbn [sd_index sd_numElems sd_prodDims fst snd] in H.
  assert (W : wrap64 (i + 1) = i + 1) by (apply wrap64_small; lia). rewrite W in H.
  assert (TW1 : twin f0 f1).
  { apply (twin_trans f0 f f1 TW). apply find_result in HF; [apply HF| |].
    - assert (E : fp_dims f0 = fp_dims f) by apply TW. rewrite <- E. apply TW.
    - apply TW. }
  destruct ((if i + 1 <? 9 then 0 else 1) =? 1) eqn:E1; cbn [orb] in H.
  - injection H as <- <- <-. exists [], s, rest. split; [reflexivity|]. split; [reflexivity|]. split; [intros s' []|]. exists code. split; [exact SE|].
    right. apply RE. destruct (Z.ltb_spec (i + 1) 9); [discriminate|lia].
  - destruct (Z.eqb_spec code 0) as [E0|E0].
    + injection H as <- <- <-. exists [], s, rest. split; [reflexivity|]. split; [reflexivity|]. split; [intros s' []|]. exists code. auto.
    + destruct (Z.ltb_spec (i + 1) 9); [|discriminate]. unfold side_next in H. cbn [sd_index sd_numElems sd_prodDims snd] in H. rewrite W in H.
      assert (X := IH (i + 1) f1 _ ier f' guess' TW1 ltac:(lia) ltac:(lia) H). rewrite ER in X.
      destruct X as (pre & s1 & post & X1 & X2 & X3 & X4). exists (s :: pre), s1, post. split; [rewrite X1; reflexivity|]. split; [exact X2|]. split; [|exact X4].
      intros s' [<-|I]; [eauto|]. apply X3. exact I.
Qed.

Lemma insert_new : forall {V} k (v : V) m, (forall w, ~ In (k, w) m) -> In (k, v) (map_insert k v m).
Proof.
  intros V k v m OLD. induction m as [|[k' v'] m' IHm]; cbn [map_insert]; [simpl; auto|].
  destruct (k <? k'); [simpl; auto|]. destruct (Z.eqb_spec k k').
  - subst. exfalso. apply (OLD v'). simpl. auto.
  - simpl. right. apply IHm. intros iw' C. apply (OLD iw'). simpl. auto.
Qed.

Lemma insert_old : forall {V} k (v : V) m j w, In (j, w) m -> j <> k -> In (j, w) (map_insert k v m).
Proof.
  intros V k v m j w Hin Hne. induction m as [|[k' v'] m' IHm]; [destruct Hin|].
  cbn [map_insert]. destruct (k <? k'); [simpl in *; auto|].
  destruct (k =? k'); auto. destruct Hin as [Hin|Hin]; simpl; auto.
Qed.

Theorem exact_nodes : forall g (s s' : ni (T:=T)) d0 d1 n dc,
  fp_dims (ni_finder s) <> [] -> solver_ok (ni_finder s) ->
  ni_src s = Some (d0, d1) -> ni_dst s = Some (n, dc) -> ni_computeWeights g s = Ret s' ->
  exists start : Z -> list T, start 0 = start_guess d0 d1 /\
    forall k, 0 <= k < n -> exists x y, vget dc (k * 2) = Ret x /\ vget dc (k * 2 + 1) = Ret y /\
      next_start g (ni_finder s) d0 d1 [x; y] (start k) (start (k + 1)) /\
      ((exists iw, In (k, iw) (ni_weights s')) <-> search_ends g (ni_finder s) (start k) [x; y] 0) /\
      (forall iw, In (k, iw) (ni_weights s') <-> search_weights g (ni_finder s) (start k) [x; y] iw).
Proof.
  intros g s s' d0 d1 n dc D W ES ED H. unfold ni_computeWeights in H. rewrite ES, ED in H.
  apply bind_ret_inv in H. destruct H as (e0 & C0 & H). apply bind_ret_inv in H. destruct H as (e1 & C1 & H).
  apply chk_inv in C0. apply chk_inv in C1. destruct C0 as [-> _]. destruct C1 as [-> _].
  apply bind_ret_inv in H. destruct H as ([[f' g'] w'] & HF & H). injection H as <-. cbn [ni_weights].
  fold (start_guess (T:=T) d0 d1) in HF.
  assert (A : forall m f1 g1 w1, (Z.of_nat m <= n) ->
    foldM (ni_node g dc (d0 - 1) (d1 - 1)) (zseq m) (ni_finder s, start_guess d0 d1, []) = Ret (f1, g1, w1) ->
    twin (ni_finder s) f1 /\ keys_ok 0 (Z.of_nat m) w1 /\ exists start : Z -> list T, start 0 = start_guess d0 d1 /\ start (Z.of_nat m) = g1 /\
    forall k, 0 <= k < Z.of_nat m -> exists x y, vget dc (k * 2) = Ret x /\ vget dc (k * 2 + 1) = Ret y /\
      next_start g (ni_finder s) d0 d1 [x; y] (start k) (start (k + 1)) /\
      ((exists iw, In (k, iw) w1) <-> search_ends g (ni_finder s) (start k) [x; y] 0) /\
      (forall iw, In (k, iw) w1 <-> search_weights g (ni_finder s) (start k) [x; y] iw)).
  { induction m as [|m IH]; intros f1 g1 w1 Hm HM.
    - change (zseq 0) with (@nil Z) in HM. injection HM as <- <- <-. split; [apply twin_refl; auto|].
      split; [split; [intros j w []|constructor]|]. exists (fun _ => start_guess d0 d1). split; auto. split; auto. intros; lia.
    - rewrite zseq_S, foldM_app in HM. apply bind_ret_inv in HM. destruct HM as ([[f2 g2] w2] & H1 & HM).
      destruct (IH _ _ _ ltac:(lia) H1) as (T1 & K1 & start & S0 & SM & E1). cbn [foldM] in HM.
      apply bind_ret_inv in HM. destruct HM as ([[f3 g3] w3] & H2 & HM). injection HM as <- <- <-.
      assert (D2 : fp_dims f2 <> []) by (assert (E : fp_dims (ni_finder s) = fp_dims f2) by apply T1; congruence).
      assert (T2 : twin f2 f3) by (apply node_twin in H2; auto; apply T1).
      split; [eapply twin_trans; eauto|].
      unfold ni_node in H2. apply bind_ret_inv in H2. destruct H2 as (x & Ex & H2).
      apply bind_ret_inv in H2. destruct H2 as (y & Ey & H2). apply bind_ret_inv in H2. destruct H2 as ([code h] & EF & H2). cbn [fst snd] in H2.
      assert (TH : twin (ni_finder s) h) by (apply (twin_trans _ f2); auto; apply find_result in EF; [apply EF|auto|apply T1]).
      assert (SE : search_ends g (ni_finder s) g2 [x; y] code) by (apply (ends_twin g f2); [apply twin_sym; exact T1|exists h; exact EF]).
      assert (UN : search_ends g (ni_finder s) g2 [x; y] 0 -> code = 0) by (intros (u & U); destruct SE as (v & V); rewrite U in V; injection V as <- _; reflexivity).
      replace (Z.of_nat (S m)) with (Z.of_nat m + 1) by lia.
      assert (OLD : forall iw, ~ In (Z.of_nat m, iw) w2) by (intros iw Hin; apply K1 in Hin; lia).
      assert (KEY : keys_ok 0 (Z.of_nat m + 1) w3 -> next_start g (ni_finder s) d0 d1 [x; y] g2 g3 -> ((exists iw, In (Z.of_nat m, iw) w3) <-> code = 0) -> (forall iw, In (Z.of_nat m, iw) w3 <-> search_weights g (ni_finder s) g2 [x; y] iw) ->
        (forall j iw, j <> Z.of_nat m -> (In (j, iw) w3 <-> In (j, iw) w2)) ->
        keys_ok 0 (Z.of_nat m + 1) w3 /\ exists start : Z -> list T, start 0 = start_guess d0 d1 /\ start (Z.of_nat m + 1) = g3 /\
          forall k, 0 <= k < Z.of_nat m + 1 -> exists x y, vget dc (k * 2) = Ret x /\ vget dc (k * 2 + 1) = Ret y /\
          next_start g (ni_finder s) d0 d1 [x; y] (start k) (start (k + 1)) /\
          ((exists iw, In (k, iw) w3) <-> search_ends g (ni_finder s) (start k) [x; y] 0) /\
          (forall iw, In (k, iw) w3 <-> search_weights g (ni_finder s) (start k) [x; y] iw)).
      { intros KO NS HW HI HO. split; auto. exists (fun j => if j =? Z.of_nat m + 1 then g3 else start j).
        split; [destruct (Z.eqb_spec 0 (Z.of_nat m + 1)); [lia|exact S0]|]. split; [rewrite Z.eqb_refl; reflexivity|].
        intros k Hk. destruct (Z.eqb_spec k (Z.of_nat m + 1)); [lia|]. destruct (Z.eqb_spec (k + 1) (Z.of_nat m + 1)) as [Q|Q].
        - assert (k = Z.of_nat m) by lia. subst k. rewrite SM. exists x, y. split; auto. split; auto. split; auto. split; [|exact HI]. rewrite HW. split; [intros ->; exact SE|exact UN].
        - destruct (E1 k ltac:(lia)) as (x' & y' & X1 & X2 & X3 & X4 & X5). exists x', y'. split; auto. split; auto. split; auto.
          split; [rewrite <- X4|intros iw; rewrite <- X5; apply (HO k iw); lia]. split; intros (iw & I); exists iw; apply (HO k iw ltac:(lia)); exact I. }
      destruct (Z.eqb_spec code 0) as [E0|E0].
      + apply bind_ret_inv in H2. destruct H2 as (iw & HW & H2). injection H2 as <- <- <-. apply KEY.
        * apply insert_keys; auto; lia.
        * exists code. auto.
        * split; auto. intros _. exists iw. apply insert_new. exact OLD.
        * assert (SW : search_weights g (ni_finder s) g2 [x; y] iw) by (apply (weights_twin g f2); [apply twin_sym; exact T1|exists h; rewrite <- E0; auto]).
          intros iw'. split; [intros I; apply insert_in in I; destruct I as [[_ ->]|I]; [exact SW|exfalso; eapply OLD; eauto]|].
          intros (u & U1 & U2). destruct SW as (v & V1 & V2). rewrite U1 in V1. injection V1 as <-. rewrite U2 in V2. injection V2 as <-. apply insert_new. exact OLD.
        * intros j iw' Hj. split; [|intros I; apply insert_old; auto]. intros I. apply insert_in in I. destruct I as [[C _]|I]; [contradiction|exact I].
      + assert (NO : (exists iw, In (Z.of_nat m, iw) w2) <-> code = 0) by (split; [intros (iw & I); exfalso; eapply OLD; eauto|contradiction]).
        assert (NI : forall iw, In (Z.of_nat m, iw) w2 <-> search_weights g (ni_finder s) g2 [x; y] iw).
        { intros iw. split; [intros I; exfalso; eapply OLD; eauto|]. intros (u & U & _). exfalso. apply E0. apply UN. exists u. exact U. }
        assert (KM : keys_ok 0 (Z.of_nat m + 1) w2) by (eapply keys_mono; eauto; lia).
        destruct (Z.eqb_spec code (-3)) as [E3|E3].
        * injection H2 as <- <- <-. apply KEY; auto; [exists code; auto|reflexivity].
        * apply bind_ret_inv in H2. destruct H2 as (sit & HS & H2). change (side_new 2) with (Ret (mkSide 0 9 [3; 1])) in HS. injection HS as <-.
          apply bind_ret_inv in H2. destruct H2 as ([[ier h'] gg] & HR & H2). change (side_reset (mkSide 0 9 [3; 1])) with (mkSide 0 9 [3; 1]) in HR.
          assert (ST := retry_sides g d0 d1 [x; y] (ni_finder s) 10 0 h g2 ier h' gg TH ltac:(lia) ltac:(lia) HR).
          assert (R3 : g3 = gg /\ w3 = w2) by (destruct (ier =? 0); [injection H2 as <- <- <-; auto|apply bind_ret_inv in H2; destruct H2 as (? & _ & H2); injection H2 as <- <- <-; auto]).
          destruct R3 as [-> ->]. apply KEY; auto; [|reflexivity]. exists code. split; [exact SE|]. right. split; auto. }
  destruct (Z_lt_le_dec n 0) as [Hn|Hn]; [exists (fun _ => start_guess d0 d1); split; auto; intros; lia|].
  unfold range in HF. destruct (A (Z.to_nat n) _ _ _ ltac:(lia) HF) as (_ & _ & start & S0 & _ & B). exists start. split; auto. intros k Hk. apply B. lia.
Qed.

(** ** Later nodes do not matter *)
Lemma node_shape : forall g dc c0 c1 st k st', ni_node g dc c0 c1 st k = Ret st' -> snd st' = snd st \/ exists iw, snd st' = map_insert k iw (snd st).
Proof.
  intros g dc c0 c1 [[f guess] ws] k st' H. unfold ni_node in H. apply bind_ret_inv in H. destruct H as (x & _ & H). apply bind_ret_inv in H. destruct H as (y & _ & H).
  apply bind_ret_inv in H. destruct H as (r & _ & H). destruct (fst r =? 0); [apply bind_ret_inv in H; destruct H as (iw & _ & H); injection H as <-; right; exists iw; reflexivity|].
  destruct (fst r =? -3); [injection H as <-; left; reflexivity|]. apply bind_ret_inv in H. destruct H as (sit & _ & H). apply bind_ret_inv in H. destruct H as ([[i h] gg] & _ & H). left.
  destruct (i =? 0); [injection H as <-; reflexivity|]. apply bind_ret_inv in H. destruct H as (? & _ & H). injection H as <-. reflexivity.
Qed.

Lemma later_nodes : forall g dc c0 c1 l st st' j iw, (forall k, In k l -> k <> j) -> foldM (ni_node g dc c0 c1) l st = Ret st' ->
  (In (j, iw) (snd st') <-> In (j, iw) (snd st)).
Proof.
  intros g dc c0 c1. induction l as [|k l IH]; intros st st' j iw HL H; [injection H as <-; reflexivity|].
  cbn [foldM] in H. apply bind_ret_inv in H. destruct H as (st1 & H1 & H2). rewrite (IH st1 st' j iw); [|intros k' I; apply HL; right; exact I|exact H2].
  assert (Hk : k <> j) by (apply HL; left; reflexivity).
  apply node_shape in H1. destruct H1 as [->|(w & ->)]; [reflexivity|]. split; [|intros I; apply insert_old; auto].
  intros I. apply insert_in in I. destruct I as [[C _]|I]; [congruence|exact I].
Qed.

Lemma foldM_same : forall {A B} (f h : B -> A -> exec B) l b, (forall a, In a l -> forall b, f b a = h b a) -> foldM f l b = foldM h l b.
Proof.
  intros A B f h. induction l as [|a l IH]; intros b H; [reflexivity|]. cbn [foldM]. rewrite (H a ltac:(left; reflexivity)).
  destruct (h b a); cbn [bind]; [|reflexivity]. apply IH. intros a' I. apply H. right. exact I.
Qed.

Lemma zseq_split : forall m n, (m <= n)%nat -> exists l, zseq n = zseq m ++ l /\ forall k, In k l -> Z.of_nat m <= k.
Proof.
  intros m n H. exists (map Z.of_nat (seq m (n - m))). split.
  - unfold zseq. rewrite <- map_app, <- seq_app. f_equal. f_equal. lia.
  - intros k I. apply in_map_iff in I. destruct I as (i & <- & I). apply in_seq in I. lia.
Qed.

Theorem prefix_nodes : forall g (s1 s2 s1' s2' : ni (T:=T)) d0 d1 n1 n2 dc1 dc2 k,
  twin (ni_finder s1) (ni_finder s2) ->
  ni_src s1 = Some (d0, d1) -> ni_src s2 = Some (d0, d1) -> ni_dst s1 = Some (n1, dc1) -> ni_dst s2 = Some (n2, dc2) ->
  0 <= k < n1 -> k < n2 -> (forall i, 0 <= i < 2 * (k + 1) -> vget dc1 i = vget dc2 i) ->
  ni_computeWeights g s1 = Ret s1' -> ni_computeWeights g s2 = Ret s2' ->
  forall j iw, 0 <= j <= k -> (In (j, iw) (ni_weights s1') <-> In (j, iw) (ni_weights s2')).
Proof.
  intros g s1 s2 s1' s2' d0 d1 m1 m2 dc1 dc2 k TW ES1 ES2 ED1 ED2 K1 K2 HV H1 H2 j iw Hj.
  unfold ni_computeWeights in H1, H2. rewrite ES1, ED1 in H1. rewrite ES2, ED2 in H2.
  apply bind_ret_inv in H1. destruct H1 as (e0 & C0 & H1). rewrite C0 in H2. cbn [bind] in H2. apply bind_ret_inv in H1. destruct H1 as (e1 & C1 & H1). rewrite C1 in H2. cbn [bind] in H2.
  set (guess := [_; _]) in *.
  apply bind_ret_inv in H1. destruct H1 as ([[f1 g1] w1] & F1 & H1). injection H1 as <-.
  apply bind_ret_inv in H2. destruct H2 as ([[f2 g2] w2] & F2 & H2). injection H2 as <-. cbn [ni_weights].
  unfold range in F1, F2.
  destruct (zseq_split (Z.to_nat (k + 1)) (Z.to_nat m1) ltac:(lia)) as (l1 & L1 & B1). destruct (zseq_split (Z.to_nat (k + 1)) (Z.to_nat m2) ltac:(lia)) as (l2 & L2 & B2).
  rewrite L1, foldM_app in F1. rewrite L2, foldM_app in F2. apply bind_ret_inv in F1. destruct F1 as (a1 & A1 & F1). apply bind_ret_inv in F2. destruct F2 as (a2 & A2 & F2).
  assert (X1 := later_nodes g dc1 e0 e1 l1 a1 _ j iw ltac:(intros i I; apply B1 in I; lia) F1). assert (X2 := later_nodes g dc2 e0 e1 l2 a2 _ j iw ltac:(intros i I; apply B2 in I; lia) F2).
  cbn [snd] in X1, X2. rewrite X1, X2.
  rewrite (foldM_same _ (ni_node g dc2 e0 e1)) in A1.
  2:{ intros i I [[f gg] ws]. apply in_range in I || (unfold zseq in I; apply in_map_iff in I; destruct I as (u & <- & I); apply in_seq in I).
      unfold ni_node. rewrite !HV by lia. reflexivity. }
  destruct (twin_foldM g dc2 e0 e1 (zseq (Z.to_nat (k + 1))) (ni_finder s1, guess, []) (ni_finder s2, guess, [])) as [(u & U1 & _)|(b1 & b2 & U1 & U2 & P)]; [split; auto|congruence|].
  rewrite A1 in U1. rewrite A2 in U2. injection U1 as <-. injection U2 as <-. destruct P as (_ & _ & ->). reflexivity.
Qed.

End Exact.
