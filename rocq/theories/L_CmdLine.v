(** Proofs about the command line parser. *)
From Coq Require Import ZArith List Bool String Ascii Lia.
From Verif Require Import Base Num M_CmdLine.
Import ListNotations.
Open Scope Z_scope.

Lemma m_find_map : forall {V} (f : string -> V -> V) (m : list (string * V)) k,
  m_find (map (fun kv => (fst kv, f (fst kv) (snd kv))) m) k =
  match m_find m k with Some v => Some (f k v) | None => None end.
Proof.
  induction m as [|[k' v] m IH]; intros k; simpl; auto.
  destruct (String.eqb k' k) eqn:E; auto. apply String.eqb_eq in E. subst. reflexivity.
Qed.

Lemma m_find_set : forall {V} (m : list (string * V)) k v k',
  m_find (m_set m k v) k' = if String.eqb k k' then Some v else m_find m k'.
Proof.
  induction m as [|[q w] m IH]; intros k v k'; simpl.
  - reflexivity.
  - destruct (String.eqb q k) eqn:E.
    + apply String.eqb_eq in E. subst. simpl. destruct (String.eqb k k'); auto.
    + simpl. rewrite IH. destruct (String.eqb q k') eqn:E2; auto.
      destruct (String.eqb k k') eqn:E3; auto.
      apply String.eqb_eq in E2. apply String.eqb_eq in E3. subst.
      rewrite String.eqb_refl in E. discriminate.
Qed.

(** Arguments that look like an option: a dash followed by a non-digit. *)
Definition looks_like_option (a : string) : Prop :=
  exists c rest, a = String "-" (String c rest) /\ ~ (48 <= nat_of_ascii c <= 57)%nat.

Lemma is_option_name_spec : forall a, is_option_name a = true <-> looks_like_option a.
Proof.
  intros a. unfold looks_like_option. split.
  - destruct a as [|c0 [|c1 r]]; simpl; try discriminate. intros H.
    apply andb_true_iff in H. destruct H as [H1 H2]. apply Ascii.eqb_eq in H1. subst.
    exists c1, r. split; auto. apply negb_true_iff in H2. unfold is_digit in H2.
    apply andb_false_iff in H2. rewrite !Nat.leb_gt in H2. lia.
  - intros (c & r & -> & H). simpl. apply negb_true_iff. unfold is_digit.
    apply andb_false_iff. rewrite !Nat.leb_gt. lia.
Qed.

Section Generic.
Context {T : Type} {N : Num T}.
Variable atof : string -> T.
Variable atoi : string -> Z.

Definition registered (p : parser (T:=T)) (a : string) : Prop :=
  (exists v, m_find (p_double p) a = Some v) \/ (exists v, m_find (p_int p) a = Some v) \/
  (exists v, m_find (p_string p) a = Some v) \/ (exists v, m_find (p_bool p) a = Some v).

Lemma m_mem_spec : forall {V} (m : list (string * V)) a, m_mem m a = true <-> exists v, m_find m a = Some v.
Proof.
  intros V m a. unfold m_mem. destruct (m_find m a) as [v|]; split; intros H; eauto; try discriminate.
  destruct H; discriminate.
Qed.

Lemma is_registered_spec : forall p a, is_registered p a = true <-> registered p a.
Proof.
  intros. unfold is_registered, registered. rewrite !orb_true_iff, !m_mem_spec. tauto.
Qed.

Theorem parse_rejects : forall p args,
  (fst (p_parse atof atoi p args) = false <->
   exists a, In a args /\ looks_like_option a /\ ~ registered p a) /\
  (fst (p_parse atof atoi p args) = false -> snd (p_parse atof atoi p args) = p).
Proof.
  intros p args. unfold p_parse.
  destruct (existsb (fun a => is_option_name a && negb (is_registered p a)) args) eqn:E; simpl.
  - split; auto. split; auto. intros _. apply existsb_exists in E.
    destruct E as (a & Ha & H). apply andb_true_iff in H. destruct H as [H1 H2].
    exists a. split; auto. split; [apply is_option_name_spec; auto|].
    intros R. apply is_registered_spec in R. rewrite R in H2. discriminate.
  - split; [|discriminate]. split; [discriminate|]. intros (a & Ha & H1 & H2).
    assert (C : existsb (fun a => is_option_name a && negb (is_registered p a)) args = true).
    { apply existsb_exists. exists a. split; auto. apply andb_true_iff. split.
      - apply is_option_name_spec; auto.
      - apply negb_true_iff. destruct (is_registered p a) eqn:R; auto.
        apply is_registered_spec in R. tauto. }
    congruence.
Qed.

(** The scan in terms of occurrences. *)
Lemma p_scan_none : forall {V} (conv : string -> V) key args v,
  ~ In key (removelast args) -> p_scan conv key false v args = v.
Proof.
  intros V conv key. induction args as [|a args IH]; intros v H; simpl; auto.
  destruct args as [|b args]; [reflexivity|].
  destruct (String.eqb key a) eqn:E.
  - exfalso. apply H. apply String.eqb_eq in E. subst. left. reflexivity.
  - apply IH. intros C. apply H. right. exact C.
Qed.

Lemma p_scan_last : forall {V} (conv : string -> V) key pre v0 v post flag,
  ~ In key (removelast (v :: post)) ->
  p_scan conv key flag v0 (pre ++ key :: v :: post) = conv v.
Proof.
  intros V conv key. induction pre as [|a pre IH]; intros v0 v post flag H.
  - simpl. rewrite String.eqb_refl.
    destruct post as [|b post]; [reflexivity|].
    assert (E : String.eqb key v = false).
    { apply String.eqb_neq. intros ->. apply H. left. reflexivity. }
    rewrite E. apply (p_scan_none conv key (b :: post)). intros C. apply H. right. exact C.
  - simpl. apply IH. exact H.
Qed.

Lemma p_flip_count : forall key args v,
  p_flip key v args = xorb v (Nat.odd (count_occ string_dec args key)).
Proof.
  induction args as [|a args IH]; intros v; simpl.
  - rewrite xorb_false_r. reflexivity.
  - rewrite IH. destruct (string_dec a key) as [->|H].
    + rewrite String.eqb_refl. rewrite Nat.odd_succ, <- Nat.negb_odd.
      destruct v, (Nat.odd (count_occ string_dec args key)); reflexivity.
    + apply String.eqb_neq in H. rewrite H. reflexivity.
Qed.

Definition last_value {V} (conv : string -> V) (key : string) (args : list string) (default r : V) : Prop :=
  (forall pre v post, args = pre ++ key :: v :: post -> ~ In key (removelast (v :: post)) -> r = conv v) /\
  (~ In key (removelast args) -> r = default).

Lemma scan_last_value : forall {V} (conv : string -> V) key args d,
  last_value conv key args d (p_scan conv key false d args).
Proof.
  intros. split.
  - intros pre v post -> H. apply p_scan_last. exact H.
  - apply p_scan_none.
Qed.

(** The two cases of [last_value] are exhaustive: the specification determines the value. *)
Lemma last_value_exhaustive : forall key (args : list string),
  (exists pre v post, args = pre ++ key :: v :: post /\ ~ In key (removelast (v :: post))) \/
  ~ In key (removelast args).
Proof.
  intros key. induction args as [|a args IH].
  - right. simpl. tauto.
  - destruct IH as [(pre & v & post & -> & H)|H].
    + left. exists (a :: pre), v, post. auto.
    + destruct args as [|b args].
      * right. simpl. tauto.
      * destruct (string_dec a key) as [->|Hne].
        -- left. exists [], b, args. auto.
        -- right. intros [C|C]; [congruence|]. apply H. exact C.
Qed.

Theorem parse_last_wins : forall p args p', p_parse atof atoi p args = (true, p') ->
  forall name,
  (forall d, m_find (p_double p) name = Some d -> last_value atof name args d (p_getDouble p' name)) /\
  (forall d, m_find (p_int p) name = Some d -> last_value atoi name args d (p_getInt p' name)) /\
  (forall d, m_find (p_string p) name = Some d -> last_value (fun s => s) name args d (p_getString p' name)) /\
  (forall d, m_find (p_bool p) name = Some d ->
     p_getBool p' name = xorb d (Nat.odd (count_occ string_dec args name))).
Proof.
  intros p args p' H name. unfold p_parse in H.
  destruct (existsb _ args); [discriminate|]. injection H as <-.
  unfold p_getDouble, p_getInt, p_getString, p_getBool.
  cbn [p_double p_int p_string p_bool].
  rewrite (m_find_map (fun k v => p_scan atof k false v args)).
  rewrite (m_find_map (fun k v => p_scan atoi k false v args)).
  rewrite (m_find_map (fun k v => p_scan (fun s => s) k false v args)).
  rewrite (m_find_map (fun k v => p_flip k v args)).
  split; [|split; [|split]]; intros d ->; try apply scan_last_value.
  apply p_flip_count.
Qed.

(** ** Fields between commas *)
Definition no_comma (s : string) : Prop := forall n, String.get n s <> Some ","%char.

Lemma no_comma_cons : forall c s, no_comma (String c s) <-> c <> ","%char /\ no_comma s.
Proof.
  intros. unfold no_comma. split.
  - intros H. split.
    + intros ->. apply (H 0%nat). reflexivity.
    + intros n. apply (H (S n)).
  - intros [H1 H2] [|n]; simpl; [congruence|apply H2].
Qed.

Lemma s_find_none : forall s, no_comma s -> s_find ","%char s 0 = None.
Proof.
  induction s as [|c s IH]; intros H; simpl; auto.
  apply no_comma_cons in H. destruct H as [H1 H2]. apply Ascii.eqb_neq in H1. rewrite H1.
  rewrite IH by auto. reflexivity.
Qed.

Lemma s_find_app : forall s r, no_comma s ->
  s_find ","%char (s ++ String ","%char r) 0 = Some (String.length s).
Proof.
  induction s as [|c s IH]; intros r H; simpl; auto.
  apply no_comma_cons in H. destruct H as [H1 H2]. apply Ascii.eqb_neq in H1. rewrite H1.
  rewrite IH by auto. reflexivity.
Qed.

Lemma s_find_shift : forall pre s, s_find ","%char (pre ++ s) (String.length pre) =
  match s_find ","%char s 0 with Some n => Some (String.length pre + n)%nat | None => None end.
Proof.
  induction pre as [|c pre IH]; intros s; simpl.
  - destruct (s_find _ s 0); reflexivity.
  - rewrite IH. destruct (s_find _ s 0); reflexivity.
Qed.

Lemma str_app_assoc : forall a b c : string, ((a ++ b) ++ c = a ++ (b ++ c))%string.
Proof. induction a; simpl; intros; auto. rewrite IHa. reflexivity. Qed.

Lemma str_app_nil : forall a : string, (a ++ "" = a)%string.
Proof. induction a; simpl; auto. rewrite IHa. reflexivity. Qed.

Lemma str_app_length : forall a b : string, String.length (a ++ b) = (String.length a + String.length b)%nat.
Proof. induction a; simpl; intros; auto. Qed.

Lemma substring_mid : forall pre f r,
  substring (String.length pre) (String.length f) (pre ++ (f ++ r)) = f.
Proof.
  induction pre as [|c pre IH]; intros f r; simpl.
  - induction f as [|c f IHf]; simpl; [destruct r; reflexivity|rewrite IHf; reflexivity].
  - apply IH.
Qed.

Fixpoint join (f : string) (fs : list string) : string :=
  match fs with
  | [] => f
  | g :: fs' => (f ++ String ","%char (join g fs'))%string
  end.

Lemma p_fields_join : forall fs f pre fuel, Forall no_comma (f :: fs) -> (List.length fs <= fuel)%nat ->
  p_fields fuel (pre ++ join f fs) (String.length pre) = (removelast (f :: fs), last (f :: fs) ""%string).
Proof.
  induction fs as [|g fs IH]; intros f pre fuel HF Hfuel; inversion HF; subst.
  - simpl join.
    assert (E : p_fields fuel (pre ++ f) (String.length pre) =
       ([], substring (String.length pre) (String.length (pre ++ f) - String.length pre) (pre ++ f))).
    { destruct fuel; cbn [p_fields]; rewrite s_find_shift, s_find_none by auto; reflexivity. }
    rewrite E. simpl. f_equal. rewrite str_app_length.
    replace (String.length pre + String.length f - String.length pre)%nat with (String.length f) by lia.
    rewrite <- (str_app_nil f) at 2. apply substring_mid.
  - destruct fuel as [|fuel]; [simpl in Hfuel; lia|].
    cbn [join p_fields]. rewrite s_find_shift, s_find_app by auto.
    replace (pre ++ f ++ String "," (join g fs))%string
      with ((pre ++ f ++ ",") ++ join g fs)%string
      by (rewrite !str_app_assoc; reflexivity).
    replace (String.length pre + String.length f + 1)%nat with (String.length (pre ++ f ++ ","))
      by (rewrite !str_app_length; simpl; lia).
    rewrite IH; auto; [|simpl in Hfuel; lia].
    replace (String.length pre + String.length f - String.length pre)%nat with (String.length f) by lia.
    rewrite !str_app_assoc. rewrite substring_mid. reflexivity.
Qed.

Lemma join_length : forall fs f, (List.length fs <= String.length (join f fs))%nat.
Proof.
  induction fs as [|g fs IH]; intros f; simpl; [lia|].
  rewrite str_app_length. simpl. specialize (IH g). lia.
Qed.

Lemma join_concat : forall fs f, String.concat "," (f :: fs) = join f fs.
Proof.
  induction fs as [|g fs IH]; intros f; auto.
  change (String.concat "," (f :: g :: fs)) with (f ++ "," ++ String.concat "," (g :: fs))%string.
  rewrite IH. reflexivity.
Qed.

Lemma fields_concat : forall fields, fields <> [] -> Forall no_comma fields ->
  p_fields (S (String.length (String.concat "," fields))) (String.concat "," fields) 0 =
  (removelast fields, last fields ""%string).
Proof.
  intros [|f fs] Hne HF; [congruence|]. rewrite join_concat.
  apply (p_fields_join fs f ""%string); auto. assert (L := join_length fs f). lia.
Qed.

Lemma vec_double_fields : forall p name fields,
  fields <> [] -> Forall no_comma fields -> String.concat "," fields <> ""%string ->
  m_find (p_string p) name = Some (String.concat "," fields) ->
  p_getVecDouble atof p name = map atof fields.
Proof.
  intros p name fields Hne HF Hs Hf. unfold p_getVecDouble. rewrite Hf.
  destruct (String.concat "," fields) as [|c s] eqn:E; [congruence|]. rewrite <- E.
  rewrite fields_concat by auto.
  change [atof (last fields ""%string)] with (map atof [last fields ""%string]). rewrite <- map_app.
  rewrite <- app_removelast_last by auto. reflexivity.
Qed.

Lemma vec_int_fields : forall p name fields,
  fields <> [] -> Forall no_comma fields -> String.concat "," fields <> ""%string ->
  m_find (p_string p) name = Some (String.concat "," fields) ->
  to_int (atof (last fields ""%string)) = Ret (atoi (last fields ""%string)) ->
  p_getVecInt atof atoi p name = Ret (map atoi fields).
Proof.
  intros p name fields Hne HF Hs Hf Hl. unfold p_getVecInt. rewrite Hf.
  destruct (String.concat "," fields) as [|c s] eqn:E; [congruence|]. rewrite <- E.
  rewrite fields_concat by auto. rewrite Hl. simpl bind.
  change [atoi (last fields ""%string)] with (map atoi [last fields ""%string]). rewrite <- map_app.
  rewrite <- app_removelast_last by auto. reflexivity.
Qed.

End Generic.

Section Props.
Context {T : Type}.
Variable atof : string -> T.
Variable atoi : string -> Z.

Lemma parse_bool_flips : forall (p : parser (T:=T)) args p', p_parse atof atoi p args = (true, p') ->
  forall name d, m_find (p_bool p) name = Some d ->
  p_getBool p' name = xorb d (Nat.odd (count_occ string_dec args name)).
Proof.
  intros p args p' H name d Hd. unfold p_parse in H.
  destruct (existsb _ args); [discriminate|]. injection H as <-.
  unfold p_getBool. cbn [p_bool].
  rewrite (m_find_map (fun k v => p_flip k v args)), Hd. apply p_flip_count.
Qed.

Lemma parse_negative_fraction : forall (p : parser (T:=T)) pre post opt,
  ~ registered p "-.5" -> p_parse atof atoi p (pre ++ opt :: "-.5"%string :: post) = (false, p).
Proof.
  intros p pre post opt H.
  destruct (parse_rejects atof atoi p (pre ++ opt :: "-.5"%string :: post)) as [H1 H2].
  assert (F : fst (p_parse atof atoi p (pre ++ opt :: "-.5"%string :: post)) = false).
  { apply H1. exists "-.5"%string. split; [apply in_or_app; right; right; left; reflexivity|].
    split; auto. exists "."%char, "5"%string. split; auto. vm_compute. lia. }
  specialize (H2 F). destruct (p_parse _ _ _ _). simpl in *. subst. reflexivity.
Qed.

Lemma parse_number_ok : forall (N : Num T) (p : parser (T:=T)) opt v d,
  m_find (p_double p) opt = Some d ->
  (forall rest, v <> String "-" rest) \/
    (exists c rest, v = String "-" (String c rest) /\ (48 <= nat_of_ascii c <= 57)%nat) ->
  exists p', p_parse atof atoi p [opt; v] = (true, p') /\ p_getDouble p' opt = atof v.
Proof.
  intros N p opt v d Hd Hv.
  destruct (parse_rejects atof atoi p [opt; v]) as [H1 _].
  destruct (p_parse atof atoi p [opt; v]) as [b p'] eqn:E. simpl in H1.
  destruct b.
  - exists p'. split; auto.
    destruct (parse_last_wins atof atoi p [opt; v] p' E opt) as (H2 & _).
    destruct (H2 d Hd) as [H3 _]. apply (H3 [] v []); auto.
  - exfalso. destruct H1 as [H1 _]. destruct (H1 eq_refl) as (a & [<-|[<-|[]]] & L & R).
    + apply R. left. eauto.
    + destruct L as (c & r & -> & L). destruct Hv as [Hv|(c' & r' & E' & Hv)].
      * eapply Hv. reflexivity.
      * injection E' as <- <-. tauto.
Qed.
End Props.
