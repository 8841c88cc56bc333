(** Search for the cells under a polygon, exact arithmetic. *)
From Coq Require Import ZArith List Bool Lia Reals Lra R_Ifp FinFun.
From Verif Require Import Base Num NumR M_LinearSolve M_BoxIterator M_FindPoint M_NodeInterp M_FindOverlap S_Grid S_Box
  L_LinearSolve L_Interp L_FindPoint L_FindPointR L_FindPointB L_FindPointG L_NodeInterp L_NodeInterpR L_Box.
Import ListNotations.
Open Scope R_scope.

Lemma castable_R : forall x : R, - IZR (2 ^ 31) < x < IZR (2 ^ 31) -> castable x.
Proof.
  intros x Hx. exists (Int_part x). assert (B := Int_part_bounds x). apply to_int_floor.
  assert (A1 : (- 2 ^ 31 - 1 < Int_part x)%Z).
  { apply lt_IZR. rewrite minus_IZR, opp_IZR. lra. }
  assert (A2 : (Int_part x < 2 ^ 31)%Z) by (apply lt_IZR; lra).
  unfold int_min, int_max. lia.
Qed.

(** Indices between 0 and 2^30, inside the grid or not. *)
Definition near (xs : list R) : Prop := List.Forall (fun x => 0 <= x <= IZR (2 ^ 31 - 1)) xs.

Lemma big31 : IZR (2 ^ 31) = IZR (2 ^ 31 - 1) + 1 /\ 1 < IZR (2 ^ 31 - 1).
Proof. split; [rewrite <- plus_IZR; reflexivity|]. apply IZR_lt. lia. Qed.

Lemma good_safe : forall dims coords (s : fp (T:=R)), grid_data dims coords -> fp_holds dims s -> fp_coords s = coords ->
  length (fp_period s) = length dims -> length (fp_target s) = length dims -> solver_ok s ->
  length (fp_dIndices s) = length dims -> near (fp_dIndices s) -> fp_safe dims coords s.
Proof.
  intros dims coords s HD Hh Hc Hp Ht W L NR. destruct big31 as [B1 B2].
  assert (FC : List.Forall castable (fp_dIndices s)).
  { eapply Forall_impl; [|exact NR]. intros x Hx. cbv beta in Hx. apply castable_R. lra. }
  repeat (split; [assumption|]).
  assert (Hok : grid_ok dims) by apply HD. clear - NR L Hok B1 B2. revert L NR. generalize (fp_dIndices s). intros xs. revert xs.
  induction dims as [|d ds IH]; intros [|x xs] L NR; try discriminate; constructor.
  - apply grid_ok_cons in Hok. destruct Hok as (Hd & _). apply Forall_cons_iff in NR. destruct NR as [Hx _].
    assert (D1 : 1 <= IZR (d - 1)) by (apply IZR_le; lia). assert (D2 : IZR (d - 1) <= IZR (2 ^ 31 - 2)) by (apply IZR_le; lia).
    assert (B3 : IZR (2 ^ 31 - 2) = IZR (2 ^ 31 - 1) - 1) by (rewrite <- minus_IZR; reflexivity).
    unfold fd_hi, fd_lo. cbn [nadd nsub nle nofZ NumR]. change (nhalf : R) with (1 / 2). change (n0 : R) with 0.
    split; apply castable_R; rcase; lra.
  - apply grid_ok_cons in Hok. apply Forall_cons_iff in NR. apply IH; [apply Hok|simpl in L; lia|apply NR].
Qed.

Lemma in_grid_near : forall dims xs, grid_ok dims -> in_grid dims xs -> near xs.
Proof.
  intros dims xs Hok H. induction H as [|d x ds xs Hx H IH]; constructor.
  - apply grid_ok_cons in Hok. destruct Hok as (Hd & _). assert (IZR (d - 1) <= IZR (2 ^ 31 - 1)) by (apply IZR_le; lia). lra.
  - apply IH. apply grid_ok_cons in Hok. apply Hok.
Qed.

Lemma loop_good : forall g dims coords fuel (s : fp (T:=R)), fp_good dims coords s -> (0 <= fp_iter s)%Z -> (fp_iter s + Z.of_nat fuel <= int_max)%Z ->
  exists r, fp_loop g fuel s = Ret r /\ forall code s', r = Some (code, s') -> in_grid dims (fp_dIndices s').
Proof.
  intros g dims coords. induction fuel as [|fuel IH]; intros s G I0 I1.
  - exists None. split; [reflexivity|]. intros. discriminate.
  - cbn [fp_loop]. destruct (next_total g dims coords s G ltac:(lia)) as (code & s' & E & G' & _ & I). rewrite E. cbn [bind fst snd].
    destruct (Z.eqb_spec code 0).
    + apply IH; auto; lia.
    + eexists. split; [reflexivity|]. intros c s2 Q. injection Q as <- <-. apply G'.
Qed.

(** A search from a guess that need not be in the grid. *)
Lemma search_near : forall g dims coords (f : fp (T:=R)) guess target, fp_ready dims coords f -> near guess -> length guess = length dims ->
  length target = length dims -> (1 <= fp_nitermax f < int_max)%Z ->
  exists f1 code f2, fp_reset f guess target = Ret f1 /\ fp_search g f1 = Ret (code, f2) /\ twin f f2 /\ fp_ready dims coords f2 /\
    (in_grid dims (fp_dIndices f2) \/ (code = (-3)%Z /\ fp_dIndices f2 = guess)) /\ length (fp_dIndices f2) = length dims.
Proof.
  intros g dims coords f guess target F NG LG LT NI. assert (F' := F). destruct F' as (A1 & A2 & A3 & A4 & A5 & A6).
  assert (Hd : fp_dims f = dims) by apply A2. assert (D : fp_dims f <> []) by (rewrite Hd; apply A1).
  assert (RO := reset_ok f guess target ltac:(congruence) ltac:(congruence)). set (s := mkFp _ _ _ _ _ _ _ _ _ _ _ _ _ _ _) in *.
  exists s. assert (SF : fp_safe dims coords s) by (apply good_safe; auto).
  assert (TW0 : twin f s) by (split; [exact D|]; split; [repeat split|]; split; [exact A5|exact A5]).
  assert (FIN : forall code f2, fp_loop g (S (Z.to_nat (fp_nitermax s))) s = Ret (Some (code, f2)) ->
     (in_grid dims (fp_dIndices f2) \/ (code = (-3)%Z /\ fp_dIndices f2 = guess)) ->
     exists code f2, fp_reset f guess target = Ret s /\ fp_search g s = Ret (code, f2) /\ twin f f2 /\ fp_ready dims coords f2 /\
    (in_grid dims (fp_dIndices f2) \/ (code = (-3)%Z /\ fp_dIndices f2 = guess)) /\ length (fp_dIndices f2) = length dims).
  { intros code f2 E IG. exists code, f2. split; [exact RO|]. split; [unfold fp_search; rewrite E; reflexivity|].
    assert (TW : twin s f2) by (apply (loop_result g _ s (code, f2)) in E; [apply E|exact D|exact A5]).
    split; [exact (twin_trans f s f2 TW0 TW)|]. split; [|split; [exact IG|destruct IG as [IG|[_ IG]]; [apply in_grid_length; exact IG|rewrite IG; exact LG]]].
    apply (ready_twin _ _ s); [|exact TW]. apply (ready_twin _ _ f); auto. }
  destruct (next_safe g dims coords s SF ltac:(cbn; unfold int_max; lia)) as [E|(steps & new & LS & EN & _ & C)].
  - apply (FIN (-3)%Z s); [|right; auto]. cbn [fp_loop]. rewrite E. reflexivity.
  - assert (IG : in_grid dims new) by (rewrite EN; apply truncate_in_grid; auto; apply A1).
    assert (CN : List.Forall castable new).
    { destruct big31 as [B1 B2]. eapply Forall_impl; [|apply (in_grid_near dims new); [apply A1|exact IG]]. intros x Hx. cbv beta in Hx. apply castable_R. lra. }
    destruct C as [(u & _ & NC)|(code & s' & E & EI & _ & SG & ET & W & IT & _)]; [contradiction|].
    destruct (Z.eq_dec code 0) as [->|NZ].
    + assert (G' : fp_good dims coords s').
      { destruct SG as (G1 & G2 & G3 & G4 & G5 & G6 & G7 & G8 & G9). destruct A2 as (H1 & H2 & H3).
        unfold fp_good, fp_holds. rewrite <- G1, <- G4, <- G5, <- G6, <- G7, ET, EI. repeat (split; [first [assumption|split; [assumption|split; assumption]]|]). exact IG. }
      assert (NI' : fp_nitermax s' = fp_nitermax f) by (symmetry; apply SG).
      destruct (loop_good g dims coords (Z.to_nat (fp_nitermax s)) s' G') as (r & EL & IR); [rewrite IT; cbn; lia|rewrite IT; cbn; lia|].
      assert (TM := loop_terminates g (Z.to_nat (fp_nitermax s)) s'). destruct r as [[c f2]|].
      2:{ exfalso. apply TM; auto; [cbn; lia|rewrite NI', IT; cbn; lia]. }
      apply (FIN c f2); [|left; eapply IR; reflexivity]. cbn [fp_loop]. rewrite E. cbn [bind fst snd]. exact EL.
    + apply (FIN code s'); [|left; rewrite EI; exact IG]. cbn [fp_loop]. rewrite E. cbn [bind fst snd].
      destruct (Z.eqb_spec code 0); [contradiction|reflexivity].
Qed.

(** ** The index box *)
Lemma to_int_ceil : forall x, (int_min <= - Int_part (- x) <= int_max)%Z -> to_int (nceil x) = Ret (- Int_part (- x))%Z.
Proof.
  intros x H. unfold to_int, nceil. cbn [ntoZ nfloor nopp NumR]. rewrite <- opp_IZR, Rtrunc_IZR.
  unfold in_int. destruct H as [H1 H2]. apply Z.leb_le in H1. apply Z.leb_le in H2. rewrite H1, H2. reflexivity.
Qed.

Lemma floor_lt : forall x a, (Int_part x <= a)%Z <-> x < IZR a + 1.
Proof.
  intros x a. assert (B := Int_part_bounds x). split; intros H.
  - apply IZR_le in H. lra.
  - apply Z.lt_succ_r. apply lt_IZR. rewrite succ_IZR. lra.
Qed.

Lemma ceil_gt : forall x a, (a < - Int_part (- x))%Z <-> IZR a < x.
Proof.
  intros x a. assert (B := Int_part_bounds (- x)). split; intros H.
  - assert (H' : (a <= - Int_part (- x) - 1)%Z) by lia. apply IZR_le in H'. rewrite minus_IZR, opp_IZR in H'. lra.
  - assert (Int_part (- x) < - a)%Z; [|lia]. apply lt_IZR. rewrite opp_IZR. lra.
Qed.

(** What is known of one axis after the positions [qs]. *)
Definition axis_box (m : R) (qs : list R) (b : R * R) : Prop :=
  (0 <= fst b <= m /\ 0 <= snd b <= m) /\
  (forall q, In q qs -> fst b <= q) /\ (fst b = m \/ In (fst b) qs) /\
  (forall q, In q qs -> Rmin q m <= snd b) /\ (snd b = 0 \/ exists q, In q qs /\ snd b = Rmin q m).

Lemma axis_widen : forall m qs b x, 0 <= m -> 0 <= x -> axis_box m qs b -> axis_box m (qs ++ [x]) (fo_widen m x b).
Proof.
  intros m qs [lo hi] x Hm Hx ((A1 & A2) & A3 & A4 & A5 & A6). unfold axis_box, fo_widen. cbn [fst snd] in *.
  cbn [nlt nle NumR]. change (n0 : R) with 0.
  assert (IA : forall q, In q (qs ++ [x]) <-> In q qs \/ q = x) by (intros q; rewrite in_app_iff; cbn [In]; intuition).
  assert (L1 : (if Rltb x lo then x else lo) = Rmin x lo) by (unfold Rmin; rcase; destruct (Rle_dec x lo); lra).
  assert (L2 : (if Rltb hi x then x else hi) = Rmax x hi) by (unfold Rmax; rcase; destruct (Rle_dec x hi); lra).
  rewrite L1, L2.
  assert (L3 : (if Rleb 0 (Rmin x lo) then Rmin x lo else 0) = Rmin x lo).
  { rcase; auto. assert (0 <= Rmin x lo) by (apply Rmin_glb; lra). lra. }
  assert (L4 : (if Rleb (Rmax x hi) m then Rmax x hi else m) = Rmin (Rmax x hi) m) by (unfold Rmin; rcase; destruct (Rle_dec (Rmax x hi) m); lra).
  rewrite L3, L4. unfold Rmin, Rmax in *. split; [split|split; [|split; [|split]]].
  - destruct (Rle_dec x lo); lra.
  - destruct (Rle_dec x hi); match goal with |- context [Rle_dec ?a m] => destruct (Rle_dec a m) end; lra.
  - intros q Hq. apply IA in Hq. destruct Hq as [Hq| ->]; [specialize (A3 q Hq)|]; destruct (Rle_dec x lo); lra.
  - destruct (Rle_dec x lo) as [|NL]; [right; apply IA; auto|]. destruct A4 as [A4|A4]; [left; auto|right; apply IA; auto].
  - intros q Hq. apply IA in Hq.
    destruct Hq as [Hq| ->]; [specialize (A5 q Hq); destruct (Rle_dec q m)|destruct (Rle_dec x m)];
      destruct (Rle_dec x hi); match goal with |- context [Rle_dec ?a m] => destruct (Rle_dec a m) end; lra.
  - destruct (Rle_dec x hi) as [XL|XG].
    + assert (E : (if Rle_dec hi m then hi else m) = hi) by (destruct (Rle_dec hi m); lra). rewrite E.
      destruct A6 as [A6|(q & Q1 & Q2)]; [left; auto|right; exists q; split; [apply IA; auto|auto]].
    + right. exists x. split; [apply IA; auto|]. reflexivity.
Qed.

Definition positions (qs : list (list R)) (j : nat) : list R := map (fun q => nth j q 0) qs.

(** Target of the search for a point of a flat array. *)
Lemma reset_prefix : forall {T} {N : Num T} (f : fp (T:=T)) guess x y rest, length (fp_dims f) = 2%nat -> fp_reset f guess (x :: y :: rest) = fp_reset f guess [x; y].
Proof. intros T N f guess x y rest L. unfold fp_reset. rewrite L. reflexivity. Qed.

Definition flat_points {T} (poly : list (T * T)) : list T := flat_map (fun p => [fst p; snd p]) poly.

Lemma flat_skip : forall {T} i (poly : list (T * T)), skipn (2 * i) (flat_points poly) = flat_points (skipn i poly).
Proof.
  intros T. induction i as [|i IH]; intros poly; [reflexivity|]. destruct poly as [|[x y] poly]; [rewrite skipn_nil; reflexivity|].
  replace (2 * S i)%nat with (S (S (2 * i))) by lia. cbn [flat_points flat_map app fst snd skipn]. apply IH.
Qed.

Lemma guess_near : forall d0 d1, (2 <= d0 <= 2 ^ 31 - 1)%Z -> (2 <= d1 <= 2 ^ 31 - 1)%Z -> near (fo_guess d0 d1).
Proof.
  intros d0 d1 H0 H1. unfold fo_guess. rewrite !lit_R. cbn [ndiv nofZ NumR].
  assert (A0 : 2 <= IZR d0 <= IZR (2 ^ 31 - 1)) by (split; apply IZR_le; lia). assert (A1 : 2 <= IZR d1 <= IZR (2 ^ 31 - 1)) by (split; apply IZR_le; lia).
  change (IZR (10 ^ 6)) with 1000000. change (IZR (10 ^ 7)) with 10000000.
  apply Forall_cons; [|apply Forall_cons; [|constructor]].
  - replace (IZR d0 / (2123353 / 1000000)) with (IZR d0 * (1000000 / 2123353)) by field. split; nra.
  - replace (IZR d1 / (19647354 / 10000000)) with (IZR d1 * (10000000 / 19647354)) by field. split; nra.
Qed.

(** One point, then all. *)
Definition found {T} {N : Num T} (g : gels T) (f : fp (T:=T)) (guess : list T) (p : T * T) (q : list T) : Prop :=
  exists f1 code f2, fp_reset f guess [fst p; snd p] = Ret f1 /\ fp_search g f1 = Ret (code, f2) /\ fp_dIndices f2 = q.

Lemma twin_search : forall {T} {N : Num T} g (f f' : fp (T:=T)) guess p q, twin f f' -> found g f guess p q -> found g f' guess p q.
Proof.
  intros T N g f f' guess p q TW (f1 & code & f2 & E1 & E2 & E3).
  assert (T2 := twin_find g f f' guess [fst p; snd p] TW). unfold ni_findTarget in T2. rewrite E1 in T2. cbn [bind] in T2. rewrite E2 in T2. cbn [bind fst snd] in T2.
  destruct (fp_reset f' guess [fst p; snd p]) as [h1|u] eqn:R1; cbn [bind] in T2.
  2:{ exfalso. destruct T2 as [(u' & X & _)|(a & b & _ & X & _)]; [destruct (0 <? code)%Z; discriminate|discriminate]. }
  destruct (fp_search g h1) as [[c h2]|u] eqn:R2; cbn [bind fst snd] in T2.
  2:{ exfalso. destruct T2 as [(u' & X & _)|(a & b & _ & X & _)]; [destruct (0 <? code)%Z; discriminate|discriminate]. }
  exists h1, c, h2. split; auto. split; auto.
  destruct T2 as [(u' & X & _)|(a & b & X & Y & _ & (_ & XI & _))]; [destruct (0 <? code)%Z; discriminate|].
  rewrite <- E3. destruct (0 <? code)%Z; injection X as <-; destruct (0 <? c)%Z; injection Y as <-; cbn [snd] in XI; auto.
Qed.

Lemma points_total : forall g d0 d1 coords (f0 : fp (T:=R)) poly, fp_ready [d0; d1] coords f0 -> (1 <= fp_nitermax f0 < int_max)%Z ->
  forall rest k f b0 b1 qs, skipn k poly = rest -> twin f0 f -> fp_ready [d0; d1] coords f ->
  axis_box (IZR (d0 - 1)) (positions qs 0) b0 -> axis_box (IZR (d1 - 1)) (positions qs 1) b1 ->
  exists f' b0' b1' qs', foldM (fo_point g d0 d1 (IZR (d0 - 1)) (IZR (d1 - 1)) (flat_points poly)) (map Z.of_nat (seq k (length rest))) (f, (b0, b1)) = Ret (f', (b0', b1')) /\
    twin f0 f' /\ fp_ready [d0; d1] coords f' /\
    Forall2 (found g f0 (fo_guess d0 d1)) rest qs' /\ List.Forall (fun q => in_grid [d0; d1] q \/ q = fo_guess d0 d1) qs' /\
    axis_box (IZR (d0 - 1)) (positions (qs ++ qs') 0) b0' /\ axis_box (IZR (d1 - 1)) (positions (qs ++ qs') 1) b1'.
Proof.
  intros g d0 d1 coords f0 poly F0 NI. induction rest as [|[x y] rest IH]; intros k f b0 b1 qs SK TW F B0 B1.
  - exists f, b0, b1, []. rewrite app_nil_r. split; [reflexivity|]. split; [exact TW|]. split; [exact F|]. split; [constructor|]. split; [constructor|]. split; assumption.
  - assert (HD := F). destruct HD as (HD & HH & _). assert (Hok : grid_ok [d0; d1]) by apply HD.
    assert (D0 := dims_ge2 [d0; d1] 0 Hok ltac:(simpl; lia)). assert (D1 := dims_ge2 [d0; d1] 1 Hok ltac:(simpl; lia)). cbn [nth] in D0, D1.
    assert (NIf : fp_nitermax f = fp_nitermax f0) by (destruct TW as (_ & G & _); symmetry; apply G).
    destruct (search_near g [d0; d1] coords f (fo_guess d0 d1) [x; y] F (guess_near d0 d1 D0 D1) eq_refl eq_refl ltac:(lia)) as (f1 & code & f2 & E1 & E2 & TW2 & F2 & IG & L2).
    cbn [length seq map foldM]. unfold fo_point at 1. cbn [fst snd].
    replace (Z.to_nat (Z.of_nat k * 2)) with (2 * k)%nat by lia. rewrite flat_skip, SK. cbn [flat_points flat_map app fst snd].
    assert (LD : length (fp_dims f) = 2%nat) by (destruct HH as (-> & _); reflexivity).
    rewrite reset_prefix, E1 by auto. cbn [bind]. rewrite E2. cbn [bind snd].
    remember (fp_dIndices f2) as q eqn:EQ. destruct q as [|qx [|qy [|]]]; try discriminate L2. rewrite (vget_nth [qx; qy] 0 0), (vget_nth [qx; qy] 1 0) by (simpl; lia). cbn [bind Z.to_nat nth].
    change (Pos.to_nat 1) with 1%nat. cbn [nth].
    assert (P01 : 0 <= qx /\ 0 <= qy).
    { destruct IG as [IG|[_ IG]].
      - inversion IG as [|? ? ? ? Q1 Q2]; subst. inversion Q2 as [|? ? ? ? Q3 Q4]; subst. lra.
      - assert (GN := guess_near d0 d1 D0 D1). rewrite <- IG in GN. apply Forall_cons_iff in GN. destruct GN as [Q1 Q2]. apply Forall_cons_iff in Q2. lra. }
    assert (M0 : 0 <= IZR (d0 - 1)) by (apply IZR_le; lia). assert (M1 : 0 <= IZR (d1 - 1)) by (apply IZR_le; lia).
    destruct (IH (S k) f2 (fo_widen (IZR (d0 - 1)) qx b0) (fo_widen (IZR (d1 - 1)) qy b1) (qs ++ [[qx; qy]])) as (f' & b0' & b1' & qs' & A1 & A2 & A3 & A4 & A5 & A6 & A7).
    + clear - SK. revert poly SK. induction k as [|k IHk]; intros poly SK; [cbn [skipn] in *; rewrite SK; reflexivity|]. destruct poly as [|p poly]; [discriminate|]. apply IHk. exact SK.
    + exact (twin_trans _ _ _ TW TW2).
    + exact F2.
    + unfold positions. rewrite map_app. cbn [map nth]. apply axis_widen; auto; apply P01.
    + unfold positions. rewrite map_app. cbn [map nth]. apply axis_widen; auto; apply P01.
    + exists f', b0', b1', ([qx; qy] :: qs'). split; [exact A1|]. split; auto. split; auto. split.
      { constructor; auto. apply (twin_search g f f0); [apply twin_sym; exact TW|]. exists f1, code, f2. auto. }
      split; [constructor; auto; destruct IG as [IG|[_ IG]]; auto|]. rewrite <- app_assoc in A6, A7. auto.
Qed.

(** ** The cells of an index box *)
Open Scope Z_scope.

Definition box_cells (d1 a0 a1 n0 n1 : Z) : list Z := map (fun k => d1 * (a0 + k / n1) + (a1 + k mod n1)) (range (n0 * n1)).

Lemma box_cells_in : forall d1 a0 a1 n0 n1 k, 0 <= n0 -> 0 <= n1 ->
  (In k (box_cells d1 a0 a1 n0 n1) <-> exists a b, k = d1 * a + b /\ a0 <= a < a0 + n0 /\ a1 <= b < a1 + n1).
Proof.
  intros d1 a0 a1 n0 n1 k H0 H1. unfold box_cells. rewrite in_map_iff. split.
  - intros (x & <- & I). apply in_range in I. assert (0 < n1) by nia.
    assert (Q := Z.div_mod x n1 ltac:(lia)). assert (M := Z.mod_pos_bound x n1 ltac:(lia)).
    exists (a0 + x / n1), (a1 + x mod n1). split; auto. assert (0 <= x / n1) by (apply Z.div_pos; lia). assert (x / n1 < n0) by nia. lia.
  - intros (a & b & -> & A & B). exists ((a - a0) * n1 + (b - a1)). split.
    + replace (((a - a0) * n1 + (b - a1)) / n1) with (a - a0) by (apply Z.div_unique with (b - a1); lia).
      replace (((a - a0) * n1 + (b - a1)) mod n1) with (b - a1) by (apply Z.mod_unique with (a - a0); lia). lia.
    + apply in_range. nia.
Qed.

Lemma NoDup_map_on : forall {A B} (f : A -> B) l, NoDup l -> (forall x y, In x l -> In y l -> f x = f y -> x = y) -> NoDup (map f l).
Proof.
  intros A B f l N. induction N as [|a l NI N IH]; intros H; cbn [map]; constructor.
  - intros C. apply in_map_iff in C. destruct C as (y & E & Iy). apply H in E; [subst; contradiction|right; auto|left; auto].
  - apply IH. intros. apply H; auto; right; auto.
Qed.

Lemma box_cells_NoDup : forall d1 a0 a1 n0 n1, 0 <= n0 -> 0 <= a1 -> 0 <= n1 -> a1 + n1 <= d1 -> NoDup (box_cells d1 a0 a1 n0 n1).
Proof.
  intros d1 a0 a1 n0 n1 H0 A1 H1 HD. apply NoDup_map_on; [unfold range, zseq; apply FinFun.Injective_map_NoDup; [intros u v; apply Nat2Z.inj|apply seq_NoDup]|]. intros x y Ix Iy E. apply in_range in Ix. apply in_range in Iy.
  assert (0 < n1) by nia. assert (Qx := Z.div_mod x n1 ltac:(lia)). assert (Mx := Z.mod_pos_bound x n1 ltac:(lia)).
  assert (Qy := Z.div_mod y n1 ltac:(lia)). assert (My := Z.mod_pos_bound y n1 ltac:(lia)).
  assert (E1 : x / n1 = y / n1) by nia. rewrite E1 in E. lia.
Qed.

Lemma vget2_0 : forall {A} (a b : A), vget [a; b] 0 = Ret a.
Proof. reflexivity. Qed.
Lemma vget2_1 : forall {A} (a b : A), vget [a; b] 1 = Ret b.
Proof. reflexivity. Qed.

Lemma fo_cells_ok : forall d0 d1 a0 a1 b0 b1, 2 <= d0 -> 2 <= d1 -> d0 * d1 <= int_max -> 0 <= a0 -> a0 <= b0 <= d0 - 1 -> 0 <= a1 -> a1 <= b1 <= d1 - 1 ->
  exists it, box_new [a0; a1] [b0; b1] = Ret it /\
    mapM (fun i => let! v := box_getElement it i in fo_cellNumber [d1; 1] v) (range (box_getNumberOfElements it)) = Ret (box_cells d1 a0 a1 (b0 - a0) (b1 - a1)).
Proof.
  intros d0 d1 a0 a1 b0 b1 D0 D1 DM A0 B0 A1 B1. unfold int_max in *.
  assert (M0 : 0 <= (b0 - a0) * (b1 - a1) <= (d0 - 1) * (d1 - 1)) by nia.
  assert (M1 : b1 - a1 <= 2 ^ 31 - 1) by nia. assert (M2 : b0 - a0 <= 2 ^ 31 - 1) by nia.
  unfold box_new, box_dims. rewrite (chk_ok (b0 - a0)) by (unfold int_min, int_max; lia). cbn [bind]. rewrite (chk_ok (b1 - a1)) by (unfold int_min, int_max; lia). cbn [bind].
  unfold box_numElems. cbn [foldM]. rewrite (chk_ok (1 * (b0 - a0))) by (unfold int_min, int_max; lia). cbn [bind].
  rewrite (chk_ok (1 * (b0 - a0) * (b1 - a1))) by (unfold int_min, int_max; lia). cbn [bind box_dimProd].
  rewrite (chk_ok (1 * (b1 - a1))) by (unfold int_min, int_max; lia). cbn [bind].
  eexists. split; [reflexivity|]. unfold box_getNumberOfElements, box_getElement. cbn [bx_numElems bx_lowEnd bx_dims bx_dimProd].
  replace (1 * (b0 - a0) * (b1 - a1)) with ((b0 - a0) * (b1 - a1)) by ring. replace (1 * (b1 - a1)) with (b1 - a1) by ring.
  unfold box_cells. apply mapM_pure. intros k Hk. apply in_range in Hk.
  assert (P1 : 0 < b1 - a1) by nia. assert (P0 : 0 < b0 - a0) by nia.
  assert (KB : k < 2 ^ 31 - 1) by nia.
  assert (Q := Z.div_mod k (b1 - a1) ltac:(lia)). assert (MM := Z.mod_pos_bound k (b1 - a1) ltac:(lia)).
  assert (QP : 0 <= k / (b1 - a1)) by (apply Z.div_pos; lia). assert (QB : k / (b1 - a1) < b0 - a0) by nia.
  cbn [box_elem]. unfold idiv, imod. destruct (Z.eqb_spec (b1 - a1) 0); [lia|]. rewrite Z.quot_div_nonneg by lia.
  rewrite (chk_ok (k / (b1 - a1))) by (unfold int_min, int_max; lia). cbn [bind].
  destruct (Z.eqb_spec (b0 - a0) 0); [lia|]. rewrite (Z.quot_div_nonneg (k / (b1 - a1)) (b0 - a0)) by lia.
  rewrite (Z.div_small (k / (b1 - a1)) (b0 - a0)) by lia. rewrite (chk_ok 0) by (unfold int_min, int_max; lia). cbn [bind].
  rewrite (Z.rem_mod_nonneg (k / (b1 - a1))) by lia. rewrite (Z.mod_small (k / (b1 - a1))) by lia.
  rewrite (chk_ok (a0 + _)) by (unfold int_min, int_max; nia). cbn [bind].
  destruct (Z.eqb_spec 1 0); [lia|]. rewrite Z.quot_1_r. rewrite (chk_ok k) by (unfold int_min, int_max; lia). cbn [bind].
  rewrite (Z.quot_div_nonneg k (b1 - a1)) by lia. rewrite (chk_ok (k / (b1 - a1))) by (unfold int_min, int_max; lia). cbn [bind].
  rewrite (Z.rem_mod_nonneg k) by lia. rewrite (chk_ok (a1 + _)) by (unfold int_min, int_max; nia). cbn [bind].
  set (u := a0 + k / (b1 - a1)). set (v := a1 + k mod (b1 - a1)).
  assert (U : 0 <= u < d0 - 1) by (unfold u; lia). assert (V : 0 <= v < d1 - 1) by (unfold v; lia).
  unfold fo_cellNumber. cbn [foldM]. rewrite !vget2_0, !vget2_1. cbn [bind].
  assert (UB : 0 <= d1 * u /\ d1 * u + d1 <= d0 * d1) by nia.
  rewrite (chk_ok (d1 * u)) by (unfold int_min, int_max; lia). cbn [bind].
  rewrite (chk_ok (1 * v)) by (unfold int_min, int_max; nia). cbn [bind].
  rewrite !wrap64_small by (rewrite ?wrap64_small; lia). rewrite to_int32_small by lia. f_equal. lia.
Qed.

Open Scope R_scope.

(** From the real box of one axis to the integer box. *)
Lemma intBox_ok : forall d qs b, (2 <= d <= 2 ^ 31 - 1)%Z -> qs <> [] -> List.Forall (fun q => 0 <= q) qs -> axis_box (IZR (d - 1)) qs b ->
  exists lo hi, fo_intBox d b = Ret (lo, hi) /\ (0 <= lo /\ lo <= hi <= d - 1)%Z /\
  forall a, (0 <= a <= d - 2)%Z -> ((lo <= a < hi)%Z <-> (exists q, In q qs /\ q < IZR a + 1) /\ (exists q, In q qs /\ IZR a < q + 1 / 100)).
Proof.
  intros d qs [lo hi] Hd NE POS ((A1 & A2) & A3 & A4 & A5 & A6). cbn [fst snd] in *. rewrite Forall_forall in POS.
  assert (M1 : 1 <= IZR (d - 1)) by (apply IZR_le; lia). assert (M2 : IZR (d - 1) <= IZR (2 ^ 31 - 2)) by (apply IZR_le; lia).
  set (L := Int_part lo). set (H := (- Int_part (- (hi + 1 / 100)))%Z).
  assert (L0 : (0 <= L)%Z) by (apply Int_part_le; lra).
  assert (L1 : (L <= d - 1)%Z) by (apply floor_lt; lra).
  assert (H0 : (0 < H)%Z) by (apply ceil_gt; lra).
  assert (H1 : (H <= d)%Z). { destruct (Z_le_gt_dec H d) as [|G]; auto. assert (G' : (d < H)%Z) by lia. apply ceil_gt in G'. rewrite minus_IZR in *. lra. }
  assert (LH : (L <= H)%Z).
  { destruct qs as [|q0 qs']; [congruence|]. assert (Q1 := A3 q0 (or_introl eq_refl)). assert (Q2 := A5 q0 (or_introl eq_refl)).
    assert (lo <= hi) by (unfold Rmin in Q2; destruct (Rle_dec q0 (IZR (d - 1))); lra).
    destruct (Z_le_gt_dec L H) as [|G]; auto. assert (LB := Int_part_bounds lo). fold L in LB.
    assert (CB := Int_part_bounds (- (hi + 1 / 100))). assert (G' : (H + 1 <= L)%Z) by lia. apply IZR_le in G'. rewrite plus_IZR in G'. unfold H in G'. rewrite opp_IZR in G'. lra. }
  unfold fo_intBox. cbn [fst snd]. rewrite to_int_floor by (fold L; unfold int_min, int_max; lia). cbn [bind]. fold L.
  rewrite lit_R. cbn [nadd nofZ NumR]. rewrite to_int_ceil by (fold H; unfold int_min, int_max; lia). fold H. cbn [bind].
  rewrite chk_ok by (unfold int_min, int_max; lia). cbn [bind].
  exists L, (Z.min H (d - 1)). split.
  - f_equal. f_equal; [destruct (Z.leb_spec 0 L); lia|destruct (Z.ltb_spec H (d - 1)); lia].
  - split; [lia|]. intros a Ha. assert (AM : IZR a + 1 <= IZR (d - 1)) by (rewrite <- plus_IZR; apply IZR_le; lia).
    assert (A0 : 0 <= IZR a) by (apply IZR_le; lia).
    assert (EL : (L <= a)%Z <-> exists q, In q qs /\ q < IZR a + 1).
    { unfold L. rewrite floor_lt. split; intros X.
      - destruct A4 as [A4|A4]; [lra|]. exists lo. auto.
      - destruct X as (q & Iq & Q). specialize (A3 q Iq). lra. }
    assert (EH : (a < H)%Z <-> exists q, In q qs /\ IZR a < q + 1 / 100).
    { unfold H. rewrite ceil_gt. split; intros X.
      - destruct A6 as [A6|(q & Iq & Q)].
        + destruct qs as [|q0 qs']; [congruence|]. exists q0. split; [left; reflexivity|]. specialize (POS q0 (or_introl eq_refl)). lra.
        + exists q. split; auto. unfold Rmin in Q. destruct (Rle_dec q (IZR (d - 1))); lra.
      - destruct X as (q & Iq & Q). specialize (A5 q Iq). unfold Rmin in A5. destruct (Rle_dec q (IZR (d - 1))); lra. }
    rewrite <- EL, <- EH. lia.
Qed.

(** The whole search on an object that has searched before. *)
Theorem find_cells : forall g d0 d1 coords poly (s : fo R) f0, fp_ready [d0; d1] coords f0 -> (1 <= fp_nitermax f0 < int_max)%Z ->
  fo_nodeDims s = [d0; d1] -> fo_prodDims s = [d1; 1%Z] -> twin f0 (fo_finder s) -> (d0 * d1 <= int_max)%Z ->
  fo_points s = flat_points poly -> fo_numPoints s = Some (Z.of_nat (length poly)) -> poly <> [] ->
  exists s' qs, fo_findSrcCellIndices g s = Ret s' /\ fo_nodeDims s' = [d0; d1] /\ fo_prodDims s' = [d1; 1%Z] /\ twin f0 (fo_finder s') /\
    Forall2 (found g f0 (fo_guess d0 d1)) poly qs /\ List.Forall (fun q => in_grid [d0; d1] q \/ q = fo_guess d0 d1) qs /\
    NoDup (fo_cells s') /\
    (forall k, In k (fo_cells s') <-> exists a b, k = (a * d1 + b)%Z /\ (0 <= a <= d0 - 2)%Z /\ (0 <= b <= d1 - 2)%Z /\
       ((exists q, In q qs /\ nth 0 q 0 < IZR a + 1) /\ (exists q, In q qs /\ IZR a < nth 0 q 0 + 1 / 100)) /\
       ((exists q, In q qs /\ nth 1 q 0 < IZR b + 1) /\ (exists q, In q qs /\ IZR b < nth 1 q 0 + 1 / 100))).
Proof.
  intros g d0 d1 coords poly s f0 F0 NI ED EP TW DM EPT EN NE.
  assert (HD : grid_data [d0; d1] coords) by apply F0. assert (Hok : grid_ok [d0; d1]) by apply HD.
  assert (D0 := dims_ge2 [d0; d1] 0 Hok ltac:(simpl; lia)). assert (D1 := dims_ge2 [d0; d1] 1 Hok ltac:(simpl; lia)). cbn [nth] in D0, D1.
  unfold fo_findSrcCellIndices, fo_indexBox. rewrite ED, EN, EPT, EP.
  rewrite !vget2_0, !vget2_1. cbn [bind].
  rewrite (chk_ok (d0 - 1)) by (unfold int_min, int_max; lia). cbn [bind]. rewrite (chk_ok (d1 - 1)) by (unfold int_min, int_max; lia). cbn [bind].
  assert (M0 : 0 <= IZR (d0 - 1)) by (apply IZR_le; lia). assert (M1 : 0 <= IZR (d1 - 1)) by (apply IZR_le; lia).
  assert (AB : forall m, 0 <= m -> axis_box m [] (m, 0)).
  { intros m Hm. unfold axis_box. cbn [fst snd]. split; [lra|]. split; [intros q []|]. split; [auto|]. split; [intros q []|auto]. }
  destruct (points_total g d0 d1 coords f0 poly F0 NI poly 0 (fo_finder s) (IZR (d0 - 1), 0) (IZR (d1 - 1), 0) [] eq_refl TW (ready_twin _ _ _ _ F0 TW) (AB _ M0) (AB _ M1))
    as (f' & b0 & b1 & qs & E & TW' & F' & FO & IG & B0 & B1).
  assert (RG : range (Z.of_nat (length poly)) = map Z.of_nat (seq 0 (length poly))) by (unfold range, zseq; rewrite Nat2Z.id; reflexivity).
  rewrite RG. change (nofZ (d0 - 1) : R) with (IZR (d0 - 1)). change (nofZ (d1 - 1) : R) with (IZR (d1 - 1)). change (n0 : R) with 0. rewrite E. cbn [bind fst snd].
  cbn [app] in B0, B1.
  assert (QN : qs <> []) by (inversion FO; subst; congruence).
  assert (POS : List.Forall (fun q => 0 <= nth 0 q 0 /\ 0 <= nth 1 q 0) qs).
  { eapply Forall_impl; [|exact IG]. intros q [Q| ->].
    - inversion Q as [|? ? ? ? Q1 Q2]; subst. inversion Q2 as [|? ? ? ? Q3 Q4]; subst. cbn [nth]. lra.
    - assert (GN := guess_near d0 d1 D0 D1). apply Forall_cons_iff in GN. destruct GN as [Q1 Q2]. apply Forall_cons_iff in Q2. destruct Q2 as [Q2 _]. unfold fo_guess. cbn [nth]. split; [apply Q1|apply Q2]. }
  assert (P0 : List.Forall (fun q => 0 <= q) (positions qs 0)).
  { apply Forall_forall. intros x Hx. apply in_map_iff in Hx. destruct Hx as (q & <- & Iq). rewrite Forall_forall in POS. apply (POS q Iq). }
  assert (P1 : List.Forall (fun q => 0 <= q) (positions qs 1)).
  { apply Forall_forall. intros x Hx. apply in_map_iff in Hx. destruct Hx as (q & <- & Iq). rewrite Forall_forall in POS. apply (POS q Iq). }
  assert (NE' : forall j, positions qs j <> []) by (intros j C; destruct qs; [congruence|discriminate]).
  destruct (intBox_ok d0 _ b0 D0 (NE' 0%nat) P0 B0) as (a0 & h0 & E0 & R0 & I0).
  destruct (intBox_ok d1 _ b1 D1 (NE' 1%nat) P1 B1) as (a1 & h1 & E1 & R1 & I1).
  rewrite E0, E1. cbn [bind fst snd].
  destruct (fo_cells_ok d0 d1 a0 a1 h0 h1) as (it & EB & EM); auto; try lia. rewrite EB. cbn [bind]. rewrite EM. cbn [bind].
  eexists _, qs. split; [reflexivity|]. cbn [fo_nodeDims fo_prodDims fo_finder fo_cells]. split; [reflexivity|]. split; [reflexivity|]. split; [exact TW'|]. split; [exact FO|]. split; [exact IG|].
  split; [apply box_cells_NoDup; lia|]. intros k. rewrite box_cells_in by lia.
  assert (PQ : forall j (P : R -> Prop), (exists q, In q (positions qs j) /\ P q) <-> exists q, In q qs /\ P (nth j q 0)).
  { intros j P. unfold positions. split.
    - intros (x & I & Px). apply in_map_iff in I. destruct I as (q & <- & Iq). eauto.
    - intros (q & Iq & Pq). exists (nth j q 0). split; auto. apply in_map_iff. eauto. }
  assert (J : forall j lo hi a, ((lo <= a < hi)%Z <-> (exists q, In q (positions qs j) /\ q < IZR a + 1) /\ (exists q, In q (positions qs j) /\ IZR a < q + 1 / 100)) ->
    ((lo <= a < hi)%Z <-> (exists q, In q qs /\ nth j q 0 < IZR a + 1) /\ (exists q, In q qs /\ IZR a < nth j q 0 + 1 / 100))).
  { intros j lo hi a Q. rewrite Q. rewrite (PQ j (fun q => q < IZR a + 1)), (PQ j (fun q => IZR a < q + 1 / 100)). reflexivity. }
  split; intros (a & b & -> & X).
  - exists a, b. split; [lia|]. split; [lia|]. split; [lia|]. split; [apply (J _ _ _ _ (I0 a ltac:(lia)))|apply (J _ _ _ _ (I1 b ltac:(lia)))]; lia.
  - exists a, b. split; [lia|]. destruct X as (Xa & Xb & X0 & X1). apply (J _ _ _ _ (I0 a ltac:(lia))) in X0. apply (J _ _ _ _ (I1 b ltac:(lia))) in X1. lia.
Qed.
