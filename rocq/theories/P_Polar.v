(** Property C78: the program polarFlowApprox. *)
From Coq Require Import ZArith List Bool Reals Lra Lia Floats.SpecFloat.
From Verif Require Import Base Num NumR NumF TrigR M_LinearSolve M_FindPoint M_FlowInterp M_Grids M_PyUtils M_Examples
  S_LinAlg S_Grid S_Array S_Flow L_LinearSolve L_Cramer L_Interp L_FindPoint L_FindPointR L_FindPointB L_FindPointG L_NodeInterp L_NodeInterpR L_FindOverlap
  L_FindPointA L_Box2 P_FindPoint P_Examples.
Import ListNotations.
Open Scope R_scope.

(** ** The search *)
Lemma search_one : forall g dims coords (f : fp (T:=R)) guess target, fp_ready dims coords f -> in_grid dims guess ->
  length target = length dims -> (1 <= fp_nitermax f < int_max)%Z ->
  exists f1 code f2, fp_reset f guess target = Ret f1 /\ fp_search g f1 = Ret (code, f2) /\ fp_ready dims coords f2 /\ same_grid f f2 /\
    in_grid dims (fp_dIndices f2) /\ fp_target f2 = target /\ code <> 0%Z /\
    (code = 1%Z -> exists e, fp_getError f2 = Ret e /\ e < fp_tolpos f).
Proof.
  intros g dims coords f guess target F IG LT NI.
  destruct (search_near g dims coords f guess target F (in_grid_near dims guess ltac:(apply F) IG) (in_grid_length _ _ IG) LT NI)
    as (f1 & code & f2 & ER & ES & TW & F2 & D & _).
  exists f1, code, f2. split; auto. split; auto. split; auto. split; [apply TW|]. split; [destruct D as [D|[_ ->]]; auto|].
  assert (Hd : fp_dims f = dims) by apply F. assert (NE : dims <> []) by apply F.
  assert (E1 := ER). rewrite reset_ok in E1 by (rewrite Hd; auto; apply in_grid_length; auto). injection E1 as <-.
  unfold fp_search in ES. apply bind_ret_inv in ES. destruct ES as (r & EL & ES). destruct r as [[c r]|].
  - injection ES as -> ->. match type of EL with fp_loop _ _ ?s = _ => assert (WS : solver_ok s) by (apply F); assert (DS : fp_dims s <> []) by (cbn [fp_dims]; rewrite Hd; auto) end.
    destruct (loop_result g _ _ _ DS WS EL) as (_ & T2 & C & s0 & E0 & TW0 & _).
    cbn [fst snd fp_target] in T2, C. split; auto. split; auto. intros ->. apply next_converged in E0. destruct E0 as (e & EE & LE & _).
    exists e. split; auto. cbn [nlt NumR] in LE. assert (EQ : fp_tolpos f2 = fp_tolpos f) by (symmetry; apply TW). rewrite EQ in LE.
    unfold Rltb in LE. destruct (Rlt_dec e (fp_tolpos f)); [auto|discriminate].
  - exfalso. revert EL. apply loop_terminates; cbn [fp_iter fp_nitermax]; lia.
Qed.

Lemma guesses_result : forall g dims coords target gs (f : fp (T:=R)) code0, fp_ready dims coords f -> List.Forall (in_grid dims) gs -> gs <> [] ->
  length target = length dims -> (1 <= fp_nitermax f < int_max)%Z ->
  exists code f2, try_guesses g target gs (code0, f) = Ret (code, f2) /\ fp_ready dims coords f2 /\
    in_grid dims (fp_dIndices f2) /\ fp_target f2 = target /\ code <> 0%Z /\
    (code = 1%Z -> exists e, fp_getError f2 = Ret e /\ e < fp_tolpos f).
Proof.
  intros g dims coords target. induction gs as [|x gs IH]; intros f code0 F FG NE LT NI; [congruence|].
  apply Forall_cons_iff in FG. destruct FG as [Fx FG]. cbn [try_guesses snd].
  destruct (search_one g dims coords f x target F Fx LT NI) as (f1 & code & f2 & -> & ES & F2 & SG & IG & ET & NZ & CV). cbn [bind]. rewrite ES. cbn [bind fst].
  destruct (Z.eqb_spec code 1) as [->|N1].
  - exists 1%Z, f2. repeat (split; auto).
  - destruct gs as [|y gs].
    + cbn [try_guesses]. exists code, f2. repeat (split; auto).
    + destruct SG as (_ & _ & _ & _ & _ & _ & _ & EN & EO).
      destruct (IH f2 code F2 FG ltac:(discriminate) LT ltac:(rewrite <- EN; exact NI)) as (c & f3 & E & R). exists c, f3. split; auto. rewrite EO. exact R.
Qed.

Lemma guesses_in : forall m0 m1, (2 <= m0)%Z -> (2 <= m1)%Z -> List.Forall (in_grid [m0; m1]) (guesses m0 m1 : list (list R)).
Proof.
  intros m0 m1 H0 H1. assert (A0 : 1 <= IZR (m0 - 1)) by (apply IZR_le; lia). assert (A1 : 1 <= IZR (m1 - 1)) by (apply IZR_le; lia).
  unfold guesses. cbn [nofZ ndiv NumR]. change (@n0 R NumR) with 0.
  repeat apply Forall_cons; try apply Forall_nil; (constructor; [|constructor; [|constructor]]; lra).
Qed.

(** ** Interpolation in Python *)
(** The bilinear interpolation of the values f of the corners of cell (i, j). *)
Definition in_cell (f : Z -> Z -> R) (i j : Z) (x y : R) : R := bilinear (f i j) (f (i + 1)%Z j) (f i (j + 1)%Z) (f (i + 1)%Z (j + 1)%Z) x y.

Lemma np_at_in : forall (a : arr R) i j, (0 <= i < a_n0 a)%Z -> (0 <= j < a_n1 a)%Z -> np_at a i j = Some (a_at a i j).
Proof.
  intros a i j Hi Hj. unfold np_at. destruct (Z.ltb_spec i 0); [lia|]. destruct (Z.ltb_spec j 0); [lia|].
  destruct (Z.leb_spec 0 i); [|lia]. destruct (Z.ltb_spec i (a_n0 a)); [|lia]. destruct (Z.leb_spec 0 j); [|lia]. destruct (Z.ltb_spec j (a_n1 a)); [|lia]. reflexivity.
Qed.

Lemma np_at_out : forall {T} (a : arr T) i j, (0 <= i)%Z -> (0 <= j)%Z -> (a_n0 a <= i)%Z \/ (a_n1 a <= j)%Z -> np_at a i j = None.
Proof.
  intros T a i j Hi Hj H. unfold np_at. destruct (Z.ltb_spec i 0); [lia|]. destruct (Z.ltb_spec j 0); [lia|].
  destruct (Z.leb_spec 0 i); [|lia]. destruct (Z.ltb_spec i (a_n0 a)); destruct (Z.leb_spec 0 j); try lia; destruct (Z.ltb_spec j (a_n1 a)); try lia; reflexivity.
Qed.

Lemma floor_range : forall u m, 0 <= u < IZR (m - 1) -> (0 <= Int_part u < m - 1)%Z /\ IZR (Int_part u) <= u <= IZR (Int_part u) + 1.
Proof.
  intros u m H. destruct (base_Int_part u) as [A B].
  assert (C : -1 < IZR (Int_part u)) by lra. apply lt_IZR in C. assert (D : IZR (Int_part u) < IZR (m - 1)) by lra. apply lt_IZR in D. split; [lia|lra].
Qed.

Lemma interpolate_in : forall (a : arr R) u v, 0 <= u < IZR (a_n0 a - 1) -> 0 <= v < IZR (a_n1 a - 1) ->
  interpolate a u v = Some (in_cell (a_at a) (Int_part u) (Int_part v) (u - IZR (Int_part u)) (v - IZR (Int_part v))).
Proof.
  intros a u v Hu Hv. destruct (floor_range u _ Hu) as [A _]. destruct (floor_range v _ Hv) as [B _].
  unfold interpolate. cbn [ntoZ nfloor NumR]. rewrite !Rtrunc_IZR. cbv zeta.
  rewrite !np_at_in by lia. cbn [nofZ nsub nmul nadd NumR]. f_equal. unfold in_cell, bilinear. change (@n1 R NumR) with 1. ring.
Qed.

Lemma interpolate_out : forall (a : arr R) u v, 0 <= u -> 0 <= v -> IZR (a_n0 a - 1) <= u \/ IZR (a_n1 a - 1) <= v -> interpolate a u v = None.
Proof.
  intros a u v Hu Hv H. assert (FL : forall w, 0 <= w -> (0 <= Int_part w)%Z).
  { intros w Hw. destruct (base_Int_part w) as [A B]. assert (C : -1 < IZR (Int_part w)) by lra. apply lt_IZR in C. lia. }
  assert (UP : forall w m, IZR (m - 1) <= w -> (m <= Int_part w + 1)%Z).
  { intros w m Hw. destruct (base_Int_part w) as [A B]. assert (C : IZR (m - 1) < IZR (Int_part w + 1)) by (rewrite plus_IZR; lra). apply lt_IZR in C. lia. }
  assert (FU := FL u Hu). assert (FV := FL v Hv).
  unfold interpolate. cbn [ntoZ nfloor NumR]. rewrite !Rtrunc_IZR. cbv zeta.
  destruct (np_at a (Int_part u) (Int_part v)); [|reflexivity]. destruct (np_at a (Int_part u + 1) (Int_part v)); [|reflexivity].
  rewrite (np_at_out a (Int_part u + 1) (Int_part v + 1)); [reflexivity|lia|lia|].
  destruct H as [H|H]; apply UP in H; lia.
Qed.

(** The indices are in the grid; after a search that succeeded the values of the nodes of their cell
    interpolate the coordinates of the target within the tolerance. *)
Definition located (xx yy : arr R) (x y tol u v : R) : Prop :=
  exists i j, (0 <= i < a_n0 xx - 1)%Z /\ (0 <= j < a_n1 xx - 1)%Z /\ IZR i <= u <= IZR i + 1 /\ IZR j <= v <= IZR j + 1 /\
    sqrt ((in_cell (a_at xx) i j (u - IZR i) (v - IZR j) - x) ^ 2 + (in_cell (a_at yy) i j (u - IZR i) (v - IZR j) - y) ^ 2) < tol.

Lemma find_result : forall g xx yy x y nit tol, (2 <= a_n0 xx)%Z -> (2 <= a_n1 xx)%Z -> (a_n0 xx * a_n1 xx <= int_max)%Z ->
  a_n0 yy = a_n0 xx -> a_n1 yy = a_n1 xx -> (1 <= nit < int_max)%Z ->
  exists code u v, findIndicesForPosition g xx yy [x; y] nit tol = Ret (code, [u; v]) /\ code <> 0%Z /\
    0 <= u <= IZR (a_n0 xx - 1) /\ 0 <= v <= IZR (a_n1 xx - 1) /\ (code = 1%Z -> located xx yy x y tol u v).
Proof.
  intros g xx yy x y nit tol H0 H1 HI E0 E1 NI. set (m0 := a_n0 xx) in *. set (m1 := a_n1 xx) in *.
  assert (SX := contiguous_stores xx ltac:(fold m0; lia) ltac:(fold m1; lia)). fold m0 m1 in SX.
  assert (SY := contiguous_stores yy ltac:(rewrite E0; lia) ltac:(rewrite E1; lia)). rewrite E0, E1 in SY.
  set (coords := [contiguous xx; contiguous yy]).
  assert (HD : grid_data [m0; m1] coords).
  { split; [discriminate|]. split; [split; [repeat constructor; auto|cbn [grid_size]; unfold int_max in HI; lia]|]. split; [reflexivity|].
    destruct SX as [LX _]. destruct SY as [LY _]. repeat constructor; cbn [grid_size]; lia. }
  destruct (setGrid_ok (fp_new nit tol) [m0; m1] [0; 1]%Z coords HD) as (s & ES & Hh & Hc & Hsv & Hp & Ht & _ & _ & _ & Hn & Htol & _).
  assert (F : fp_ready [m0; m1] coords s).
  { split; [exact HD|]. split; [exact Hh|]. split; [exact Hc|]. split; [exact Hp|]. split; [exact Hsv|]. rewrite Hn. cbn [fp_new fp_nitermax]. lia. }
  destruct (guesses_result g [m0; m1] coords [x; y] (guesses m0 m1) s 0%Z F (guesses_in m0 m1 H0 H1) ltac:(discriminate) eq_refl
    ltac:(rewrite Hn; exact NI)) as (code & f2 & EG & F2 & IG & ET & NZ & CV).
  assert (UV : exists u v, fp_dIndices f2 = [u; v]).
  { inversion IG as [|? ? ? ? U1 U2]. inversion U2 as [|? ? ? ? V1 V2]. inversion V2. eauto. }
  destruct UV as (u & v & EI). exists code, u, v.
  split. { unfold findIndicesForPosition. fold m0 m1 coords. rewrite ES. cbn [bind]. rewrite EG. cbn [bind fst snd]. rewrite EI. reflexivity. }
  split; auto. rewrite EI in IG. inversion IG as [|? ? ? ? U1 U2]. inversion U2 as [|? ? ? ? V1 V2]. subst. split; auto. split; auto.
  intros C. destruct (CV C) as (e & EE & LE).
  assert (G : fp_good [m0; m1] coords f2).
  { destruct F2 as (A1 & A2 & A3 & A4 & A5 & A6). split; [exact A1|]. split; [exact A2|]. split; [exact A3|]. split; [exact A4|].
    split; [rewrite ET; reflexivity|]. split; [exact A5|]. rewrite EI. exact IG. }
  rewrite (getError_R [m0; m1] coords f2 G) in EE. injection EE as <-. rewrite Htol in LE. cbn [fp_new fp_tolpos] in LE.
  destruct (cell_spec m0 u H0 U1) as [C0 C1]. destruct (cell_spec m1 v H1 V1) as [D0 D1].
  exists (cell m0 u), (cell m1 v). split; [lia|]. split; [lia|]. split; [exact C1|]. split; [exact D1|].
  assert (PO : forall (a : arr R), stores m0 m1 (a_at a) (contiguous a) ->
    multilin [m0; m1] [u; v] (field_at [m0; m1] (contiguous a)) = in_cell (a_at a) (cell m0 u) (cell m1 v) (u - IZR (cell m0 u)) (v - IZR (cell m1 v))).
  { intros a SA. cbn [multilin]. unfold in_cell, bilinear.
    assert (AT : forall i j, (0 <= i < m0)%Z -> (0 <= j < m1)%Z -> field_at [m0; m1] (contiguous a) [i; j] = a_at a i j).
    { intros i j Hi Hj. unfold field_at. cbn [flat grid_size]. rewrite !Z.mul_1_r, Z.add_0_r. apply nth_error_nth. apply SA; auto. }
    rewrite !AT by lia. ring. }
  unfold distance, position in LE. rewrite EI, ET in LE. cbn [length rsum coords nth] in LE. rewrite (PO xx SX), (PO yy SY) in LE.
  eapply Rle_lt_trans; [|exact LE]. right. f_equal. ring.
Qed.

(** C78: for every grid, line and arrays of velocities.  A segment whose mid point is found in the grid, not in its last row or
    column of nodes: the flux is that of the velocity of the exact flow at the mid point, with an error of at most e times
    the size of the segment when the velocities at the nodes of the cell of the mid point are within e of it. *)
Theorem C78_segment_partial : forall g xx yy vxx vyy (P Q : R * R) code u v, (2 <= a_n0 xx)%Z -> (2 <= a_n1 xx)%Z -> (a_n0 xx * a_n1 xx <= int_max)%Z ->
  a_n0 yy = a_n0 xx -> a_n1 yy = a_n1 xx -> a_n0 vxx = a_n0 xx -> a_n1 vxx = a_n1 xx -> a_n0 vyy = a_n0 xx -> a_n1 vyy = a_n1 xx ->
  let x := (fst P + fst Q) / 2 in let y := (snd P + snd Q) / 2 in
  findIndicesForPosition g xx yy [x; y] 100 (/ 10 ^ 12) = Ret (code, [u; v]) ->
  code = 1%Z -> u < IZR (a_n0 xx - 1) -> v < IZR (a_n1 xx - 1) ->
  let vx := x / (2 * PI * (x ^ 2 + y ^ 2)) in let vy := y / (2 * PI * (x ^ 2 + y ^ 2)) in
  exists i j flux exact, (0 <= i < a_n0 xx - 1)%Z /\ (0 <= j < a_n1 xx - 1)%Z /\
    (exists s t, 0 <= s <= 1 /\ 0 <= t <= 1 /\ sqrt ((in_cell (a_at xx) i j s t - x) ^ 2 + (in_cell (a_at yy) i j s t - y) ^ 2) < / 10 ^ 12) /\
    approxSegment g xx yy vxx vyy P Q = Ret (Some (flux, exact)) /\
    exact = vx * (snd Q - snd P) - vy * (fst Q - fst P) /\
    forall e, (forall i' j', (i' = i \/ i' = i + 1)%Z -> (j' = j \/ j' = j + 1)%Z -> Rabs (a_at vxx i' j' - vx) <= e /\ Rabs (a_at vyy i' j' - vy) <= e) ->
      Rabs (flux - exact) <= e * (Rabs (fst Q - fst P) + Rabs (snd Q - snd P)).
Proof.
  intros g xx yy vxx vyy P Q code u v H0 H1 HI E0 E1 A0 A1 B0 B1 x y EF EC HU HV vx vy.
  destruct (find_result g xx yy x y 100 (/ 10 ^ 12) H0 H1 HI E0 E1 ltac:(unfold int_max; lia)) as (c & u' & v' & EF' & _ & U & V & LOC).
  rewrite EF in EF'. injection EF' as <- <- <-. destruct (LOC EC) as (i0 & j0 & Hi0 & Hj0 & Ui0 & Vj0 & DI).
  destruct (floor_range u (a_n0 xx) ltac:(lra)) as [FU FU']. destruct (floor_range v (a_n1 xx) ltac:(lra)) as [FV FV'].
  set (i := Int_part u) in *. set (j := Int_part v) in *.
  (* the cell of the interpolation is the cell found, or the position is on a common side *)
  assert (SAME : forall f : Z -> Z -> R, in_cell f i0 j0 (u - IZR i0) (v - IZR j0) = in_cell f i j (u - IZR i) (v - IZR j)).
  { assert (BU := base_Int_part u). fold i in BU. assert (BV := base_Int_part v). fold j in BV.
    assert (CI : i0 = i \/ (i = (i0 + 1)%Z /\ u = IZR i0 + 1)).
    { assert (L1 : IZR i0 < IZR (i + 1)) by (rewrite plus_IZR; lra). apply lt_IZR in L1. assert (L2 : IZR i <= IZR (i0 + 1)) by (rewrite plus_IZR; lra). apply le_IZR in L2.
      destruct (Z.eq_dec i0 i); [left; auto|right]. assert (i = (i0 + 1)%Z) by lia. split; auto. subst i. rewrite H in BU. rewrite plus_IZR in BU. lra. }
    assert (CJ : j0 = j \/ (j = (j0 + 1)%Z /\ v = IZR j0 + 1)).
    { assert (L1 : IZR j0 < IZR (j + 1)) by (rewrite plus_IZR; lra). apply lt_IZR in L1. assert (L2 : IZR j <= IZR (j0 + 1)) by (rewrite plus_IZR; lra). apply le_IZR in L2.
      destruct (Z.eq_dec j0 j); [left; auto|right]. assert (j = (j0 + 1)%Z) by lia. split; auto. subst j. rewrite H in BV. rewrite plus_IZR in BV. lra. }
    intros f. clearbody i j. unfold in_cell, bilinear.
    destruct CI as [->|[-> EU]]; destruct CJ as [->|[-> EV]]; rewrite ?plus_IZR, ?EU, ?EV; ring. }
  rewrite !SAME in DI.
  assert (MX : nmul nhalf (nadd (fst Q) (fst P)) = x) by (unfold x; cbn [nmul nadd NumR]; change (nhalf : R) with (1 / 2); field).
  assert (MY : nmul nhalf (nadd (snd Q) (snd P)) = y) by (unfold y; cbn [nmul nadd NumR]; change (nhalf : R) with (1 / 2); field).
  assert (TO : lit 1 (10 ^ 12) = / 10 ^ 12) by (unfold lit; cbn [ndiv nofZ NumR]; rewrite pow_IZR; change (10 ^ Z.of_nat 12)%Z with (10 ^ 12)%Z; unfold Rdiv; ring).
  unfold approxSegment. rewrite MX, MY, TO, EF. cbn [bind snd].
  rewrite !interpolate_in by (rewrite ?A0, ?A1, ?B0, ?B1; lra). fold i j.
  exists i, j. eexists. eexists. split; [exact FU|]. split; [exact FV|].
  split. { exists (u - IZR i), (v - IZR j). split; [lra|]. split; [lra|]. exact DI. }
  split; [reflexivity|].
  assert (EX : nsub (nmul (ndiv x (nmul (nmul (nofZ 2) mpi) (nadd (nmul x x) (nmul y y)))) (nsub (snd Q) (snd P)))
     (nmul (ndiv y (nmul (nmul (nofZ 2) mpi) (nadd (nmul x x) (nmul y y)))) (nsub (fst Q) (fst P))) = vx * (snd Q - snd P) - vy * (fst Q - fst P)).
  { unfold vx, vy. cbn [nsub nmul ndiv nadd nofZ NumR]. change (mpi : R) with PI. replace (x ^ 2 + y ^ 2) with (x * x + y * y) by ring. reflexivity. }
  split; [exact EX|]. intros e HE. rewrite EX. cbn [nsub nmul NumR].
  assert (W : forall s t, 0 <= s <= 1 -> 0 <= t <= 1 -> forall (f : Z -> Z -> R) w, (forall i' j', (i' = i \/ i' = i + 1)%Z -> (j' = j \/ j' = j + 1)%Z -> Rabs (f i' j' - w) <= e) ->
    Rabs (in_cell f i j s t - w) <= e).
  { intros s t Hs Ht f w Hf. assert (F00 := Hf i j ltac:(auto) ltac:(auto)). assert (F10 := Hf (i + 1)%Z j ltac:(auto) ltac:(auto)).
    assert (F01 := Hf i (j + 1)%Z ltac:(auto) ltac:(auto)). assert (F11 := Hf (i + 1)%Z (j + 1)%Z ltac:(auto) ltac:(auto)).
    apply abs_bounds in F00, F10, F01, F11. apply Rabs_le. unfold in_cell, bilinear.
    revert F00 F10 F01 F11. generalize (f i j) (f (i + 1)%Z j) (f i (j + 1)%Z) (f (i + 1)%Z (j + 1)%Z). intros a b c d F00 F10 F01 F11.
    assert (Q0 : 0 <= (1 - s) * (1 - t)) by nra. assert (Q1 : 0 <= s * (1 - t)) by nra. assert (Q2 : 0 <= (1 - s) * t) by nra. assert (Q3 : 0 <= s * t) by nra.
    split; nra. }
  assert (WX := W (u - IZR i) (v - IZR j) ltac:(lra) ltac:(lra) (a_at vxx) vx (fun i' j' a b => proj1 (HE i' j' a b))).
  assert (WY := W (u - IZR i) (v - IZR j) ltac:(lra) ltac:(lra) (a_at vyy) vy (fun i' j' a b => proj2 (HE i' j' a b))).
  revert WX WY. generalize (in_cell (a_at vxx) i j (u - IZR i) (v - IZR j)) (in_cell (a_at vyy) i j (u - IZR i) (v - IZR j)).
  generalize (fst Q - fst P) (snd Q - snd P). clearbody vx vy. intros dx dy fx fy WX WY.
  replace (fx * dy - fy * dx - (vx * dy - vy * dx)) with ((fx - vx) * dy + - ((fy - vy) * dx)) by ring.
  eapply Rle_trans; [apply Rabs_triang|]. rewrite Rabs_Ropp, !Rabs_mult.
  assert (0 <= Rabs dx) by apply Rabs_pos. assert (0 <= Rabs dy) by apply Rabs_pos. nra.
Qed.
Print Assumptions C78_segment_partial.

(** The search ends for every mid point, with indices of the grid; the program stops with an exception
    exactly when they are in the last row or column of nodes. *)
Theorem C78_defined_partial : forall g xx yy (P Q : R * R) vxx vyy, (2 <= a_n0 xx)%Z -> (2 <= a_n1 xx)%Z -> (a_n0 xx * a_n1 xx <= int_max)%Z ->
  a_n0 yy = a_n0 xx -> a_n1 yy = a_n1 xx -> a_n0 vxx = a_n0 xx -> a_n1 vxx = a_n1 xx -> a_n0 vyy = a_n0 xx -> a_n1 vyy = a_n1 xx ->
  exists code u v r, findIndicesForPosition g xx yy [(fst P + fst Q) / 2; (snd P + snd Q) / 2] 100 (/ 10 ^ 12) = Ret (code, [u; v]) /\ code <> 0%Z /\
    0 <= u <= IZR (a_n0 xx - 1) /\ 0 <= v <= IZR (a_n1 xx - 1) /\ approxSegment g xx yy vxx vyy P Q = Ret r /\
    (r = None <-> u = IZR (a_n0 xx - 1) \/ v = IZR (a_n1 xx - 1)).
Proof.
  intros g xx yy P Q vxx vyy H0 H1 HI E0 E1 A0 A1 B0 B1. set (x := (fst P + fst Q) / 2). set (y := (snd P + snd Q) / 2).
  destruct (find_result g xx yy x y 100 (/ 10 ^ 12) H0 H1 HI E0 E1 ltac:(unfold int_max; lia)) as (code & u & v & EF & NZ & U & V & _).
  exists code, u, v. rewrite EF.
  assert (MX : nmul nhalf (nadd (fst Q) (fst P)) = x) by (unfold x; cbn [nmul nadd NumR]; change (nhalf : R) with (1 / 2); field).
  assert (MY : nmul nhalf (nadd (snd Q) (snd P)) = y) by (unfold y; cbn [nmul nadd NumR]; change (nhalf : R) with (1 / 2); field).
  assert (TO : lit 1 (10 ^ 12) = / 10 ^ 12) by (unfold lit; cbn [ndiv nofZ NumR]; rewrite pow_IZR; change (10 ^ Z.of_nat 12)%Z with (10 ^ 12)%Z; unfold Rdiv; ring).
  unfold approxSegment. rewrite MX, MY, TO, EF. cbn [bind snd].
  destruct (Rlt_le_dec u (IZR (a_n0 xx - 1))) as [LU|GU]; [destruct (Rlt_le_dec v (IZR (a_n1 xx - 1))) as [LV|GV]|].
  - rewrite !interpolate_in by (rewrite ?A0, ?A1, ?B0, ?B1; lra). eexists. do 5 (split; [reflexivity || auto|]). split; [discriminate|lra].
  - rewrite interpolate_out by (rewrite ?A0, ?A1; lra). eexists. do 5 (split; [reflexivity || auto|]). split; [intros _; right; lra|reflexivity].
  - rewrite interpolate_out by (rewrite ?A0, ?A1; lra). eexists. do 5 (split; [reflexivity || auto|]). split; [intros _; left; lra|reflexivity].
Qed.
Print Assumptions C78_defined_partial.

(** ** What does not hold *)
(** The polar grid of the program with 2 x 5 nodes and radius 1 in IEEE arithmetic.  Cosine and sine at the five
    angles 0, pi/2, ..., 2 pi are rounded to the exact values. *)
Definition Fpi : spec_float := S754_finite false 7074237752028440 (-51).
Definition at_angle (l : list Z) (x : spec_float) : spec_float :=
  let q k := nmul (F_ofZ k) (ndiv Fpi (F_ofZ 2)) in
  F_ofZ (if nlt x (q 1) then nth 0 l 0 else if nlt x (q 2) then nth 1 l 0 else if nlt x (q 3) then nth 2 l 0 else if nlt x (q 4) then nth 3 l 0 else nth 4 l 0)%Z.
#[local] Instance TrigQ : Trig spec_float := {| mpi := Fpi; mcos := at_angle [1; 0; -1; 0; 1]%Z; msin := at_angle [0; 1; 0; -1; 0]%Z;
  mtan := fun x => x; masin := fun x => x; macos := fun x => x; matan := fun x => x; matan2 := fun x _ => x |}.
Definition ring : arr spec_float * arr spec_float := createPolarGrid 2 5 (F_ofZ 1) (Fq 5 100).

(** A mid point on the outer boundary of the grid: the line of one segment from (0, 0) to (1, 1), whose mid point is the middle of the chord
    from (1, 0) to (0, 1).  The search succeeds and the program stops with an exception. *)
Theorem C78_boundary_refuted :
  findIndicesForPosition cramer (fst ring) (snd ring) [Fq 1 2; Fq 1 2] 100 (lit 1 (10 ^ 12)) = Ret (1%Z, [F_ofZ 1; Fq 1 2]) /\
  polarFlowApprox cramer 2 5 (F_ofZ 1) 1 (fun t => t) (fun t => t) = Ret None.
Proof. split; vm_compute; reflexivity. Qed.
Print Assumptions C78_boundary_refuted.

(** A mid point in the hole: the segment from (-1/8, -1/64) to (1/8, -1/64), with mid point (0, -1/64), where the flow is
    not interpolated by any cell.  All searches fail; the indices of the last one, a point of the inner boundary, are used all the
    same: the first number printed is about 0.63, the second about 2.55. *)
Definition hole_line (t : spec_float) : spec_float := nadd (Fq (-1) 8) (nmul (Fq 1 4) t).
Theorem C78_hole_refuted :
  (exists u v, findIndicesForPosition cramer (fst ring) (snd ring) [Fq 0 1; Fq (-1) 64] 100 (lit 1 (10 ^ 12)) = Ret ((-2)%Z, [u; v])) /\
  exists flux exact, polarFlowApprox cramer 2 5 (F_ofZ 1) 1 hole_line (fun _ => Fq (-1) 64) = Ret (Some (flux, exact)) /\
    nlt flux (Fq 7 10) = true /\ nlt (Fq 5 2) exact = true.
Proof.
  split; [eexists; eexists; vm_compute; reflexivity|].
  assert (E : polarFlowApprox cramer 2 5 (F_ofZ 1) 1 hole_line (fun _ => Fq (-1) 64) =
    Ret (Some (S754_finite false 5679078358709148 (-53), S754_finite false 5734161139222659 (-51)))) by (vm_compute; reflexivity).
  eexists. eexists. split; [exact E|]. split; vm_compute; reflexivity.
Qed.
Print Assumptions C78_hole_refuted.

(** ** A case: the sheared grid of C13, a segment from (1, 0) to (3, 1). *)
Definition shx : arr R := mkArr 2 2 (fun i j => 1 + 2 * IZR i + IZR j).
Definition shy : arr R := mkArr 2 2 (fun _ j => -1 + 3 * IZR j).

Example C78_case : findIndicesForPosition gels2 shx shy [(1 + 3) / 2; (0 + 1) / 2] 100 (/ 10 ^ 12) = Ret (1%Z, [1 / 4; 1 / 2]).
Proof.
  assert (EC : [contiguous shx; contiguous shy] = shC).
  { unfold contiguous, shx, shy, shC. cbn [a_n0 a_n1 a_at]. change (range (2 * 2)) with [0; 1; 2; 3]%Z. cbn [map].
    change (0 / 2)%Z with 0%Z. change (1 / 2)%Z with 0%Z. change (2 / 2)%Z with 1%Z. change (3 / 2)%Z with 1%Z.
    change (0 mod 2)%Z with 0%Z. change (1 mod 2)%Z with 1%Z. change (2 mod 2)%Z with 0%Z. change (3 mod 2)%Z with 1%Z.
    repeat f_equal; lra. }
  unfold findIndicesForPosition. rewrite EC. cbn [shx a_n0 a_n1].
  assert (TP : 0 < / 10 ^ 12) by (apply Rinv_0_lt_compat; apply pow_lt; lra). revert TP. generalize (/ 10 ^ 12). intros tol TP.
  destruct (C07_setGrid_defined R NumR (fp_new 100 tol) [2; 2]%Z [0; 1]%Z shC sh_data) as [s0 E0]. rewrite E0. cbn [bind].
  unfold guesses. cbn [try_guesses snd].
  assert (G0 : in_grid [2; 2]%Z [ndiv (nofZ (2 - 1)) (nofZ 2); ndiv (nofZ (2 - 1)) (nofZ 2)]).
  { apply sh_guess; cbn [ndiv nofZ NumR]; change (IZR (2 - 1)) with 1; lra. }
  destruct (reset_good _ s0 [2; 2]%Z [0; 1]%Z shC _ [(1 + 3) / 2; (0 + 1) / 2] sh_data E0 G0 eq_refl) as (s & E & _). rewrite E. cbn [bind].
  destruct (C13_affine_one_step gels2 100 tol [2; 2]%Z [0; 1]%Z shC s0 s _ [(1 + 3) / 2; (0 + 1) / 2] [1; -1] shA [1 / 4; 1 / 2] gels2_spec22 sh_data eq_refl
    sh_affine sh_invertible E0 G0) as (code & s' & N1 & N2 & _ & N3); auto.
  - apply sh_guess; lra.
  - intros i Hi. destruct i as [|[|i]]; simpl in *; [lra|lra|lia].
  - rewrite (N3 ltac:(lia) TP) in N1. unfold fp_search. cbn [fp_loop]. rewrite N1. cbn [bind fst snd Z.eqb Pos.eqb]. rewrite N2. reflexivity.
Qed.
