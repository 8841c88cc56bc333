(** Points in triangles and on edges, in IEEE double arithmetic, for a linear solver with small residuals. *)
From Coq Require Import ZArith List Bool Reals Lra Lia Floats.SpecFloat.
From Flocq Require Import Core BinarySingleNaN Plus_error.
From Verif Require Import Base Num NumR NumF M_LinearSolve M_Triangulate M_Quad S_Geometry S_Quad
  L_LinearSolve L_Float L_FloatOps L_QuadBoxF.
Import ListNotations.
Open Scope R_scope.

(** A solver with small residuals on 2 x 2 systems.  The entries of the matrix and of the right-hand side are
    finite and of magnitude at most A.  If the solver reports no singular matrix and returns finite numbers x, y then
    each equation holds up to eta A (1 + |x| + |y|).  For a zero matrix it returns zeros.  Nothing is assumed
    about how close x and y are to the solution. *)
Definition residual2 (eta : R) (g : gels spec_float) : Prop :=
  forall a00 a01 a10 a11 b0 b1 lw A, dbl a00 -> dbl a01 -> dbl a10 -> dbl a11 -> dbl b0 -> dbl b1 ->
  Rabs (fval a00) <= A -> Rabs (fval a01) <= A -> Rabs (fval a10) <= A -> Rabs (fval a11) <= A -> Rabs (fval b0) <= A -> Rabs (fval b1) <= A ->
  A <= bpow radix2 950 ->
  let r := g 2%Z 2%Z [a00; a01; a10; a11] 2%Z [b0; b1] 2%Z lw in
  let x := g_rhs r 0 in let y := g_rhs r 1 in
  fok x /\ fok y /\ ((g_info r <= 0)%Z ->
    (fval a00 = 0 /\ fval a01 = 0 /\ fval a10 = 0 /\ fval a11 = 0 -> dbl x /\ dbl y /\ fval x = 0 /\ fval y = 0) /\
    (~ (fval a00 = 0 /\ fval a01 = 0 /\ fval a10 = 0 /\ fval a11 = 0) -> dbl x -> dbl y ->
     Rabs (fval a00 * fval x + fval a01 * fval y - fval b0) <= eta * A * (1 + Rabs (fval x) + Rabs (fval y)) /\
     Rabs (fval a10 * fval x + fval a11 * fval y - fval b1) <= eta * A * (1 + Rabs (fval x) + Rabs (fval y)))).

Lemma solve2_eq : forall (g : gels spec_float) a00 a01 a10 a11 b0 b1, exists lw,
  let r := g 2%Z 2%Z [a00; a01; a10; a11] 2%Z [b0; b1] 2%Z lw in
  solve2 g a00 a01 a10 a11 b0 b1 = (g_info r, (g_rhs r 0, g_rhs r 1)).
Proof. intros. eexists. cbv zeta. unfold solve2. reflexivity. Qed.

(** ** Single operations *)
Lemma u_rng : 0 < uround <= / 1000000. Proof. unfold uround. lra. Qed.
Lemma u_bpow : uround = bpow radix2 (-53).
Proof. unfold uround. change (bpow radix2 (-53)) with (/ IZR (2 ^ 53)). change (2 ^ 53)%Z with 9007199254740992%Z. reflexivity. Qed.

Lemma f_opp : forall x, dbl x -> dbl (nopp x) /\ fval (nopp x) = - fval x.
Proof.
  intros x [V F]. cbn [nopp NumF]. destruct x as [s|s| |s m e]; try discriminate; unfold SFopp.
  - split; [split; auto|unfold fval; cbn; ring].
  - split; [split; auto|]. unfold fval. cbn [SF2R]. rewrite <- F2R_Zopp. f_equal. destruct s; reflexivity.
Qed.

(** A double between finite bounds is finite. *)
Lemma between_dbl : forall x lo hi, fok x -> dbl lo -> dbl hi -> nlt lo x = true \/ nle lo x = true ->
  nlt x hi = true \/ nle x hi = true -> dbl x.
Proof.
  intros x lo hi V [_ L] [_ H] A B. split; [exact V|]. cbn [nlt nle NumF] in *. unfold SFltb, SFleb in *.
  destruct x as [s|s| |s m e]; auto.
  - destruct s; [destruct lo as [[]|[]| |[]]|destruct hi as [[]|[]| |[]]]; try discriminate; cbn in *; destruct A as [A|A]; destruct B as [B|B]; discriminate.
  - destruct lo as [[]|[]| |[]]; try discriminate; cbn in *; destruct A as [A|A]; discriminate.
Qed.

Lemma sum_dbl : forall x y lo hi, dbl x -> fok y -> dbl lo -> dbl hi -> nlt lo y = true -> nle (nadd x y) hi = true -> dbl y.
Proof.
  intros x y lo hi [_ X] V [_ L] [_ H] A B. split; [exact V|]. cbn [nlt nle nadd NumF] in *. unfold SFltb, SFleb in *.
  destruct y as [s|s| |s m e]; auto.
  - destruct s; [destruct lo as [[]|[]| |[]]; try discriminate|].
    destruct x as [[]|[]| |[] ? ?]; try discriminate; destruct hi as [[]|[]| |[]]; try discriminate.
  - destruct lo as [[]|[]| |[]]; discriminate.
Qed.

Lemma sum_le : forall x y h, dbl x -> dbl y -> dbl h -> nle (nadd x y) h = true -> 0 < fval x + fval y -> rnd (fval x + fval y) <= fval h.
Proof.
  intros x y h Dx Dy Dh H P. destruct (dbl_B x Dx) as (a & Ea & Fa & Va). destruct (dbl_B y Dy) as (b & Eb & Fb & Vb).
  assert (C := Bplus_correct fprec femax prec_pos prec_emax mode_NE a b Fa Fb). rewrite Va, Vb in C. fold (rnd (fval x + fval y)) in C.
  destruct (Rlt_bool (Rabs (rnd (fval x + fval y))) (bpow radix2 femax)).
  - destruct C as (C1 & C2 & _). destruct (B_dbl _ C2) as [D V]. rewrite <- add_B, <- Ea, <- Eb in D, V.
    rewrite f_le in H by auto. apply Rleb_true in H. rewrite V, C1 in H. exact H.
  - exfalso. destruct C as [C1 C2]. rewrite <- add_B, <- Ea, <- Eb in C1. rewrite C1 in H. destruct (Bsign a) eqn:Sa.
    + assert (N : forall c : binary_float fprec femax, is_finite c = true -> true = Bsign c -> B2R c <= 0).
      { intros c Fc Sc. destruct c as [s|s| |s m e B]; try discriminate; cbn [B2R Bsign] in *; [lra|]. subst s. apply F2R_le_0. simpl. lia. }
      assert (A1 := N a Fa ltac:(auto)). assert (A2 := N b Fb ltac:(auto)). lra.
    + destruct Dh as [_ Fh]. cbn [nle NumF] in H. unfold SFleb in H. cbn [binary_overflow overflow_to_inf] in H.
      destruct h as [[]|[]| |[]]; discriminate.
Qed.

Lemma tiny_u : etiny <= uround / 2.
Proof.
  rewrite u_bpow. unfold etiny. apply Rle_trans with (bpow radix2 (-54)); [apply bpow_le; lia|].
  replace (bpow radix2 (-53)) with (bpow radix2 1 * bpow radix2 (-54)) by (rewrite <- bpow_plus; reflexivity). simpl (bpow radix2 1). lra.
Qed.

Section Size.
Variable M : R.
Hypothesis M_lo : bpow radix2 (-1000) <= M.
Hypothesis M_hi : M <= bpow radix2 900.

Lemma M_pos : 0 < M.
Proof. assert (0 < bpow radix2 (-1000)) by apply bpow_gt_0. lra. Qed.

Lemma tiny_M : etiny <= uround * M.
Proof.
  assert (P := u_rng). apply Rle_trans with (uround * bpow radix2 (-1000)); [|apply Rmult_le_compat_l; lra].
  rewrite u_bpow, <- bpow_plus. unfold etiny. apply bpow_le. lia.
Qed.

Lemma big_M : forall k, k <= 100 -> k * M <= bpow radix2 1000.
Proof.
  intros k K. assert (P := M_pos). apply Rle_trans with (bpow radix2 7 * bpow radix2 900).
  - change (bpow radix2 7) with 128. apply Rle_trans with (128 * M); [apply Rmult_le_compat_r; lra|lra].
  - rewrite <- bpow_plus. apply bpow_le. lia.
Qed.

Lemma rnd_M : forall x k, 0 <= k <= 100 -> Rabs x <= k * M -> Rabs (rnd x - x) <= (k + 1) * (uround * M).
Proof.
  intros x k K H. assert (P := u_rng). assert (E := rnd_error x). assert (T := tiny_M).
  assert (uround * Rabs x <= uround * (k * M)) by (apply Rmult_le_compat_l; lra). lra.
Qed.

Lemma uM : 0 < uround * M <= M / 1000000.
Proof. assert (P := u_rng). assert (Q := M_pos). split; [apply Rmult_lt_0_compat; lra|]. assert (uround * M <= / 1000000 * M) by (apply Rmult_le_compat_r; lra). lra. Qed.

Lemma sub_M : forall x y, dbl x -> dbl y -> Rabs (fval x) <= M -> Rabs (fval y) <= M ->
  dbl (nsub x y) /\ Rabs (fval (nsub x y) - (fval x - fval y)) <= 3 * (uround * M) /\ Rabs (fval (nsub x y)) <= 3 * M /\
  (fval (nsub x y) = 0 -> fval x = fval y).
Proof.
  intros x y Dx Dy Bx By. assert (B : Rabs (fval x - fval y) <= 2 * M) by (eapply Rle_trans; [apply Rabs_triang|rewrite Rabs_Ropp; lra]).
  destruct (f_sub x y Dx Dy) as [D V]; [eapply Rle_trans; [exact B|apply big_M; lra]|].
  assert (E := rnd_M _ 2 ltac:(lra) B). assert (Q := uM).
  split; [exact D|]. rewrite V. split; [lra|]. split.
  - replace (rnd (fval x - fval y)) with ((rnd (fval x - fval y) - (fval x - fval y)) + (fval x - fval y)) by ring.
    eapply Rle_trans; [apply Rabs_triang|]. lra.
  - intros Z. destruct (Req_dec (fval x + - fval y) 0) as [H|H]; [lra|]. exfalso.
    assert (Vf : Valid_exp (SpecFloat.fexp fprec femax)) by (apply FLT_exp_valid; reflexivity).
    refine (round_plus_neq_0 radix2 (SpecFloat.fexp fprec femax) (round_mode mode_NE) (fval x) (- fval y) _ _ H Z).
    + apply dbl_format; auto.
    + apply generic_format_opp, dbl_format; auto.
Qed.

(** A point at a parameter in [-1, 2] of an edge. *)
Lemma along_M : forall a b t, dbl a -> dbl b -> dbl t -> Rabs (fval a) <= M -> Rabs (fval b) <= M -> Rabs (fval t) <= 2 ->
  let p := nadd a (nmul t (nsub b a)) in
  dbl p /\ Rabs (fval p - (fval a + fval t * (fval b - fval a))) <= 22 * (uround * M).
Proof.
  intros a b t Da Db Dt Ba Bb Bt p. destruct (sub_M b a Db Da Bb Ba) as (D1 & E1 & B1 & _). assert (P := M_pos). assert (Q := uM).
  set (d := nsub b a) in *.
  assert (B2 : Rabs (fval t * fval d) <= 6 * M).
  { rewrite Rabs_mult. apply Rle_trans with (2 * (3 * M)); [apply Rmult_le_compat; auto using Rabs_pos|lra]. }
  destruct (f_mul t d Dt D1) as [D2 V2]; [eapply Rle_trans; [exact B2|apply big_M; lra]|].
  assert (E2 := rnd_M _ 6 ltac:(lra) B2). rewrite <- V2 in E2.
  assert (B3 : Rabs (fval a + fval (nmul t d)) <= 8 * M).
  { replace (fval a + fval (nmul t d)) with (fval a + (fval t * fval d + (fval (nmul t d) - fval t * fval d))) by ring.
    eapply Rle_trans; [apply Rabs_triang|]. eapply Rle_trans; [apply Rplus_le_compat_l, Rabs_triang|]. lra. }
  destruct (f_add a (nmul t d) Da D2) as [D3 V3]; [eapply Rle_trans; [exact B3|apply big_M; lra]|].
  assert (E3 := rnd_M _ 8 ltac:(lra) B3). rewrite <- V3 in E3. split; [exact D3|]. unfold p.
  assert (E4 : Rabs (fval t * (fval d - (fval b - fval a))) <= 2 * (3 * (uround * M))) by (rewrite Rabs_mult; apply Rmult_le_compat; auto using Rabs_pos).
  apply Rabs_le_inv in E2, E3, E4. apply Rabs_le. lra.
Qed.

(** One equation of the system, with exact differences. *)
Lemma row_near : forall A0 A1 B d0 d1 f x y e rho, Rabs (A0 - d0) <= e -> Rabs (A1 - d1) <= e -> Rabs (B - f) <= e ->
  Rabs (A0 * x + A1 * y - B) <= rho -> Rabs x <= 2 -> Rabs y <= 2 -> Rabs (d0 * x + d1 * y - f) <= rho + 5 * e.
Proof.
  intros A0 A1 B d0 d1 f x y e rho E0 E1 E2 R X Y.
  assert (F0 : Rabs ((A0 - d0) * x) <= e * 2) by (rewrite Rabs_mult; apply Rmult_le_compat; auto using Rabs_pos).
  assert (F1 : Rabs ((A1 - d1) * y) <= e * 2) by (rewrite Rabs_mult; apply Rmult_le_compat; auto using Rabs_pos).
  apply Rabs_le_inv in E2, R, F0, F1. apply Rabs_le. lra.
Qed.

Variable eta : R.
Hypothesis eta_pos : 0 <= eta.
Variable g : gels spec_float.
Hypothesis G : residual2 eta g.

Definition small (p : pt spec_float) : Prop := dblp p /\ Rabs (fval (fst p)) <= M /\ Rabs (fval (snd p)) <= M.

(** How far two points may be apart: the residual and the rounding of the differences. *)
Definition dist0 : R := 15 * (eta * M) + 15 * (uround * M).

Lemma etaA : forall x y, Rabs x <= 2 -> Rabs y <= 2 -> eta * (3 * M) * (1 + Rabs x + Rabs y) <= 15 * (eta * M).
Proof.
  intros x y X Y. assert (P := M_pos). assert (0 <= eta * (3 * M)) by (apply Rmult_le_pos; lra).
  apply Rle_trans with (eta * (3 * M) * 5); [apply Rmult_le_compat_l; lra|lra].
Qed.

(** The differences a - b of the coordinates of six points, solved. *)
Lemma solve_M : forall (a0 b0 a1 b1 a2 b2 : pt spec_float), small a0 -> small b0 -> small a1 -> small b1 -> small a2 -> small b2 ->
  let r := solve2 g (nsub (fst a0) (fst b0)) (nsub (fst a1) (fst b1)) (nsub (snd a0) (snd b0)) (nsub (snd a1) (snd b1)) (nsub (fst a2) (fst b2)) (nsub (snd a2) (snd b2)) in
  let x := fst (snd r) in let y := snd (snd r) in
  fok x /\ fok y /\ ((fst r <= 0)%Z ->
    (valp a0 = valp b0 -> valp a1 = valp b1 -> fval x = 0 /\ fval y = 0) /\
    (~ (valp a0 = valp b0 /\ valp a1 = valp b1) -> dbl x -> dbl y -> Rabs (fval x) <= 2 -> Rabs (fval y) <= 2 ->
      Rabs ((fst (valp a0) - fst (valp b0)) * fval x + (fst (valp a1) - fst (valp b1)) * fval y - (fst (valp a2) - fst (valp b2))) <= dist0 /\
      Rabs ((snd (valp a0) - snd (valp b0)) * fval x + (snd (valp a1) - snd (valp b1)) * fval y - (snd (valp a2) - snd (valp b2))) <= dist0)).
Proof.
  intros a0 b0 a1 b1 a2 b2 [[Da0 Da0'] [Ba0 Ba0']] [[Db0 Db0'] [Bb0 Bb0']] [[Da1 Da1'] [Ba1 Ba1']] [[Db1 Db1'] [Bb1 Bb1']] [[Da2 Da2'] [Ba2 Ba2']] [[Db2 Db2'] [Bb2 Bb2']].
  destruct (sub_M _ _ Da0 Db0 Ba0 Bb0) as (D1 & E1 & F1 & Z1). destruct (sub_M _ _ Da0' Db0' Ba0' Bb0') as (D2 & E2 & F2 & Z2).
  destruct (sub_M _ _ Da1 Db1 Ba1 Bb1) as (D3 & E3 & F3 & Z3). destruct (sub_M _ _ Da1' Db1' Ba1' Bb1') as (D4 & E4 & F4 & Z4).
  destruct (sub_M _ _ Da2 Db2 Ba2 Bb2) as (D5 & E5 & F5 & _). destruct (sub_M _ _ Da2' Db2' Ba2' Bb2') as (D6 & E6 & F6 & _).
  destruct (solve2_eq g (nsub (fst a0) (fst b0)) (nsub (fst a1) (fst b1)) (nsub (snd a0) (snd b0)) (nsub (snd a1) (snd b1)) (nsub (fst a2) (fst b2)) (nsub (snd a2) (snd b2))) as (lw & EQ).
  cbv zeta in *. rewrite EQ. cbn [fst snd].
  assert (HM : 3 * M <= bpow radix2 950).
  { apply Rle_trans with (bpow radix2 7 * bpow radix2 900); [|rewrite <- bpow_plus; apply bpow_le; lia].
    assert (P := M_pos). change (bpow radix2 7) with 128. lra. }
  destruct (G _ _ _ _ _ _ lw (3 * M) D1 D3 D2 D4 D5 D6 F1 F3 F2 F4 F5 F6 HM) as (V0 & V1 & K). cbv zeta in *.
  split; [exact V0|]. split; [exact V1|]. intros I. destruct (K I) as [K0 K1]. unfold valp. cbn [fst snd]. split.
  - intros Q0 Q1. injection Q0 as Q0 Q0'. injection Q1 as Q1 Q1'.
    destruct K0 as (_ & _ & X & Y); auto.
    assert (Z : forall x y, dbl x -> dbl y -> fval x = fval y -> fval (nsub x y) = 0).
    { intros x y Dx Dy E. destruct (f_sub x y Dx Dy) as [_ ->]; rewrite E, Rminus_eq_0.
      - rewrite Rabs_R0. apply bpow_ge_0.
      - apply (rnd_Z 0). lia. }
    repeat split; apply Z; auto.
  - intros NZ Dx Dy Bx By. destruct K1 as [R0 R1]; auto.
    { intros (N1 & N2 & N3 & N4). apply NZ. rewrite (Z1 N1), (Z2 N3), (Z3 N2), (Z4 N4). auto. }
    assert (S := etaA _ _ Bx By). unfold dist0. 
    assert (T0 := row_near _ _ _ _ _ _ _ _ _ _ E1 E3 E5 R0 Bx By). assert (T1 := row_near _ _ _ _ _ _ _ _ _ _ E2 E4 E6 R1 Bx By).
    split; [eapply Rle_trans; [exact T0|lra]|eapply Rle_trans; [exact T1|lra]].
Qed.

(** ** Triangle test *)
Variable tol : spec_float.
Hypothesis tol_dbl : dbl tol.
Hypothesis tol_rng : 16 * uround <= fval tol <= / 1024.

Lemma one_tol : dbl (nadd n1 tol) /\ fval (nadd n1 tol) <= 1 + fval tol + 2 * uround.
Proof.
  destruct (f_ofZ 1 ltac:(lia)) as [D1 V1]. assert (P := u_rng).
  assert (B : Rabs (1 + fval tol) <= 1 + / 1024) by (apply Rabs_le; lra).
  destruct (f_add (nofZ 1) tol D1 tol_dbl) as [D V].
  { rewrite V1. eapply Rle_trans; [exact B|]. apply Rle_trans with (bpow radix2 1); [simpl; lra|apply bpow_le; lia]. }
  split; [exact D|]. change (fval (nadd n1 tol)) with (fval (nadd (nofZ 1) tol)). rewrite V, V1.
  assert (E := rnd_error (1 + fval tol)). assert (uround * Rabs (1 + fval tol) <= uround * (1 + / 1024)) by (apply Rmult_le_compat_l; lra).
  assert (T := tiny_u).
  apply Rabs_le_inv in E. lra.
Qed.

Definition near (d : R) (p r : point) : Prop := Rabs (fst p - fst r) <= d /\ Rabs (snd p - snd r) <= d.

Lemma tri_near : forall p a b c, small p -> small a -> small b -> small c -> ~ (valp a = valp b /\ valp a = valp c) ->
  tri_inside tol g p a b c = true -> exists xi et, - (2 * fval tol) <= xi /\ - (2 * fval tol) <= et /\ - (2 * fval tol) <= 1 - xi - et /\
    near dist0 (valp p) (fst (valp a) + xi * (fst (valp b) - fst (valp a)) + et * (fst (valp c) - fst (valp a)),
                         snd (valp a) + xi * (snd (valp b) - snd (valp a)) + et * (snd (valp c) - snd (valp a))).
Proof.
  intros p a b c Sp Sa Sb Sc NE H. unfold tri_inside in H.
  assert (K := solve_M b a c a p a Sb Sa Sc Sa Sp Sa). cbv zeta in K.
  destruct (solve2 g _ _ _ _ _ _) as [ier [x y]]. cbn [fst snd] in K. destruct K as (Vx & Vy & K).
  destruct (0 <? ier)%Z eqn:I; [discriminate|]. apply Z.ltb_ge in I. destruct (K I) as [_ K1].
  rewrite !andb_true_iff in H. destruct H as [[[H1 H2] H3] H4].
  destruct (f_opp tol tol_dbl) as [Do Vo]. destruct one_tol as [D1 V1]. assert (P := u_rng).
  assert (Dx : dbl x) by (eapply between_dbl; [exact Vx|exact Do|exact D1|left; exact H1|right; exact H2]).
  assert (Dy : dbl y) by (eapply sum_dbl; [exact Dx|exact Vy|exact Do|exact D1|exact H3|exact H4]).
  rewrite f_lt in H1, H3 by auto. rewrite f_le in H2 by auto. apply Rltb_true in H1, H3. apply Rleb_true in H2. rewrite Vo in H1, H3.
  assert (By : fval y <= 1 + 3 * fval tol -> Rabs (fval y) <= 2) by (intros; apply Rabs_le; lra).
  assert (Bx : Rabs (fval x) <= 2) by (apply Rabs_le; lra).
  assert (S : fval x + fval y <= 1 + 2 * fval tol).
  { destruct (Rle_dec (fval x + fval y) 1) as [L|L]; [lra|].
    assert (Q := sum_le x y _ Dx Dy D1 H4 ltac:(lra)).
    assert (E := rnd_error (fval x + fval y)). rewrite Rabs_pos_eq with (x := fval x + fval y) in E by lra.
    apply Rabs_le_inv in E. assert (T := tiny_u).
    assert (W : (1 - uround) * (fval x + fval y) <= 1 + fval tol + 3 * uround) by lra.
    assert (Z : (1 - uround) * (1 + 2 * fval tol) >= 1 + fval tol + 3 * uround).
    { assert (uround * fval tol <= uround * / 1024) by (apply Rmult_le_compat_l; lra). lra. }
    apply Rmult_le_reg_l with (1 - uround); lra. }
  assert (By' : Rabs (fval y) <= 2) by (apply By; lra).
  destruct K1 as [R0 R1]; auto; [intros [N1 N2]; apply NE; auto|].
  exists (fval x), (fval y). split; [lra|]. split; [lra|]. split; [lra|]. unfold near. cbn [fst snd].
  rewrite <- Rabs_Ropp in R0, R1. split; [eapply Rle_trans; [|exact R0]|eapply Rle_trans; [|exact R1]]; right; f_equal; unfold valp; cbn [fst snd]; ring.
Qed.

Definition not_collapsed (q : quad R) : Prop := ~ (q0 q = q1 q /\ q0 q = q3 q) /\ ~ (q2 q = q3 q /\ q2 q = q1 q).
Definition smallq (q : quad spec_float) : Prop := small (q0 q) /\ small (q1 q) /\ small (q2 q) /\ small (q3 q).
Definition nodes (q : quad R) : list point := [q0 q; q1 q; q2 q; q3 q].

Lemma inside_near : forall p q, small p -> smallq q -> not_collapsed (valq q) -> quad_inside tol g p q = true ->
  exists r, combination (2 * fval tol) (nodes (valq q)) r /\ near dist0 (valp p) r.
Proof.
  intros p q Sp (S0 & S1 & S2 & S3) [N1 N2] H. unfold quad_inside in H. apply orb_prop in H.
  destruct H as [H|H]; apply tri_near in H; auto; destruct H as (xi & et & A1 & A2 & A3 & A4); eexists; (split; [|exact A4]).
  - exists [1 - xi - et; xi; 0; et]. split; [reflexivity|]. assert (P := u_rng). split; [repeat (constructor; [lra|]); constructor|].
    unfold valq. cbn [wsum nodes map q0 q1 q2 q3 fst snd]. repeat split; ring.
  - exists [0; et; 1 - xi - et; xi]. split; [reflexivity|]. assert (P := u_rng). split; [repeat (constructor; [lra|]); constructor|].
    unfold valq. cbn [wsum nodes map q0 q1 q2 q3 fst snd]. repeat split; ring.
Qed.
End Size.
