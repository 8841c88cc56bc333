(** The points returned by the intersection classes, in IEEE double arithmetic, and a solver with small residuals. *)
From Coq Require Import ZArith List Bool Reals Lra Lia Floats.SpecFloat.
From Flocq Require Import Core BinarySingleNaN.
From Verif Require Import Base Num NumR NumF M_LinearSolve M_Triangulate M_Quad M_QuadIntersect M_QuadLine S_Geometry S_Quad
  L_LinearSolve L_Float L_FloatOps L_QuadBoxF L_ResidualF.
Import ListNotations.
Open Scope R_scope.

Lemma near_trans : forall d d' p q r, near d p q -> near d' q r -> near (d + d') p r.
Proof.
  intros d d' p q r [A B] [A' B']. apply Rabs_le_inv in A, B, A', B'. split; apply Rabs_le; lra.
Qed.
Lemma near_le : forall d d' p q, near d p q -> d <= d' -> near d' p q.
Proof. intros d d' p q [A B] H. split; lra. Qed.

(** ** The tolerances *)
Lemma qi_tol_val : dbl qi_tol /\ / 10 ^ 12 / 2 <= fval qi_tol <= 3 / 10 ^ 12 / 2.
Proof.
  assert (E : qi_tol = S754_finite false 4951760157141521 (-92)) by (vm_compute; reflexivity). rewrite E.
  split; [split; vm_compute; reflexivity|]. unfold fval. cbn [SF2R cond_Zopp]. unfold F2R. simpl Fnum. simpl Fexp.
  change (bpow radix2 (-92)) with (/ IZR (2 ^ 92)). change (2 ^ 92)%Z with 4951760157141521099596496896%Z. lra.
Qed.
Lemma ql_tol_val : dbl ql_tol /\ fval ql_tol = 100 / 2 ^ 52.
Proof.
  assert (E : ql_tol = S754_finite false 7036874417766400 (-98)) by (vm_compute; reflexivity). rewrite E.
  split; [split; vm_compute; reflexivity|]. unfold fval. cbn [SF2R cond_Zopp]. unfold F2R. simpl Fnum. simpl Fexp.
  change (bpow radix2 (-98)) with (/ IZR (2 ^ 98)). change (2 ^ 98)%Z with 316912650057057350374175801344%Z. lra.
Qed.

Section Points.
Variable M : R.
Hypothesis M_lo : bpow radix2 (-1000) <= M.
Hypothesis M_hi : M <= bpow radix2 900.
Variable eta : R.
Hypothesis eta_pos : 0 <= eta.
Variable g : gels spec_float.
Hypothesis G : residual2 eta g.

Lemma one_minus : dbl (nsub n1 qi_tol) /\ fval (nsub n1 qi_tol) <= 1.
Proof.
  destruct qi_tol_val as [D V]. destruct (f_ofZ 1 ltac:(lia)) as [D1 V1].
  destruct (f_sub (nofZ 1) qi_tol D1 D) as [D2 V2].
  { rewrite V1. apply Rle_trans with (bpow radix2 1); [change (bpow radix2 1) with 2; apply Rabs_le; lra|apply bpow_le; lia]. }
  split; [exact D2|]. change (fval (nsub n1 qi_tol)) with (fval (nsub (nofZ 1) qi_tol)). rewrite V2, V1.
  eapply Rle_trans; [apply (rnd_le _ 1); lra|]. rewrite (rnd_Z 1) by lia. lra.
Qed.

(** A point on the edge of a quad. *)
Lemma edge_comb : forall q (e : pt spec_float * pt spec_float) tol x, In e (qedges q) -> 0 <= tol -> - tol <= x <= 1 + tol ->
  combination tol (nodes (valq q)) (on_seg (valp (fst e)) (valp (snd e)) x).
Proof.
  intros q e tol x He T Hx. unfold qedges in He. cbn [In] in He.
  destruct He as [<- |[<- |[<- |[<- |[]]]]]; unfold valq, on_seg; cbn [fst snd];
    [exists [1 - x; x; 0; 0]|exists [0; 1 - x; x; 0]|exists [0; 0; 1 - x; x]|exists [x; 0; 0; 1 - x]];
    (split; [reflexivity|]; split; [repeat (constructor; [lra|]); constructor|]; cbn [wsum nodes map q0 q1 q2 q3 fst snd]; repeat split; ring).
Qed.

Lemma edge_small : forall q (e : pt spec_float * pt spec_float), smallq M q -> In e (qedges q) -> small M (fst e) /\ small M (snd e).
Proof.
  intros q e (S0 & S1 & S2 & S3) He. unfold qedges in He. cbn [In] in He.
  destruct He as [<- |[<- |[<- |[<- |[]]]]]; cbn [fst snd]; auto.
Qed.

Definition dist1 : R := (15 * eta + 37 * uround) * M.

(** The bound for on_seg a b x and on_seg c d y from the equations. *)
Lemma seg_near : forall (a b c d : point) x y k,
  Rabs ((fst b - fst a) * x + (fst c - fst d) * y - (fst c - fst a)) <= k ->
  Rabs ((snd b - snd a) * x + (snd c - snd d) * y - (snd c - snd a)) <= k ->
  near k (on_seg a b x) (on_seg c d y).
Proof.
  intros a b c d x y k A B. unfold near, on_seg. cbn [fst snd].
  split; [eapply Rle_trans; [|exact A]|eapply Rle_trans; [|exact B]]; right; f_equal; ring.
Qed.

Lemma along_near : forall a b t, small M a -> small M b -> dbl t -> Rabs (fval t) <= 2 ->
  dblp (along a b t) /\ near (22 * (uround * M)) (valp (along a b t)) (on_seg (valp a) (valp b) (fval t)).
Proof.
  intros a b t [[Da Da'] [Ba Ba']] [[Db Db'] [Bb Bb']] Dt Bt.
  destruct (along_M M M_lo M_hi _ _ t Da Db Dt Ba Bb Bt) as [D1 E1]. destruct (along_M M M_lo M_hi _ _ t Da' Db' Dt Ba' Bb' Bt) as [D2 E2].
  cbv zeta in *. split; [split; auto|]. split; [exact E1|exact E2].
Qed.

Lemma edge_edge_near : forall a b c d p, small M a -> small M b -> small M c -> small M d -> In p (edge_edge g a b c d) ->
  dblp p /\ exists x y, 0 <= x <= 1 /\ 0 <= y <= 1 /\ near dist1 (valp p) (on_seg (valp a) (valp b) x) /\ near dist1 (valp p) (on_seg (valp c) (valp d) y).
Proof.
  intros a b c d p Sa Sb Sc Sd H. unfold edge_edge in H.
  assert (K := solve_M M M_lo M_hi eta eta_pos g G b a c d c a Sb Sa Sc Sd Sc Sa). cbv zeta in K.
  destruct (solve2 g _ _ _ _ _ _) as [ier [x y]]. cbn [fst snd] in K. destruct K as (Vx & Vy & K).
  destruct (0 <? ier)%Z eqn:I; [destruct H|]. apply Z.ltb_ge in I. destruct (K I) as [K0 K1].
  destruct ((x >? qi_tol) && (x <=? n1 - qi_tol) && (y >? qi_tol) && (y <=? n1 - qi_tol))%num eqn:C; [|destruct H].
  destruct H as [<- |[]]. rewrite !andb_true_iff in C. destruct C as [[[H1 H2] H3] H4].
  destruct qi_tol_val as [Dt Vt]. destruct one_minus as [D1 V1]. assert (P := u_rng).
  assert (Dx : dbl x) by (eapply between_dbl; [exact Vx|exact Dt|exact D1|left; exact H1|right; exact H2]).
  assert (Dy : dbl y) by (eapply between_dbl; [exact Vy|exact Dt|exact D1|left; exact H3|right; exact H4]).
  rewrite f_lt in H1, H3 by auto. rewrite f_le in H2, H4 by auto. apply Rltb_true in H1, H3. apply Rleb_true in H2, H4.
  assert (Bx : Rabs (fval x) <= 2) by (apply Rabs_le; lra). assert (By : Rabs (fval y) <= 2) by (apply Rabs_le; lra).
  destruct K1 as [R0 R1]; auto.
  { intros [N1 N2]. destruct (K0 N1 N2) as [Z _]. lra. }
  destruct (along_near a b x Sa Sb Dx Bx) as [DA NA]. split; [exact DA|].
  assert (S := seg_near _ _ _ _ _ _ _ R0 R1).
  assert (Q := uM M M_lo). assert (PM := M_pos M M_lo). assert (0 <= eta * M) by (apply Rmult_le_pos; lra). exists (fval x), (fval y). split; [lra|]. split; [lra|]. split.
  - eapply near_le; [exact NA|]. unfold dist1. lra.
  - eapply near_le; [eapply near_trans; [exact NA|exact S]|]. unfold dist0, dist1. lra.
Qed.

Definition in_both (a b : quad spec_float) (p : pt spec_float) : Prop := dblp p /\
  (exists r, combination (3 / 10 ^ 12) (nodes (valq a)) r /\ near dist1 (valp p) r) /\
  (exists r, combination (3 / 10 ^ 12) (nodes (valq b)) r /\ near dist1 (valp p) r).

Lemma comb_le : forall t t' V p, t <= t' -> combination t V p -> combination t' V p.
Proof. intros t t' V p H (w & A & B & C). exists w. split; auto. split; auto. eapply Forall_impl; [|exact B]. cbn. intros. lra. Qed.

Lemma dist_le : 0 <= dist1 /\ dist0 M eta <= dist1.
Proof.
  assert (Q := uM M M_lo). assert (PM := M_pos M M_lo). assert (0 <= eta * M) by (apply Rmult_le_pos; lra). unfold dist0, dist1. lra.
Qed.

Lemma node_comb : forall q p t, 0 <= t -> In p [q0 q; q1 q; q2 q; q3 q] -> combination t (nodes (valq q)) (valp p).
Proof.
  intros q p t T H. cbn [In] in H. destruct H as [<- |[<- |[<- |[<- |[]]]]];
    [exists [1; 0; 0; 0]|exists [0; 1; 0; 0]|exists [0; 0; 1; 0]|exists [0; 0; 0; 1]];
    (split; [reflexivity|]; split; [repeat (constructor; [lra|]); constructor|]; unfold valq, valp; cbn [wsum nodes map q0 q1 q2 q3 fst snd]; repeat split; ring).
Qed.

Lemma node_small : forall q (p : pt spec_float), smallq M q -> In p [q0 q; q1 q; q2 q; q3 q] -> small M p.
Proof. intros q p (S0 & S1 & S2 & S3) H. cbn [In] in H. destruct H as [<- |[<- |[<- |[<- |[]]]]]; auto. Qed.

Lemma near_refl : forall d p, 0 <= d -> near d p p.
Proof. intros d p H. split; rewrite Rminus_eq_0, Rabs_R0; auto. Qed.

Theorem points_near : forall a b p, smallq M a -> smallq M b -> not_collapsed (valq a) -> not_collapsed (valq b) ->
  In p (quad_points g a b) -> in_both a b p.
Proof.
  intros a b p Sa Sb Na Nb H. unfold quad_points in H. destruct qi_tol_val as [Dt Vt]. assert (P := u_rng). destruct dist_le as [D0 D1].
  assert (TR : 16 * uround <= fval qi_tol <= / 1024) by (unfold uround in *; lra).
  apply in_app_or in H. destruct H as [H|H]; [|apply in_app_or in H; destruct H as [H|H]].
  - apply filter_In in H. destruct H as [H I]. assert (Sp := node_small a p Sa H). destruct (inside_near M M_lo M_hi eta eta_pos g G qi_tol Dt TR p b Sp Sb Nb I) as (r & R1 & R2).
    split; [apply Sp|]. split.
    + exists (valp p). split; [apply node_comb; auto; lra|apply near_refl; auto].
    + exists r. split; [eapply comb_le; [|exact R1]; lra|eapply near_le; [exact R2|exact D1]].
  - apply filter_In in H. destruct H as [H I]. assert (Sp := node_small b p Sb H). destruct (inside_near M M_lo M_hi eta eta_pos g G qi_tol Dt TR p a Sp Sa Na I) as (r & R1 & R2).
    split; [apply Sp|]. split.
    + exists r. split; [eapply comb_le; [|exact R1]; lra|eapply near_le; [exact R2|exact D1]].
    + exists (valp p). split; [apply node_comb; auto; lra|apply near_refl; auto].
  - apply in_flat_map in H. destruct H as (e & He & H). apply in_flat_map in H. destruct H as (f & Hf & H).
    destruct (edge_small a e Sa He) as [S1 S2]. destruct (edge_small b f Sb Hf) as [S3 S4].
    destruct (edge_edge_near _ _ _ _ p S1 S2 S3 S4 H) as (D & x & y & X & Y & N1 & N2). split; [exact D|]. split.
    + eexists. split; [|exact N1]. apply edge_comb; auto; lra.
    + eexists. split; [|exact N2]. apply edge_comb; auto; lra.
Qed.

(** ** A quad and a segment *)
Lemma edge_line_near : forall a b c d t, small M a -> small M b -> small M c -> small M d -> valp a <> valp b -> In t (edge_line g a b c d) ->
  dbl t /\ Rabs (fval t) <= 2 /\ exists x, - (200 / 2 ^ 52) <= x <= 1 + 200 / 2 ^ 52 /\ near (dist0 M eta) (on_seg (valp a) (valp b) x) (on_seg (valp c) (valp d) (fval t)).
Proof.
  intros a b c d p Sa Sb Sc Sd NE H. unfold edge_line in H.
  assert (K := solve_M M M_lo M_hi eta eta_pos g G b a c d c a Sb Sa Sc Sd Sc Sa). cbv zeta in K.
  destruct (solve2 g _ _ _ _ _ _) as [ier [x y]]. cbn [fst snd] in K. destruct K as (Vx & Vy & K).
  destruct (0 <? ier)%Z eqn:I; [destruct H|]. apply Z.ltb_ge in I. destruct (K I) as [_ K1].
  destruct ((x >=? - ql_tol) && (x <? n1 + ql_tol) && (y >=? - ql_tol) && (y <? n1 + ql_tol))%num eqn:C; [|destruct H].
  destruct H as [<- |[]]. rewrite !andb_true_iff in C. destruct C as [[[H1 H2] H3] H4].
  destruct ql_tol_val as [Dt Vt]. assert (P := u_rng).
  assert (TR : 16 * uround <= fval ql_tol <= / 1024) by (rewrite Vt; unfold uround; lra).
  destruct (one_tol ql_tol Dt TR) as [D1 V1]. destruct (f_opp ql_tol Dt) as [Do Vo].
  assert (Dx : dbl x) by (eapply between_dbl; [exact Vx|exact Do|exact D1|right; exact H1|left; exact H2]).
  assert (Dy : dbl y) by (eapply between_dbl; [exact Vy|exact Do|exact D1|right; exact H3|left; exact H4]).
  rewrite f_lt in H2, H4 by auto. rewrite f_le in H1, H3 by auto. apply Rltb_true in H2, H4. apply Rleb_true in H1, H3. rewrite Vo in H1, H3.
  assert (Bx : Rabs (fval x) <= 2) by (apply Rabs_le; lra). assert (By : Rabs (fval y) <= 2) by (apply Rabs_le; lra).
  destruct K1 as [R0 R1]; auto.
  { intros [N1 N2]. apply NE. auto. }
  split; [exact Dy|]. split; [exact By|]. exists (fval x). split; [lra|]. exact (seg_near _ _ _ _ _ _ _ R0 R1).
Qed.

Theorem line_points_near : forall q l t, smallq M q -> small M (fst l) -> small M (snd l) -> not_collapsed (valq q) ->
  (forall e, In e (qedges q) -> valp (fst e) <> valp (snd e)) -> In t (line_lambdas g q l) ->
  dblp (along (fst l) (snd l) t) /\ exists r, combination (200 / 2 ^ 52) (nodes (valq q)) r /\ near dist1 (valp (along (fst l) (snd l) t)) r.
Proof.
  intros q l t Sq Sc Sd NC NE H. unfold line_lambdas in H. destruct ql_tol_val as [Dt Vt]. assert (P := u_rng). destruct dist_le as [D0 D1].
  assert (TR : 16 * uround <= fval ql_tol <= / 1024) by (rewrite Vt; unfold uround; lra).
  assert (QT : dist0 M eta + 22 * (uround * M) <= dist1) by (unfold dist0, dist1; lra).
  assert (END : forall z p k, (z = 0 \/ z = 1)%Z -> t = nofZ z -> p = (if (z =? 0)%Z then fst l else snd l) -> quad_inside ql_tol g p q = true -> k = tt ->
    dblp (along (fst l) (snd l) t) /\ exists r, combination (200 / 2 ^ 52) (nodes (valq q)) r /\ near dist1 (valp (along (fst l) (snd l) t)) r).
  { intros z p k Hz -> -> HI _. destruct (f_ofZ z ltac:(lia)) as [Dz Vz].
    assert (Bz : Rabs (fval (nofZ z)) <= 2) by (rewrite Vz; destruct Hz as [-> | ->]; apply Rabs_le; lra).
    destruct (along_near _ _ _ Sc Sd Dz Bz) as [DA NA]. split; [exact DA|].
    assert (Sp : small M (if (z =? 0)%Z then fst l else snd l)) by (destruct (z =? 0)%Z; auto).
    destruct (inside_near M M_lo M_hi eta eta_pos g G ql_tol Dt TR _ q Sp Sq NC HI) as (r & R1 & R2). exists r.
    split; [eapply comb_le; [|exact R1]; rewrite Vt; lra|].
    eapply near_le; [eapply near_trans; [exact NA|]|rewrite Rplus_comm; exact QT].
    assert (ES : on_seg (valp (fst l)) (valp (snd l)) (fval (nofZ z)) = valp (if (z =? 0)%Z then fst l else snd l)).
    { rewrite Vz. destruct Hz as [-> | ->]; unfold on_seg, valp; cbn [fst snd Z.eqb]; f_equal; ring. }
    rewrite ES. exact R2. }
  apply in_app_or in H. destruct H as [H|H]; [|apply in_app_or in H; destruct H as [H|H]].
  - destruct (quad_inside ql_tol g (fst l) q) eqn:I; [|destruct H]. destruct H as [<- |[]]. apply (END 0%Z (fst l) tt); auto.
  - apply in_flat_map in H. destruct H as (e & He & H). destruct (edge_small q e Sq He) as [S1 S2].
    destruct (edge_line_near _ _ _ _ t S1 S2 Sc Sd (NE e He) H) as (Dtt & Bt & x & X & N).
    destruct (along_near _ _ _ Sc Sd Dtt Bt) as [DA NA]. split; [exact DA|]. eexists. split; [apply edge_comb; [exact He| |exact X]; lra|].
    eapply near_le; [eapply near_trans; [exact NA|]|rewrite Rplus_comm; exact QT].
    destruct N as [N1 N2]. split; rewrite Rabs_minus_sym; [exact N1|exact N2].
  - destruct (quad_inside ql_tol g (snd l) q) eqn:I; [|destruct H]. destruct H as [<- |[]]. apply (END 1%Z (snd l) tt); auto.
Qed.
End Points.

(** ** A solver with small residuals *)
(** The value of a double in units of 2^-1074. *)
Definition units (x : spec_float) : Z :=
  match x with S754_finite s m e => cond_Zopp s (Z.pos m) * 2 ^ (e + 1074) | _ => 0 end%Z.

Lemma units_val : forall x, dbl x -> IZR (units x) = fval x * bpow radix2 1074.
Proof.
  intros x [V F]. destruct x as [s|s| |s m e]; try discriminate; unfold fval; cbn [units SF2R]; [ring|].
  unfold F2R. simpl Fnum. simpl Fexp.
  assert (E : (-1074 <= e)%Z).
  { cbn [SpecFloat.valid_binary] in V. unfold SpecFloat.bounded in V. apply andb_prop in V. destruct V as [V _]. apply canonical_canonical_mantissa with (sx := false) in V. unfold canonical, cexp in V. cbn [Fexp] in V. rewrite V. unfold SpecFloat.fexp, fprec, femax. apply Z.le_max_r. }
  rewrite mult_IZR. change (2 ^ (e + 1074))%Z with (radix2 ^ (e + 1074))%Z. rewrite (IZR_Zpower radix2 (e + 1074)) by lia. rewrite bpow_plus. ring.
Qed.

(** The quotient n / d, rounded. *)
Definition quot (n d : Z) : spec_float := SpecFloat.binary_normalize fprec femax ((n * 2 ^ 1200) / d) (-1200) false.

(** Exact determinants, and one rounding per unknown. *)
Definition exact2 : gels spec_float := fun m n mem lda b ldb lwork =>
  let A i := units (nth i mem n0) in let B i := units (nth i b n0) in
  let D := (A 0%nat * A 3%nat - A 1%nat * A 2%nat)%Z in
  let X := (B 0%nat * A 3%nat - A 1%nat * B 1%nat)%Z in
  let Y := (A 0%nat * B 1%nat - B 0%nat * A 2%nat)%Z in
  let zero := (A 0%nat =? 0)%Z && (A 1%nat =? 0)%Z && (A 2%nat =? 0)%Z && (A 3%nat =? 0)%Z in
  mkGels (if zero then 0 else if (D =? 0) then 1 else 0)%Z (fun i => nth i mem n0)
    (fun i => if zero then n0 else match i with O => quot X D | _ => quot Y D end).

Lemma quot_ok : forall n d, fok (quot n d).
Proof. intros. unfold quot. apply fok_norm. Qed.

Lemma quot_val : forall n d, d <> 0%Z -> dbl (quot n d) ->
  Rabs (fval (quot n d) - IZR n / IZR d) <= 2 * uround * Rabs (fval (quot n d)) + uround.
Proof.
  intros n d Hd D. set (q := ((n * 2 ^ 1200) / d)%Z).
  assert (V : fval (quot n d) = rnd (IZR q * bpow radix2 (-1200))).
  { unfold quot in *. fold q in D |- *. rewrite normalize_equiv in *. match goal with |- context [B2SF ?t] => set (b := t) in * end.
    assert (C := binary_normalize_correct fprec femax prec_pos prec_emax mode_NE q (-1200) false). cbv zeta in C.
    change (F2R (Float radix2 q (-1200))) with (IZR q * bpow radix2 (-1200)) in C. fold (rnd (IZR q * bpow radix2 (-1200))) in C.
    destruct (Rlt_bool _ _).
    - destruct C as (C1 & C2 & _). destruct (B_dbl _ C2) as [_ E]. rewrite <- C1. exact E.
    - exfalso. destruct D as [_ F]. assert (C' : B2SF b = binary_overflow fprec femax mode_NE (Rlt_bool (IZR q * bpow radix2 (-1200)) 0)) by exact C.
      rewrite C' in F. discriminate. }
  set (x := fval (quot n d)) in *. set (qq := IZR q * bpow radix2 (-1200)) in *.
  assert (E := rnd_error qq). rewrite <- V in E. assert (P := u_rng). assert (T := tiny_u).
  assert (NZ : IZR d <> 0) by (apply not_0_IZR; auto).
  assert (Q : Rabs (qq - IZR n / IZR d) <= bpow radix2 (-1200)).
  { assert (ED : (n * 2 ^ 1200 = d * q + (n * 2 ^ 1200) mod d)%Z) by (apply Z.div_mod; auto).
    assert (RB : Rabs (IZR ((n * 2 ^ 1200) mod d)) <= Rabs (IZR d)).
    { rewrite <- !abs_IZR. apply IZR_le. assert (B := Z.mod_pos_bound (n * 2 ^ 1200) d). assert (B' := Z.mod_neg_bound (n * 2 ^ 1200) d). lia. }
    apply (f_equal IZR) in ED. rewrite plus_IZR, !mult_IZR in ED.
    assert (P12 : IZR (2 ^ 1200) = bpow radix2 1200) by (change (2 ^ 1200)%Z with (radix2 ^ 1200)%Z; apply (IZR_Zpower radix2 1200); lia). rewrite P12 in ED. clear P12.
    assert (BI : bpow radix2 1200 * bpow radix2 (-1200) = 1) by (rewrite <- bpow_plus; reflexivity).
    replace (qq - IZR n / IZR d) with (- (IZR ((n * 2 ^ 1200) mod d) / IZR d * bpow radix2 (-1200))).
    - rewrite Rabs_Ropp, Rabs_mult, (Rabs_pos_eq (bpow _ _)) by apply bpow_ge_0. rewrite <- (Rmult_1_l (bpow radix2 (-1200))) at 2.
      apply Rmult_le_compat_r; [apply bpow_ge_0|]. unfold Rdiv. rewrite Rabs_mult, Rabs_inv.
      apply Rmult_le_reg_r with (Rabs (IZR d)); [apply Rabs_pos_lt; auto|]. rewrite Rmult_assoc, Rinv_l by (apply Rabs_no_R0; auto). lra.
    - unfold qq. replace (IZR n) with (IZR n * (bpow radix2 1200 * bpow radix2 (-1200))) by (rewrite BI; ring).
      rewrite <- Rmult_assoc, ED. field. exact NZ. }
  assert (S : bpow radix2 (-1200) <= etiny) by (unfold etiny; apply bpow_le; lia).
  assert (TT : 8 * etiny <= uround).
  { rewrite u_bpow. unfold etiny. change 8 with (bpow radix2 3). rewrite <- bpow_plus. apply bpow_le. lia. }
  assert (EP : 0 < etiny) by apply bpow_gt_0.
  assert (A : Rabs qq <= Rabs x + Rabs (x - qq)).
  { replace qq with (x + - (x - qq)) at 1 by ring. eapply Rle_trans; [apply Rabs_triang|]. rewrite Rabs_Ropp. lra. }
  assert (A2 : Rabs (x - qq) <= 2 * uround * Rabs x + 2 * etiny).
  { set (z := Rabs (x - qq)) in *. set (ax := Rabs x) in *. assert (0 <= z) by apply Rabs_pos. assert (0 <= ax) by apply Rabs_pos.
    assert (uround * Rabs qq <= uround * (ax + z)) by (apply Rmult_le_compat_l; lra).
    assert (uround * z <= / 1000000 * z) by (apply Rmult_le_compat_r; lra).
    assert (0 <= uround * ax) by (apply Rmult_le_pos; lra). lra. }
  replace (x - IZR n / IZR d) with ((x - qq) + (qq - IZR n / IZR d)) by ring.
  eapply Rle_trans; [apply Rabs_triang|]. lra.
Qed.

Theorem exact2_residual : residual2 (2 * uround) exact2.
Proof.
  intros a00 a01 a10 a11 b0 b1 lw A D00 D01 D10 D11 E0 E1 B00 B01 B10 B11 C0 C1 HA r x y.
  assert (U00 := units_val _ D00). assert (U01 := units_val _ D01). assert (U10 := units_val _ D10). assert (U11 := units_val _ D11).
  assert (V0 := units_val _ E0). assert (V1 := units_val _ E1). assert (W : 0 < bpow radix2 1074) by apply bpow_gt_0.
  set (w := bpow radix2 1074) in *.
  assert (Z : forall u v, IZR u = v * w -> (u = 0%Z <-> v = 0)).
  { intros u v E. split; intros H; [subst u; apply Rmult_eq_reg_r with w; lra|]. subst v. apply eq_IZR. lra. }
  unfold x, y, r, exact2. cbn [nth g_rhs g_info].
  set (zero := ((units a00 =? 0) && (units a01 =? 0) && (units a10 =? 0) && (units a11 =? 0))%Z%bool).
  set (D := (units a00 * units a11 - units a01 * units a10)%Z).
  split; [destruct zero; [reflexivity|apply quot_ok]|]. split; [destruct zero; [reflexivity|apply quot_ok]|].
  destruct zero eqn:HZ; unfold zero in HZ.
  - rewrite !andb_true_iff, !Z.eqb_eq in HZ. destruct HZ as [[[Z0 Z1] Z2] Z3]. intros _. split.
    + intros _. repeat split.
    + intros NZ. exfalso. apply NZ. repeat split; [apply (Z _ _ U00)|apply (Z _ _ U01)|apply (Z _ _ U10)|apply (Z _ _ U11)]; auto.
  - intros I. split.
    + intros (Z0 & Z1 & Z2 & Z3). apply (Z _ _ U00) in Z0. apply (Z _ _ U01) in Z1. apply (Z _ _ U10) in Z2. apply (Z _ _ U11) in Z3.
      rewrite Z0, Z1, Z2, Z3 in HZ. discriminate.
    + intros _ Dx Dy. assert (ND : D <> 0%Z) by (intros E; rewrite E in I; simpl in I; lia).
      assert (Qx := quot_val _ _ ND Dx). assert (Qy := quot_val _ _ ND Dy).
      set (fx := fval (quot _ D)) in Qx |- *. set (fy := fval (quot (units a00 * units b1 - units b0 * units a10) D)) in *.
      assert (EX : IZR (units b0 * units a11 - units a01 * units b1) / IZR D * (fval a00 * fval a11 - fval a01 * fval a10) = fval b0 * fval a11 - fval a01 * fval b1 /\
        IZR (units a00 * units b1 - units b0 * units a10) / IZR D * (fval a00 * fval a11 - fval a01 * fval a10) = fval a00 * fval b1 - fval b0 * fval a10 /\
        fval a00 * fval a11 - fval a01 * fval a10 <> 0).
      { assert (NZ : IZR D <> 0) by (apply not_0_IZR; auto). revert NZ. unfold D. rewrite !minus_IZR, !mult_IZR, U00, U01, U10, U11, V0, V1. intros NZ.
        assert (NZ2 : fval a00 * fval a11 - fval a01 * fval a10 <> 0) by (intros E; apply NZ; replace (fval a00 * w * (fval a11 * w) - fval a01 * w * (fval a10 * w)) with ((fval a00 * fval a11 - fval a01 * fval a10) * (w * w)) by ring; rewrite E; ring).
        repeat split; auto; field_simplify_eq; auto; ring. }
      destruct EX as (X1 & X2 & ND2). set (xe := IZR (units b0 * units a11 - units a01 * units b1) / IZR D) in *. set (ye := IZR (units a00 * units b1 - units b0 * units a10) / IZR D) in *.
      set (dd := fval a00 * fval a11 - fval a01 * fval a10) in *.
      assert (R0 : fval a00 * xe + fval a01 * ye = fval b0).
      { apply Rmult_eq_reg_r with dd; auto. replace ((fval a00 * xe + fval a01 * ye) * dd) with (fval a00 * (xe * dd) + fval a01 * (ye * dd)) by ring. rewrite X1, X2. unfold dd. ring. }
      assert (R1 : fval a10 * xe + fval a11 * ye = fval b1).
      { apply Rmult_eq_reg_r with dd; auto. replace ((fval a10 * xe + fval a11 * ye) * dd) with (fval a10 * (xe * dd) + fval a11 * (ye * dd)) by ring. rewrite X1, X2. unfold dd. ring. }
      assert (F : forall s t u, Rabs s <= A -> Rabs t <= A -> s * xe + t * ye = u -> Rabs (s * fx + t * fy - u) <= 2 * uround * A * (1 + Rabs fx + Rabs fy)).
      { intros s t u Hs Ht <-. replace (s * fx + t * fy - (s * xe + t * ye)) with (s * (fx - xe) + t * (fy - ye)) by ring.
        eapply Rle_trans; [apply Rabs_triang|]. rewrite !Rabs_mult.
        assert (T1 : Rabs s * Rabs (fx - xe) <= A * (2 * uround * Rabs fx + uround)) by (apply Rmult_le_compat; auto using Rabs_pos).
        assert (T2 : Rabs t * Rabs (fy - ye) <= A * (2 * uround * Rabs fy + uround)) by (apply Rmult_le_compat; auto using Rabs_pos). lra. }
      split; apply F; auto.
Qed.
