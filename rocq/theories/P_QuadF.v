(** Properties C26 and C30 in IEEE double arithmetic: where the intersection points are. *)
From Coq Require Import ZArith List Bool Reals Lra Lia Permutation Floats.SpecFloat.
From Flocq Require Import Core BinarySingleNaN.
From Verif Require Import Base Num NumR NumF M_LinearSolve M_Triangulate M_Quad M_QuadIntersect M_QuadLine S_Geometry S_Quad S_Sort
  L_LinearSolve L_Float L_FloatOps L_QuadBoxF L_ResidualF L_QuadF.
Import ListNotations.
Open Scope R_scope.

(** The four nodes of a quad. *)
Definition corners {T} (q : quad T) : list (pt T) := [q0 q; q1 q; q2 q; q3 q].

(** Finite coordinates of magnitude at most M. *)
Definition within (M : R) (p : pt spec_float) : Prop := dblp p /\ Rabs (fval (fst p)) <= M /\ Rabs (fval (snd p)) <= M.

(** [p] is finite and within [d], in each coordinate, of a combination of the nodes of [q] with weights not below -tol. *)
Definition almost_in (d tol : R) (q : quad spec_float) (p : pt spec_float) : Prop := dblp p /\
  exists r, combination tol (corners (valq q)) r /\ Rabs (fval (fst p) - fst r) <= d /\ Rabs (fval (snd p) - snd r) <= d.

(** C26, IEEE doubles: a solver whose residuals are small is enough, however badly conditioned the systems are.
    Every point a fresh object returns is within (15 eta + 37 u) M, u = 2^-53, of each quad; M bounds the coordinates. *)
Theorem C26_points_in_both_ieee : forall eta g M (a b : quad spec_float) pts s, 0 <= eta -> residual2 eta g ->
  bpow radix2 (-1000) <= M <= bpow radix2 900 ->
  (forall n, In n (corners a ++ corners b) -> within M n) ->
  (forall q, q = valq a \/ q = valq b -> ~ (q0 q = q1 q /\ q0 q = q3 q) /\ ~ (q2 q = q3 q /\ q2 q = q1 q)) ->
  qi_collect g (qi_setQuadPoints qi_new a b) = Ret (pts, s) ->
  forall p, In p pts -> almost_in ((15 * eta + 37 * uround) * M) (3 / 10 ^ 12) a p /\ almost_in ((15 * eta + 37 * uround) * M) (3 / 10 ^ 12) b p.
Proof.
  intros eta g M a b pts s E G [M1 M2] W NC H p Hp. unfold qi_collect, qi_setQuadPoints, qi_new in H. cbn [qi_quads qi_points app] in H.
  injection H as <- _.
  assert (Sa : smallq M a) by (repeat split; apply W; unfold corners; cbn [app In]; tauto).
  assert (Sb : smallq M b) by (repeat split; apply W; unfold corners; cbn [app In]; tauto).
  destruct (points_near M M1 M2 eta E g G a b p Sa Sb (NC _ (or_introl eq_refl)) (NC _ (or_intror eq_refl)) Hp) as (D & (r & R1 & R2 & R3) & (r' & R1' & R2' & R3')).
  split; (split; [exact D|]); [exists r|exists r']; auto.
Qed.
Print Assumptions C26_points_in_both_ieee.

(** C30, IEEE doubles, the second half: every point returned for a quad whose consecutive nodes differ and a
    segment is within (15 eta + 37 u) M of the quad. *)
Theorem C30_points_in_quad_ieee : forall srt eta g M (q : quad spec_float) l pts s, sorts srt -> 0 <= eta -> residual2 eta g ->
  bpow radix2 (-1000) <= M <= bpow radix2 900 ->
  (forall n, In n (corners q ++ [fst l; snd l]) -> within M n) ->
  valp (q0 q) <> valp (q1 q) -> valp (q1 q) <> valp (q2 q) -> valp (q2 q) <> valp (q3 q) -> valp (q3 q) <> valp (q0 q) ->
  ql_collect srt g (ql_setLinePoints (ql_setQuadPoints ql_new q) l) = Ret (pts, s) ->
  forall p, In p pts -> almost_in ((15 * eta + 37 * uround) * M) (200 / 2 ^ 52) q p.
Proof.
  intros srt eta g M q l pts s S E G [M1 M2] W N0 N1 N2 N3 H p Hp.
  unfold ql_collect, ql_setLinePoints, ql_setQuadPoints, ql_new in H. cbn [ql_quad ql_line ql_lambdas app] in H. injection H as <- _.
  destruct (S nlt (line_lambdas g q l)) as [P _].
  apply in_map_iff in Hp. destruct Hp as (t & <- & Ht). apply (Permutation_in _ P) in Ht.
  assert (Sq : smallq M q) by (repeat split; apply W; unfold corners; cbn [app In]; tauto).
  assert (S1 : small M (fst l)) by (repeat split; apply W; unfold corners; cbn [app In]; tauto).
  assert (S2 : small M (snd l)) by (repeat split; apply W; unfold corners; cbn [app In]; tauto).
  destruct (line_points_near M M1 M2 eta E g G q l t Sq S1 S2) as (D & r & R1 & R2 & R3); auto.
  - split; intros [E1 E2]; unfold valq in *; cbn [q0 q1 q2 q3] in *; auto.
  - intros e He. unfold qedges in He. cbn [In] in He. destruct He as [<- |[<- |[<- |[<- |[]]]]]; cbn [fst snd]; auto.
  - split; [exact D|]. exists r. auto.
Qed.
Print Assumptions C30_points_in_quad_ieee.

(** A solver with residuals of one or two roundings: exact determinants and one rounding per unknown. *)
Theorem residual2_exists : residual2 (2 * uround) exact2.
Proof. exact exact2_residual. Qed.
Print Assumptions residual2_exists.

(** Two quads, none of whose edges is parallel to an axis, with coordinates that are not short binary fractions;
    and a segment. *)
Definition qa : quad spec_float := mkQuad (lit 1 10, lit 1 5) (lit 11 10, lit 1 10) (lit 6 5, lit 13 10) (lit 1 5, lit 7 5).
Definition qb : quad spec_float := mkQuad (lit 1 2, lit 3 10) (lit 17 10, lit 1 2) (lit 8 5, lit 17 10) (lit 2 5, lit 3 2).
Definition lc : pt spec_float * pt spec_float := ((lit (-3) 10, lit 1 2), (lit 9 5, lit 9 10)).

Lemma case_within : (forall n, In n (corners qa ++ corners qb) -> within 2 n) /\ (forall n, In n (corners qa ++ [fst lc; snd lc]) -> within 2 n).
Proof.
  destruct (f_ofZ 2 ltac:(lia)) as [D2 V2].
  assert (K : forall x, SpecFloat.valid_binary fprec femax x = true -> is_finite_SF x = true -> nle x (nofZ 2) = true -> nle (nopp (nofZ 2)) x = true -> dbl x /\ Rabs (fval x) <= 2).
  { intros x V F L U. assert (D : dbl x) by (split; auto). split; auto. destruct (f_opp _ D2) as [D3 V3].
    rewrite f_le in L, U by auto. apply Rleb_true in L, U. apply Rabs_le. lra. }
  assert (Q : forall p : pt spec_float, dbl (fst p) /\ Rabs (fval (fst p)) <= 2 -> dbl (snd p) /\ Rabs (fval (snd p)) <= 2 -> within 2 p) by (intros p [A B] [C D]; split; [split; auto|split; auto]).
  split; intros n Hn; unfold corners, lc in Hn; cbn [app In fst snd q0 q1 q2 q3 qa qb] in Hn; repeat destruct Hn as [<- |Hn]; try destruct Hn;
    (apply Q; cbn [fst snd]; apply K; vm_compute; reflexivity).
Qed.

Lemma lit_neq : forall x y : spec_float, dbl x -> dbl y -> nlt x y = true \/ nlt y x = true -> fval x <> fval y.
Proof. intros x y Dx Dy [H|H]; rewrite f_lt in H by auto; apply Rltb_true in H; lra. Qed.

Ltac differ := let E := fresh in intros E; apply (f_equal fst) in E; cbn [fst] in E; revert E; apply lit_neq; [split; vm_compute; reflexivity|split; vm_compute; reflexivity|vm_compute; auto].

Example C26_ieee_case : exists pts s, qi_collect exact2 (qi_setQuadPoints qi_new qa qb) = Ret (pts, s) /\ length pts = 4%nat /\
  forall p, In p pts -> almost_in (134 * uround) (3 / 10 ^ 12) qa p /\ almost_in (134 * uround) (3 / 10 ^ 12) qb p.
Proof.
  destruct (qi_collect exact2 (qi_setQuadPoints qi_new qa qb)) as [[pts s]|u] eqn:E; [|vm_compute in E; discriminate].
  exists pts, s. split; [reflexivity|]. split.
  - assert (L : match qi_collect exact2 (qi_setQuadPoints qi_new qa qb) with Ret (l, _) => length l = 4%nat | Undef _ => False end) by (vm_compute; reflexivity).
    rewrite E in L. exact L.
  - assert (U := u_rng). assert (C := C26_points_in_both_ieee (2 * uround) exact2 2 qa qb pts s ltac:(lra) residual2_exists).
    replace ((15 * (2 * uround) + 37 * uround) * 2) with (134 * uround) in C by ring. apply C; auto.
    + split; [apply Rle_trans with (bpow radix2 1); [apply bpow_le; lia|simpl; lra]|apply Rle_trans with (bpow radix2 1); [simpl; lra|apply bpow_le; lia]].
    + apply case_within.
    + intros q [-> | ->]; unfold valq, valp, qa, qb; cbn [q0 q1 q2 q3 fst snd]; split; intros [X _]; revert X; differ.
Qed.

Example C30_ieee_case : exists pts s, ql_collect insertion exact2 (ql_setLinePoints (ql_setQuadPoints ql_new qa) lc) = Ret (pts, s) /\ length pts = 2%nat /\
  forall p, In p pts -> almost_in (134 * uround) (200 / 2 ^ 52) qa p.
Proof.
  destruct (ql_collect insertion exact2 (ql_setLinePoints (ql_setQuadPoints ql_new qa) lc)) as [[pts s]|u] eqn:E; [|vm_compute in E; discriminate].
  exists pts, s. split; [reflexivity|]. split.
  - assert (L : match ql_collect insertion exact2 (ql_setLinePoints (ql_setQuadPoints ql_new qa) lc) with Ret (l, _) => length l = 2%nat | Undef _ => False end) by (vm_compute; reflexivity).
    rewrite E in L. exact L.
  - assert (U := u_rng). assert (C := C30_points_in_quad_ieee insertion (2 * uround) exact2 2 qa lc pts s (insertion_sorts _) ltac:(lra) residual2_exists).
    replace ((15 * (2 * uround) + 37 * uround) * 2) with (134 * uround) in C by ring. apply C; auto.
    + split; [apply Rle_trans with (bpow radix2 1); [apply bpow_le; lia|simpl; lra]|apply Rle_trans with (bpow radix2 1); [simpl; lra|apply bpow_le; lia]].
    + apply case_within.
    + unfold valp, qa; cbn [q0 q1 q2 q3 fst snd]; differ.
    + unfold valp, qa; cbn [q0 q1 q2 q3 fst snd]; differ.
    + unfold valp, qa; cbn [q0 q1 q2 q3 fst snd]; differ.
    + unfold valp, qa; cbn [q0 q1 q2 q3 fst snd]; differ.
Qed.
