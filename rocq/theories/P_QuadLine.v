(** Properties C29, C30: intersection of a quad and a segment. *)
From Coq Require Import ZArith List Bool Reals Lra Lia Permutation Floats.SpecFloat.
From Verif Require Import Base Num NumR NumF M_LinearSolve M_Triangulate M_Quad M_QuadLine S_LinAlg S_Geometry S_Quad S_Sort
  L_LinearSolve L_Cramer L_Quad L_QuadLine L_FloatOrder.
Import ListNotations.
Open Scope R_scope.

(** A fresh object with a quad and a segment set. *)
Definition ready {T} {N : Num T} (q : quad T) (l : pt T * pt T) : ql T := ql_setLinePoints (ql_setQuadPoints ql_new q) l.

(** C29, any arithmetic, any linear solver, any sort: as many points as parameters, the i-th point is
    A + lambda_i (B - A), each parameter passed the range check or is 0 or 1, and they are in
    ascending order if < orders them. *)
Theorem C29_sorted_on_line : forall T (N : Num T) srt g (q : quad T) l pts s, sorts srt ->
  ql_collect srt g (ready q l) = Ret (pts, s) ->
  length pts = length (ql_lambdas s) /\
  (forall i d d', (i < length pts)%nat -> let t := nth i (ql_lambdas s) d in
     nth i pts d' = (nadd (fst (fst l)) (nmul t (nsub (fst (snd l)) (fst (fst l)))),
                     nadd (snd (fst l)) (nmul t (nsub (snd (snd l)) (snd (fst l)))))) /\
  (forall t, In t (ql_lambdas s) -> t = n0 \/ t = n1 \/
     (nle (nopp (nmul (nofZ 100) neps)) t = true /\ nlt t (nadd n1 (nmul (nofZ 100) neps)) = true)) /\
  (strict_weak nlt (ql_lambdas s) -> ascending nlt (ql_lambdas s)).
Proof.
  intros T N srt g q l pts s S H. unfold ql_collect, ready, ql_setLinePoints, ql_setQuadPoints, ql_new in H.
  cbn [ql_quad ql_line ql_lambdas app] in H. injection H as <- <-. cbn [ql_lambdas].
  destruct (S nlt (line_lambdas g q l)) as [P A].
  split; [apply map_length|]. split; [|split].
  - intros i d d' Hi. rewrite map_length in Hi.
    rewrite (nth_indep _ d' (along (fst l) (snd l) d)) by (rewrite map_length; auto).
    rewrite (map_nth (fun t => along (fst l) (snd l) t)). reflexivity.
  - intros t Ht. apply (lambdas_range g q l). eapply Permutation_in; eauto.
  - intros W. apply A. destruct W as (W1 & W2 & W3). assert (I : forall x, In x (line_lambdas g q l) -> In x (srt nlt (line_lambdas g q l)))
      by (intros x Hx; eapply Permutation_in; [apply Permutation_sym; exact P|exact Hx]).
    split; [auto|]. split; intros x y z Hx Hy Hz; [apply (W2 x y z)|apply (W3 x y z)]; auto.
Qed.
Print Assumptions C29_sorted_on_line.

Lemma strict_weak_R : forall l : list R, strict_weak nlt l.
Proof.
  intros l. cbn [nlt NumR]. unfold strict_weak. split; [intros; apply Rltb_false; lra|]. split; intros x y z _ _ _;
    rewrite ?Rltb_true, ?Rltb_false; lra.
Qed.

(** C29, exact arithmetic: ascending, within the tolerance of [0, 1]. *)
Theorem C29_sorted_exact : forall srt g (q : quad R) l pts s, sorts srt ->
  ql_collect srt g (ready q l) = Ret (pts, s) ->
  (forall i j, (i < j < length pts)%nat -> nth i (ql_lambdas s) 0 <= nth j (ql_lambdas s) 0) /\
  (forall t, In t (ql_lambdas s) -> - (100 / 2 ^ 52) <= t <= 1 + 100 / 2 ^ 52).
Proof.
  intros srt g q l pts s S H. destruct (C29_sorted_on_line R NumR srt g q l pts s S H) as (L & _ & B & A).
  split.
  - intros i j Hij. rewrite L in Hij. assert (X := A (strict_weak_R _) i j 0 Hij). apply Rltb_false in X. lra.
  - intros t Ht. destruct (B t Ht) as [-> |[-> |[B1 B2]]].
    + change (n0 : R) with 0. lra.
    + change (n1 : R) with 1. lra.
    + apply Rleb_true in B1. apply Rltb_true in B2. revert B1 B2. unfold neps. rewrite lit_R.
      change (n1 : R) with 1. cbn [nopp nmul nadd nofZ NumR]. lra.
Qed.
Print Assumptions C29_sorted_exact.

(** C29, IEEE doubles: ascending for every input, even when the solver delivers NaN. *)
Theorem C29_sorted_ieee : forall srt g (q : quad spec_float) l pts s, sorts srt ->
  ql_collect srt g (ready q l) = Ret (pts, s) -> ascending nlt (ql_lambdas s).
Proof.
  intros srt g q l pts s S H. destruct (C29_sorted_on_line _ NumF srt g q l pts s S H) as (_ & _ & B & A).
  apply A. apply strict_weak_F. intros t Ht. destruct (B t Ht) as [-> |[-> |[B1 _]]]; [discriminate|discriminate|].
  eapply nle_not_nan; eauto.
Qed.
Print Assumptions C29_sorted_ieee.

(** A run: the unit square and the segment from (-1, 1/2) to (1, 1/2). *)
Definition fsq : quad spec_float := mkQuad (nofZ 0, nofZ 0) (nofZ 1, nofZ 0) (nofZ 1, nofZ 1) (nofZ 0, nofZ 1).
Example C29_example : match ql_collect insertion cramer (ready fsq ((nofZ (-1), lit 1 2), (nofZ 1, lit 1 2))) with
  | Ret (pts, s) => ql_lambdas s = [lit 1 2; nofZ 1; nofZ 1] /\ pts = [(nofZ 0, lit 1 2); (nofZ 1, lit 1 2); (nofZ 1, lit 1 2)]
  | Undef _ => False end.
Proof. vm_compute. split; reflexivity. Qed.
Example C29_sort_exists : sorts (@insertion R) /\ sorts (@insertion spec_float).
Proof. split; apply insertion_sorts. Qed.

(** The four nodes of a quad. *)
Definition corners (q : quad R) : list point := [q0 q; q1 q; q2 q; q3 q].

(** C30: for a strictly convex quad and any segment, if a point of the segment is in the quad
    then the first and the last point returned are the ends of the part of the segment inside
    the quad, up to the tolerance; and every point returned is in the quad up to the tolerance. *)
Theorem C30_brackets : forall srt g (q : quad R) l pts s, sorts srt -> gels_spec g 2 2 ->
  convex4 (q0 q) (q1 q) (q2 q) (q3 q) ->
  ql_collect srt g (ready q l) = Ret (pts, s) ->
  (forall t, 0 <= t <= 1 -> in_hull (corners q) (on_seg (fst l) (snd l) t) ->
     (0 < length pts)%nat /\ nth 0 (ql_lambdas s) 0 <= t <= nth (length pts - 1) (ql_lambdas s) 0) /\
  (forall p, In p pts -> combination (100 / 2 ^ 52) (corners q) p).
Proof.
  intros srt g q l pts s S G CQ H.
  destruct (C29_sorted_on_line R NumR srt g q l pts s S H) as (L & _ & _ & A).
  specialize (A (strict_weak_R _)).
  unfold ql_collect, ready, ql_setLinePoints, ql_setQuadPoints, ql_new in H.
  cbn [ql_quad ql_line ql_lambdas app] in H. injection H as <- <-. cbn [ql_lambdas] in *.
  destruct (S nlt (line_lambdas g q l)) as [P _]. destruct (convex4_convexq q CQ) as (sg & CV).
  change Rltb with (nlt (T := R)) in *. set (lams := srt nlt (line_lambdas g q l)) in *. split.
  - intros t Ht Hin. assert (Hq := hull_in_quad sg q _ CV Hin).
    destruct (inside_part g G sg q l t CV Ht Hq) as (t0 & t1 & B & _ & _ & I0 & I1 & _).
    apply (Permutation_in _ (Permutation_sym P)) in I0. apply (Permutation_in _ (Permutation_sym P)) in I1. fold lams in I0, I1.
    apply In_nth with (d := 0) in I0. destruct I0 as (n0 & L0 & E0).
    apply In_nth with (d := 0) in I1. destruct I1 as (n1 & L1 & E1).
    rewrite map_length in *. split; [lia|]. split.
    + destruct n0 as [|n0]; [lra|]. assert (X := A 0%nat (Datatypes.S n0) 0 ltac:(lia)). apply Rltb_false in X. lra.
    + destruct (Nat.eq_dec n1 (length lams - 1)) as [<-|NE]; [lra|].
      assert (X := A n1 (length lams - 1)%nat 0 ltac:(lia)). apply Rltb_false in X. lra.
  - intros p Hp. apply in_map_iff in Hp. destruct Hp as (t & <- & Ht).
    apply (lambda_point_in_quad g G q l t).
    + split; intros [E1 E2]; destruct CV as (_ & C0 & C1 & C2 & C3).
      * rewrite <- E1, <- E2 in C3. revert C3. unfold cr. lra.
      * rewrite <- E1, <- E2 in C1. revert C1. unfold cr. lra.
    + intros e He [E _]. destruct (edge_nbrs sg q e CV He) as (z & c & _ & _ & _ & X). rewrite E in X. revert X. unfold cr. lra.
    + eapply Permutation_in; eauto.
Qed.
Print Assumptions C30_brackets.

(** The hypotheses hold for the unit square and a segment that crosses it. *)
Example C30_example : exists pts s,
  ql_collect insertion gels2 (ready (mkQuad (0, 0) (1, 0) (1, 1) (0, 1)) ((-1, 1 / 2), (3, 3 / 4))) = Ret (pts, s) /\
  (0 < length pts)%nat /\ nth 0 (ql_lambdas s) 0 <= 1 / 4 /\ 1 / 2 <= nth (length pts - 1) (ql_lambdas s) 0.
Proof.
  set (q := mkQuad (0, 0) (1, 0) (1, 1) (0, 1) : quad R). set (l := ((-1, 1 / 2), (3, 3 / 4)) : point * point).
  destruct (ql_collect insertion gels2 (ready q l)) as [[pts s]|] eqn:E; [|discriminate E].
  exists pts, s. split; [reflexivity|].
  assert (CV : convex4 (q0 q) (q1 q) (q2 q) (q3 q)) by (left; unfold cr; cbn; lra).
  assert (W : forall x y, 0 <= x <= 1 -> 0 <= y <= 1 -> in_hull (corners q) (x, y)).
  { intros x y Hx Hy. exists [(1 - x) * (1 - y); x * (1 - y); x * y; (1 - x) * y]. split; [reflexivity|].
    split; [repeat (constructor; [nra|]); constructor|]. cbn [corners map wsum q q0 q1 q2 q3 fst snd]. repeat split; ring. }
  destruct (C30_brackets insertion gels2 q l pts s (insertion_sorts R) gels2_spec22 CV E) as [B _].
  destruct (B (1 / 4) ltac:(lra)) as (L & B1 & _); [apply W; cbn; lra|].
  destruct (B (1 / 2) ltac:(lra)) as (_ & _ & B2); [apply W; cbn; lra|]. auto.
Qed.

(** C58 is false: without reset, which the C interface does not offer, the second use of an
    object keeps the parameters of the first and places them on the new segment.  Here the
    second segment is far from the quad and two points are returned. *)
Theorem C58_line_reuse_refuted :
  let l1 := ((nofZ (-1), lit 1 4), (nofZ 2, lit 1 2)) in let l2 := ((nofZ 5, nofZ 5), (nofZ 6, nofZ 7)) in
  exists p1 s1 p2 s2, ql_collect insertion cramer (ready fsq l1) = Ret (p1, s1) /\
    ql_collect insertion cramer (ql_setLinePoints s1 l2) = Ret (p2, s2) /\ length p2 = 2%nat /\
    exists s3, ql_collect insertion cramer (ready fsq l2) = Ret ([], s3).
Proof.
  cbv zeta. eexists. eexists. eexists. eexists. split; [vm_compute; reflexivity|]. split; [vm_compute; reflexivity|].
  split; [reflexivity|]. eexists. vm_compute. reflexivity.
Qed.
Print Assumptions C58_line_reuse_refuted.

(** C58, what holds for any arithmetic: after reset an object with any past behaves as a fresh one. *)
Theorem C58_line_reuse_partial : forall T (N : Num T) srt g (s : ql T) q l,
  match ql_collect srt g (ql_setLinePoints (ql_setQuadPoints (ql_reset s) q) l), ql_collect srt g (ready q l) with
  | Ret (p1, s1), Ret (p2, s2) => p1 = p2 /\ s1 = s2
  | _, _ => False
  end.
Proof. intros. split; reflexivity. Qed.
Print Assumptions C58_line_reuse_partial.
