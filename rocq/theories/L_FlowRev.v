(** Flow interpolation in exact arithmetic: a segment followed the other way. *)
From Coq Require Import ZArith List Bool Reals Lra Lia Permutation.
From Verif Require Import Base Num NumR M_BoxIterator M_LinearSolve M_FindPoint M_Triangulate M_Quad M_QuadLine M_FlowInterp
  S_LinAlg S_Geometry S_Quad S_Grid S_Flow S_FlowTable S_Sort S_Array L_Box2 L_Hull L_Quad L_QuadLine L_Flow L_FlowFind L_FlowInterp L_FlowGen L_FlowPar L_FlowTotal L_FlowPath.
Import ListNotations.
Open Scope R_scope.

(** ** Sorted lists of reals *)
Lemma strict_weak_R : forall l, strict_weak (nlt (T := R)) l.
Proof.
  intros l. cbn [nlt NumR]. unfold strict_weak. split; [intros; apply Rltb_false; lra|].
  split; intros u v z _ _ _; rewrite ?Rltb_true, ?Rltb_false; lra.
Qed.

Lemma sorted_unique : forall l l' : list R, Permutation l l' -> ascending nlt l -> ascending nlt l' -> l = l'.
Proof.
  induction l as [|x l IH]; intros l' PM A A'; [apply Permutation_nil in PM; auto|].
  destruct l' as [|y l']; [apply Permutation_sym, Permutation_nil in PM; discriminate|].
  apply ascending_inv in A. apply ascending_inv in A'. destruct A as [A1 A2], A' as [B1 B2]. cbn [nlt NumR] in A1, B1.
  assert (E : x = y).
  { assert (X : In x (y :: l')) by (eapply Permutation_in; [exact PM|left; reflexivity]).
    assert (Y : In y (x :: l)) by (eapply Permutation_in; [apply Permutation_sym; exact PM|left; reflexivity]).
    destruct X as [X|X]; [auto|]. destruct Y as [Y|Y]; [auto|].
    apply A1 in Y. apply B1 in X. apply Rltb_false in X. apply Rltb_false in Y. lra. }
  subst y. f_equal. apply IH; auto. eapply Permutation_cons_inv. exact PM.
Qed.

Lemma ascending_rev : forall l : list R, ascending nlt l -> ascending nlt (rev (map (fun t => 1 - t) l)).
Proof.
  intros l A i j d L. rewrite rev_length, map_length in L. rewrite !rev_nth by (rewrite map_length; lia). rewrite map_length.
  rewrite !(nth_indep _ d (1 - d)) by (rewrite map_length; lia). rewrite !(map_nth (fun t => 1 - t)).
  specialize (A (length l - S j)%nat (length l - S i)%nat d ltac:(lia)). cbn [nlt NumR] in *. apply Rltb_false in A. apply Rltb_false. lra.
Qed.

Section Rev.
Variable g : gels R.
Hypothesis G : gels_spec g 2 2.

(** ** The parameters *)
Lemma edge_line_short : forall a b c d, edge_line g a b c d = [] \/ exists t, edge_line g a b c d = [t].
Proof.
  intros a b c d. unfold edge_line. destruct (solve2 g _ _ _ _ _ _) as [ier [xi eta]]. destruct (0 <? ier)%Z; auto.
  match goal with |- context [if ?c then _ else _] => destruct c end; eauto.
Qed.

Lemma on_seg_rev : forall (A B : point) t, on_seg B A t = on_seg A B (1 - t).
Proof. intros. unfold on_seg. f_equal; ring. Qed.

Lemma turn_rev : forall a b A B, turn a b B A = - turn a b A B.
Proof. intros. unfold turn. ring. Qed.

Lemma no_near_miss_rev : forall tol a b c d A B, no_near_miss tol a b c d A B -> no_near_miss tol a b c d B A.
Proof.
  intros tol a b c d A B [N1 N2]. split; [intros p Hp; apply N1; tauto|].
  intros e He s t E T Hs Ht. rewrite (on_seg_rev A B) in E. rewrite turn_rev in T.
  destruct (N2 e He s (1 - t) E ltac:(lra) Hs ltac:(lra)). lra.
Qed.

Lemma edge_line_rev : forall (a b A B : point), a <> b ->
  (forall s t, on_seg a b s = on_seg A B t -> turn a b A B <> 0 -> - qtolR <= s <= 1 + qtolR -> - qtolR <= t <= 1 + qtolR -> 0 <= s <= 1 /\ 0 <= t <= 1) ->
  edge_line g a b B A = map (fun t => 1 - t) (edge_line g a b A B).
Proof.
  intros a b A B NE NC. assert (QP := qtol_pos).
  assert (K : forall A B : point, (forall s t, on_seg a b s = on_seg A B t -> turn a b A B <> 0 -> - qtolR <= s <= 1 + qtolR -> - qtolR <= t <= 1 + qtolR -> 0 <= s <= 1 /\ 0 <= t <= 1) ->
    forall t, In t (edge_line g a b A B) -> In (1 - t) (edge_line g a b B A)).
  { clear A B NC. intros A B NC t H. apply (edge_line_sound g G) in H; [|tauto].
    destruct H as (s & E & Hs & Ht & Tn). destruct (NC s t (eq_sym E) Tn Hs Ht) as [Hs' Ht'].
    apply (edge_line_complete g G a b B A s (1 - t)).
    - rewrite (on_seg_rev A B). replace (1 - (1 - t)) with t by ring. symmetry. exact E.
    - rewrite turn_rev. lra.
    - lra.
    - lra. }
  assert (NC' : forall s t, on_seg a b s = on_seg B A t -> turn a b B A <> 0 -> - qtolR <= s <= 1 + qtolR -> - qtolR <= t <= 1 + qtolR -> 0 <= s <= 1 /\ 0 <= t <= 1).
  { intros s t E T Hs Ht. rewrite (on_seg_rev A B) in E. rewrite turn_rev in T. destruct (NC s (1 - t) E ltac:(lra) Hs ltac:(lra)). lra. }
  assert (K1 := K A B NC). assert (K2 := K B A NC'). clear K.
  destruct (edge_line_short a b A B) as [E|(t & E)]; destruct (edge_line_short a b B A) as [E'|(t' & E')]; rewrite E, E' in *; cbn [map].
  - reflexivity.
  - destruct (K2 t' (or_introl eq_refl)).
  - destruct (K1 t (or_introl eq_refl)).
  - destruct (K1 t (or_introl eq_refl)) as [->|[]]. reflexivity.
Qed.

Lemma line_lambdas_rev : forall q (A B : pt R), (forall e, In e (qedges q) -> fst e <> snd e) ->
  no_near_miss qtolR (q0 q) (q1 q) (q2 q) (q3 q) A B ->
  Permutation (line_lambdas g q (B, A)) (map (fun t => 1 - t) (line_lambdas g q (A, B))).
Proof.
  intros q A B ED [_ NC]. unfold line_lambdas. cbn [fst snd]. rewrite !map_app.
  assert (E : flat_map (fun e => edge_line g (fst e) (snd e) B A) (qedges q) =
    map (fun t => 1 - t) (flat_map (fun e => edge_line g (fst e) (snd e) A B) (qedges q))).
  { assert (K : forall es, (forall e, In e es -> In e (qedges q)) -> flat_map (fun e => edge_line g (fst e) (snd e) B A) es =
      map (fun t => 1 - t) (flat_map (fun e => edge_line g (fst e) (snd e) A B) es)).
    { induction es as [|e es IH]; intros HS; [reflexivity|]. cbn [flat_map]. rewrite map_app, IH by (intros; apply HS; right; auto). f_equal.
      apply edge_line_rev; [apply ED, HS; left; reflexivity|]. intros s t EE T Hs Ht. apply (NC e (HS e (or_introl eq_refl)) s t EE T Hs Ht). }
    apply K. auto. }
  rewrite E. set (M := map _ (flat_map _ _)).
  assert (X0 : forall b : bool, map (fun t => 1 - t) (if b then [n0] else []) = if b then [n1] else []).
  { intros []; [|reflexivity]. cbn [map]. change (n0 : R) with 0. change (n1 : R) with 1. f_equal. ring. }
  assert (X1 : forall b : bool, map (fun t => 1 - t) (if b then [n1] else []) = if b then [n0] else []).
  { intros []; [|reflexivity]. cbn [map]. change (n0 : R) with 0. change (n1 : R) with 1. f_equal. ring. }
  rewrite X0, X1. set (a := if quad_inside ql_tol g A q then [n1] else []). set (b := if quad_inside ql_tol g B q then [n0] else []).
  rewrite (app_assoc a M b). eapply Permutation_trans; [|apply Permutation_app_comm]. apply Permutation_app_head. apply Permutation_app_comm.
Qed.

Lemma overlap_rev : forall q (A B : pt R), quad_line_overlap q (B, A) = quad_line_overlap q (A, B).
Proof.
  intros q A B. unfold quad_line_overlap. cbv zeta. cbn [fst snd].
  assert (S1 : forall a b : R, smin a b = smin b a).
  { intros a b. unfold smin. cbn [nlt NumR]. destruct (Rltb a b) eqn:E1, (Rltb b a) eqn:E2; auto;
      rewrite ?Rltb_true, ?Rltb_false in *; lra. }
  assert (S2 : forall a b : R, smax a b = smax b a).
  { intros a b. unfold smax. cbn [nlt NumR]. destruct (Rltb a b) eqn:E1, (Rltb b a) eqn:E2; auto;
      rewrite ?Rltb_true, ?Rltb_false in *; lra. }
  rewrite (S1 (fst A)), (S2 (fst A)), (S1 (snd A)), (S2 (snd A)). reflexivity.
Qed.

(** ** The points and the projections *)
Variable srt : (R -> R -> bool) -> list R -> list R.
Hypothesis ST : sorts srt.

Lemma cell_points_rev : forall q (A B : pt R), (forall e, In e (qedges q) -> fst e <> snd e) ->
  no_near_miss qtolR (q0 q) (q1 q) (q2 q) (q3 q) A B -> cell_points g srt q (B, A) = rev (cell_points g srt q (A, B)).
Proof.
  intros q A B ED NM. unfold cell_points. cbn [fst snd].
  destruct (ST nlt (line_lambdas g q (A, B))) as [P1 A1]. destruct (ST nlt (line_lambdas g q (B, A))) as [P2 A2].
  specialize (A1 (strict_weak_R _)). specialize (A2 (strict_weak_R _)).
  assert (E : srt nlt (line_lambdas g q (B, A)) = rev (map (fun t => 1 - t) (srt nlt (line_lambdas g q (A, B))))).
  { apply sorted_unique; [|exact A2|apply ascending_rev; exact A1].
    eapply Permutation_trans; [exact P2|]. eapply Permutation_trans; [apply line_lambdas_rev; auto|].
    eapply Permutation_trans; [|apply Permutation_rev]. apply Permutation_map. apply Permutation_sym. exact P1. }
  rewrite E, map_rev, map_map. f_equal. apply map_ext. intros t. rewrite !on_seg_along, (on_seg_rev A B). replace (1 - (1 - t)) with t by ring. reflexivity.
Qed.

(** Sum of a function of the consecutive pairs. *)
Fixpoint psum (f : pt R -> pt R -> R) (pts : list (pt R)) : R :=
  match pts with
  | a :: ((b :: _) as rest) => f a b + psum f rest
  | _ => 0
  end.

Lemma psum_snoc : forall f pts a b, psum f (pts ++ [a; b]) = psum f (pts ++ [a]) + f a b.
Proof.
  intros f. induction pts as [|c pts IH]; intros a b; [cbn [app psum]; ring|].
  destruct pts as [|d pts]; [cbn [app psum]; ring|]. specialize (IH a b). cbn [app psum] in *. rewrite IH. ring.
Qed.

Lemma psum_rev : forall f pts, (forall a b, f b a = - f a b) -> psum f (rev pts) = - psum f pts.
Proof.
  intros f pts HF. induction pts as [|a pts IH]; [cbn; ring|]. destruct pts as [|b pts]; [cbn; ring|].
  change (psum f (a :: b :: pts)) with (f a b + psum f (b :: pts)). cbn [rev] in *. rewrite <- app_assoc. cbn [app]. rewrite psum_snoc, IH, HF. ring.
Qed.

Definition pj (k : nat) (q : quad R) (a b : pt R) : R := nth k (proj g q a b) 0.

Lemma proj_list : forall q a b, proj g q a b = [pj 0 q a b; pj 1 q a b; pj 2 q a b; pj 3 q a b].
Proof. intros q a b. unfold pj, proj. destruct (projections _ _ _ _) as [[[p0 p1] p2] p3]. reflexivity. Qed.

Lemma path_sum : forall q pts w0 w1 w2 w3, path g q pts [w0; w1; w2; w3] =
  [w0 + psum (pj 0 q) pts; w1 + psum (pj 1 q) pts; w2 + psum (pj 2 q) pts; w3 + psum (pj 3 q) pts].
Proof.
  intros q. induction pts as [|a pts IH]; intros w0 w1 w2 w3; [cbn; rewrite !Rplus_0_r; reflexivity|].
  destruct pts as [|b pts]; [cbn; rewrite !Rplus_0_r; reflexivity|].
  change (path g q (a :: b :: pts) [w0; w1; w2; w3]) with
    (path g q (b :: pts) (map (fun vw => nadd (fst vw) (snd vw)) (combine [w0; w1; w2; w3] (proj g q a b)))).
  rewrite proj_list. cbn [combine map fst snd nadd NumR]. rewrite IH.
  assert (E : forall f, psum f (a :: b :: pts) = f a b + psum f (b :: pts)) by reflexivity.
  rewrite !E. repeat (apply f_equal2; [ring|]). reflexivity.
Qed.

Lemma pj_rev : forall k q a b, pj k q b a = - pj k q a b.
Proof.
  intros k q a b. unfold pj, proj, projections. rewrite nhalf_R. change (n1 : R) with 1. cbn [nmul nadd nsub NumR].
  destruct k as [|[|[|[|k]]]]; cbn [nth]; try (destruct k); field.
Qed.

Definition neg_entry (e : Z * list R) : Z * list R := (fst e, map Ropp (snd e)).

Lemma cell_entry_rev : forall q (A B : pt R) c, (forall e, In e (qedges q) -> fst e <> snd e) ->
  no_near_miss qtolR (q0 q) (q1 q) (q2 q) (q3 q) A B -> cell_entry g srt q (B, A) c = map neg_entry (cell_entry g srt q (A, B) c).
Proof.
  intros q A B c ED NM. unfold cell_entry. rewrite overlap_rev, cell_points_rev, rev_length by auto.
  destruct (quad_line_overlap q (A, B)); [|reflexivity]. destruct (2 <=? length (cell_points g srt q (A, B)))%nat; [|reflexivity].
  cbn [map]. unfold neg_entry. cbn [fst snd]. rewrite !path_sum. cbn [map]. change (n0 : R) with 0.
  rewrite !psum_rev by (intros; apply pj_rev). do 2 f_equal. repeat (apply f_equal2; [ring|]). reflexivity.
Qed.

End Rev.

Lemma edge_sum_neg : forall d1 h0 h1 es (acc : R), (forall e, In e es -> length (snd e) = 4%nat) ->
  edge_sum d1 h0 h1 (- acc) (map neg_entry es) = - edge_sum d1 h0 h1 acc es.
Proof.
  intros d1 h0 h1. induction es as [|[c w] es IH]; intros acc HL; [reflexivity|].
  assert (L := HL _ (or_introl eq_refl)). cbn [snd] in L. destruct w as [|w0 [|w1 [|w2 [|w3 [|]]]]]; try discriminate L.
  cbn [map neg_entry fst snd edge_sum nth nadd nmul NumR]. rewrite <- IH by (intros; apply HL; right; auto). f_equal. ring.
Qed.
