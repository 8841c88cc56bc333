(** The box check on IEEE doubles. *)
From Coq Require Import ZArith List Bool Reals Lra Floats.SpecFloat.
From Verif Require Import Base Num NumR NumF M_Triangulate M_Quad M_QuadIntersect S_Geometry L_Float.
Open Scope R_scope.

Definition dblp (p : pt spec_float) : Prop := dbl (fst p) /\ dbl (snd p).
Definition dblq (q : quad spec_float) : Prop := dblp (q0 q) /\ dblp (q1 q) /\ dblp (q2 q) /\ dblp (q3 q).
Definition valp (p : pt spec_float) : point := (fval (fst p), fval (snd p)).
Definition valq (q : quad spec_float) : quad R := mkQuad (valp (q0 q)) (valp (q1 q)) (valp (q2 q)) (valp (q3 q)).

Lemma qmin_val : forall x xr q, (forall p, dblp p -> dbl (x p) /\ fval (x p) = xr (valp p)) -> dblq q ->
  dbl (qmin x q) /\ fval (qmin x q) = qmin xr (valq q).
Proof.
  intros x xr q H (Q0 & Q1 & Q2 & Q3). unfold qmin, valq. cbn [q0 q1 q2 q3].
  destruct (H _ Q0) as [D0 E0]. destruct (H _ Q1) as [D1 E1]. destruct (H _ Q2) as [D2 E2]. destruct (H _ Q3) as [D3 E3].
  rewrite <- E0, <- E1, <- E2, <- E3.
  destruct (f_smin _ _ D1 D0) as [D4 <-]. destruct (f_smin _ _ D2 D4) as [D5 <-]. apply f_smin; auto.
Qed.
Lemma qmax_val : forall x xr q, (forall p, dblp p -> dbl (x p) /\ fval (x p) = xr (valp p)) -> dblq q ->
  dbl (qmax x q) /\ fval (qmax x q) = qmax xr (valq q).
Proof.
  intros x xr q H (Q0 & Q1 & Q2 & Q3). unfold qmax, valq. cbn [q0 q1 q2 q3].
  destruct (H _ Q0) as [D0 E0]. destruct (H _ Q1) as [D1 E1]. destruct (H _ Q2) as [D2 E2]. destruct (H _ Q3) as [D3 E3].
  rewrite <- E0, <- E1, <- E2, <- E3.
  destruct (f_smax _ _ D1 D0) as [D4 <-]. destruct (f_smax _ _ D2 D4) as [D5 <-]. apply f_smax; auto.
Qed.

Theorem boxes_val : forall a b, dblq a -> dblq b -> boxes_overlap a b = boxes_overlap (valq a) (valq b).
Proof.
  intros a b Ha Hb. unfold boxes_overlap.
  assert (X : forall p, dblp p -> dbl (fst p) /\ fval (fst p) = fst (valp p)) by (intros p [? ?]; auto).
  assert (Y : forall p, dblp p -> dbl (snd p) /\ fval (snd p) = snd (valp p)) by (intros p [? ?]; auto).
  destruct (qmin_val _ _ a X Ha) as [D1 <-]. destruct (qmin_val _ _ a Y Ha) as [D2 <-].
  destruct (qmin_val _ _ b X Hb) as [D3 <-]. destruct (qmin_val _ _ b Y Hb) as [D4 <-].
  destruct (qmax_val _ _ a X Ha) as [D5 <-]. destruct (qmax_val _ _ a Y Ha) as [D6 <-].
  destruct (qmax_val _ _ b X Hb) as [D7 <-]. destruct (qmax_val _ _ b Y Hb) as [D8 <-].
  destruct (f_smin _ _ D5 D7) as [A1 <-]. destruct (f_smax _ _ D1 D3) as [A2 <-].
  destruct (f_smin _ _ D6 D8) as [A3 <-]. destruct (f_smax _ _ D2 D4) as [A4 <-].
  rewrite !f_le; auto.
Qed.
