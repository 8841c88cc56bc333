(** Convex hulls of finite lists, and one-dimensional linear constraints. *)
From Coq Require Import List Reals Lra Lia.
From Verif Require Import S_Geometry S_Quad L_Polygon.
Import ListNotations.
Open Scope R_scope.

(** ** Weighted sums *)
Fixpoint mixw (t : R) (u v : list R) : list R :=
  match u, v with
  | a :: u', b :: v' => ((1 - t) * a + t * b) :: mixw t u' v'
  | _, _ => []
  end.

Lemma mixw_length : forall t u v, length u = length v -> length (mixw t u v) = length u.
Proof. intros t. induction u as [|a u IH]; intros [|b v] H; simpl in *; auto; try discriminate. Qed.

Lemma mixw_wsum : forall t u v x, length u = length v ->
  wsum (mixw t u v) x = (1 - t) * wsum u x + t * wsum v x.
Proof.
  intros t. induction u as [|a u IH]; intros [|b v] x H; simpl in *; try discriminate; [ring|].
  destruct x as [|c x]; [ring|]. rewrite IH by lia. ring.
Qed.

Lemma mixw_pos : forall t u v, 0 <= t <= 1 -> length u = length v -> Forall (fun x => - 0 <= x) u ->
  Forall (fun x => - 0 <= x) v -> Forall (fun x => - 0 <= x) (mixw t u v).
Proof.
  intros t. induction u as [|a u IH]; intros [|b v] Ht H Hu Hv; simpl in *; try discriminate; auto.
  apply Forall_inv in Hu as Ha. apply Forall_inv_tail in Hu. apply Forall_inv in Hv as Hb. apply Forall_inv_tail in Hv.
  constructor; auto. assert (0 <= (1 - t) * a) by (apply Rmult_le_pos; lra). assert (0 <= t * b) by (apply Rmult_le_pos; lra). lra.
Qed.

Theorem hull_convex : forall V p q t, in_hull V p -> in_hull V q -> 0 <= t <= 1 -> in_hull V (on_seg p q t).
Proof.
  intros V p q t (u & U1 & U2 & U3 & U4 & U5) (v & W1 & W2 & W3 & W4 & W5) Ht.
  assert (L : length u = length v) by congruence.
  exists (mixw t u v). rewrite mixw_length by auto. rewrite !mixw_wsum by auto. unfold on_seg. cbn [fst snd].
  repeat split; auto.
  - apply mixw_pos; auto.
  - rewrite U3, W3. ring.
  - rewrite U4, W4. ring.
  - rewrite U5, W5. ring.
Qed.

Lemma wsum_zero : forall n x, wsum (repeat 0 n) x = 0.
Proof. induction n as [|n IH]; intros [|a x]; simpl; auto. rewrite IH. ring. Qed.

Theorem hull_member : forall V p, In p V -> in_hull V p.
Proof.
  intros V p H. apply in_split in H. destruct H as (l1 & l2 & ->).
  exists (repeat 0 (length l1) ++ 1 :: repeat 0 (length l2)).
  assert (E : forall f : point -> R, wsum (repeat 0 (length l1) ++ 1 :: repeat 0 (length l2)) (map f (l1 ++ p :: l2)) = f p).
  { intros f. induction l1 as [|a l1 IH]; simpl; [rewrite wsum_zero; ring|]. rewrite IH. ring. }
  repeat split.
  - rewrite !app_length. simpl. rewrite !repeat_length. lia.
  - apply Forall_app. split; [|constructor; [lra|]]; apply Forall_forall; intros x Hx; apply repeat_spec in Hx; lra.
  - apply (E (fun _ => 1)).
  - symmetry. apply (E fst).
  - symmetry. apply (E snd).
Qed.

(** A linear function that is not negative at the points is not negative on the hull. *)
Lemma hull_linear : forall V p (c x y : R), in_hull V p -> (forall q, In q V -> 0 <= c + x * fst q + y * snd q) ->
  0 <= c + x * fst p + y * snd p.
Proof.
  intros V p c x y (w & L & W & S1 & S2 & S3) H. rewrite S2, S3.
  replace c with (c * wsum w (map (fun _ => 1) V)) by (rewrite S1; ring). clear S1 S2 S3.
  revert w L W. induction V as [|q V IH]; intros [|a w] L W; simpl in *; try discriminate; [lra|].
  apply Forall_inv in W as Ha. apply Forall_inv_tail in W.
  assert (H1 := H q (or_introl eq_refl)). assert (IH' := IH (fun r Hr => H r (or_intror Hr)) w ltac:(lia) W).
  assert (0 <= a * (c + x * fst q + y * snd q)) by (apply Rmult_le_pos; lra). lra.
Qed.

Lemma hull_trans : forall V W p, in_hull V p -> (forall q, In q V -> in_hull W q) -> in_hull W p.
Proof.
  intros V W p (w & L & Wp & S1 & S2 & S3) H.
  (* combine the weights *)
  assert (C : forall V w, length w = length V -> Forall (fun x => - 0 <= x) w -> (forall q, In q V -> in_hull W q) ->
    exists u, length u = length W /\ Forall (fun x => - 0 <= x) u /\
      wsum u (map (fun _ => 1) W) = wsum w (map (fun _ => 1) V) /\
      wsum u (map fst W) = wsum w (map fst V) /\ wsum u (map snd W) = wsum w (map snd V)).
  { clear. induction V as [|q V IH]; intros [|a w] L Wp H; simpl in *; try discriminate.
    - exists (repeat 0 (length W)). rewrite repeat_length, !wsum_zero. repeat split; auto.
      apply Forall_forall; intros x Hx; apply repeat_spec in Hx; lra.
    - apply Forall_inv in Wp as Ha. apply Forall_inv_tail in Wp.
      destruct (IH w ltac:(lia) Wp (fun r Hr => H r (or_intror Hr))) as (u & U1 & U2 & U3 & U4 & U5).
      destruct (H q (or_introl eq_refl)) as (v & V1 & V2 & V3 & V4 & V5).
      assert (A : exists z, length z = length u /\ Forall (fun x => - 0 <= x) z /\ forall x, wsum z x = wsum u x + a * wsum v x).
      { assert (LL : length v = length u) by congruence. clear - LL U2 V2 Ha. revert u LL U2.
        induction v as [|b v IHv]; intros [|c u] LL U2; simpl in LL; try discriminate.
        - exists []. repeat split; auto. intros x. simpl. ring.
        - apply Forall_inv in U2 as Hc. apply Forall_inv_tail in U2. apply Forall_inv in V2 as Hb. apply Forall_inv_tail in V2.
          destruct (IHv V2 u ltac:(lia) U2) as (z & Z1 & Z2 & Z3). exists ((c + a * b) :: z). repeat split.
          + simpl. lia.
          + constructor; auto. assert (0 <= a * b) by (apply Rmult_le_pos; lra). lra.
          + intros [|y x]; simpl; [ring|]. rewrite Z3. ring. }
      destruct A as (z & Z1 & Z2 & Z3). exists z. rewrite !Z3, U3, U4, U5, V3, <- V4, <- V5. repeat split; auto; try lra. congruence. }
  destruct (C V w L Wp H) as (u & U1 & U2 & U3 & U4 & U5).
  exists u. repeat split; auto; congruence.
Qed.

(** ** Linear constraints a + b t >= 0 *)
Definition sat (t : R) (c : R * R) : Prop := 0 <= fst c + snd c * t.

Lemma low_end : forall L t, (forall c, In c L -> sat t c) -> (exists c, In c L /\ 0 < snd c) ->
  exists t0, t0 <= t /\ (forall c, In c L -> sat t0 c) /\
    exists c, In c L /\ 0 < snd c /\ fst c + snd c * t0 = 0.
Proof.
  induction L as [|c L IH]; intros t H (c0 & Hc0 & Pos); [destruct Hc0|].
  assert (Hc : sat t c) by (apply H; simpl; auto).
  assert (HL : forall c, In c L -> sat t c) by (intros; apply H; simpl; auto).
  assert (D : (exists c, In c L /\ 0 < snd c) \/ (forall c, In c L -> snd c <= 0)).
  { clear. induction L as [|a L IH]; [right; intros ? []|].
    destruct (Rlt_dec 0 (snd a)); [left; exists a; simpl; auto|].
    destruct IH as [(c & Hc & P)|IH]; [left; exists c; simpl; auto|].
    right. intros c [<-|Hc]; [lra|auto]. }
  destruct D as [D|D].
  - destruct (IH t HL D) as (t0 & T1 & T2 & c1 & C1 & C2 & C3).
    destruct (Rle_dec 0 (fst c + snd c * t0)) as [Q|Q].
    + exists t0. split; auto. split; [intros x [<-|Hx]; auto|]. exists c1. simpl. auto.
    + unfold sat in Hc. assert (P : 0 < snd c) by (destruct (Rlt_dec 0 (snd c)); auto; exfalso; nra).
      set (u := - fst c / snd c). assert (Eu : fst c + snd c * u = 0) by (unfold u; field; lra).
      assert (Ht : u <= t) by (apply (Rmult_le_reg_l (snd c)); lra).
      assert (Ht0 : t0 <= u) by (apply (Rmult_le_reg_l (snd c)); lra).
      exists u. split; auto. split.
      * intros x [<-|Hx]; unfold sat; [lra|]. assert (X1 := T2 x Hx). assert (X2 := HL x Hx). unfold sat in *.
        destruct (Rle_dec 0 (snd x)); nra.
      * exists c. simpl. auto.
  - destruct Hc0 as [->|Hc0]; [|specialize (D c0 Hc0); lra]. unfold sat in Hc.
    set (u := - fst c0 / snd c0). assert (Eu : fst c0 + snd c0 * u = 0) by (unfold u; field; lra).
    assert (Ht : u <= t) by (apply (Rmult_le_reg_l (snd c0)); lra).
    exists u. split; auto. split.
    + intros x [<-|Hx]; unfold sat; [lra|]. assert (X := HL x Hx). specialize (D x Hx). unfold sat in *. nra.
    + exists c0. simpl. auto.
Qed.

Lemma high_end : forall L t, (forall c, In c L -> sat t c) -> (exists c, In c L /\ snd c < 0) ->
  exists t0, t <= t0 /\ (forall c, In c L -> sat t0 c) /\
    exists c, In c L /\ snd c < 0 /\ fst c + snd c * t0 = 0.
Proof.
  intros L t H (c & Hc & P). set (neg := fun c : R * R => (fst c, - snd c)).
  destruct (low_end (map neg L) (- t)) as (t0 & T1 & T2 & c1 & C1 & C2 & C3).
  - intros x Hx. apply in_map_iff in Hx. destruct Hx as (y & <- & Hy). specialize (H y Hy). unfold sat in *. simpl. lra.
  - exists (neg c). split; [apply in_map; auto|]. simpl. lra.
  - exists (- t0). split; [lra|]. split.
    + intros x Hx. specialize (T2 (neg x) (in_map neg L x Hx)). unfold sat in *. simpl in T2. lra.
    + apply in_map_iff in C1. destruct C1 as (y & <- & Hy). exists y. simpl in *. repeat split; auto; lra.
Qed.
