(** Rectilinear grids: elementary conditions for a segment to be followed exactly. *)
From Coq Require Import ZArith List Bool Reals Lra Lia.
From Verif Require Import S_Geometry S_Quad S_Flow.
Import ListNotations.
Open Scope R_scope.

Definition rx (X : Z -> R) (i j : Z) : R := X i.
Definition ry (Y : Z -> R) (i j : Z) : R := Y j.

Lemma inc_le : forall d X i j, increasing d X -> (0 <= i <= j)%Z -> (j < d)%Z -> X i <= X j.
Proof.
  intros d X i j H Hi Hj. replace j with (i + Z.of_nat (Z.to_nat (j - i)))%Z by lia.
  assert (K : forall n, (i + Z.of_nat n < d)%Z -> X i <= X (i + Z.of_nat n)%Z).
  { induction n as [|n IH]; intros Hn; [rewrite Z.add_0_r; lra|].
    specialize (H (i + Z.of_nat n)%Z ltac:(lia)). specialize (IH ltac:(lia)).
    replace (i + Z.of_nat (S n))%Z with (i + Z.of_nat n + 1)%Z by lia. lra. }
  apply K. lia.
Qed.

Lemma inc_lt : forall d X i j, increasing d X -> (0 <= i < j)%Z -> (j < d)%Z -> X i < X j.
Proof.
  intros d X i j H Hi Hj. assert (A := H i ltac:(lia)). assert (B := inc_le d X (i + 1) j H ltac:(lia) Hj). lra.
Qed.

Lemma interval_of : forall d X v, (2 <= d)%Z -> increasing d X -> X 0%Z <= v <= X (d - 1)%Z ->
  exists i, (0 <= i < d - 1)%Z /\ X i <= v <= X (i + 1)%Z.
Proof.
  intros d X v Hd H Hv.
  assert (K : forall n, (Z.of_nat n < d)%Z -> (1 <= n)%nat -> v <= X (Z.of_nat n) -> exists i, (0 <= i < d - 1)%Z /\ X i <= v <= X (i + 1)%Z).
  { induction n as [|n IH]; intros Hn H1 Hvn; [lia|].
    destruct (Rle_dec (X (Z.of_nat n)) v) as [L|L].
    - exists (Z.of_nat n). split; [lia|]. replace (Z.of_nat n + 1)%Z with (Z.of_nat (S n)) by lia. lra.
    - destruct n as [|n]; [simpl in L; lra|]. apply IH; try lia. lra. }
  apply (K (Z.to_nat (d - 1))); try lia. rewrite Z2Nat.id by lia. lra.
Qed.

(** Two intervals have at most a grid line in common. *)
Lemma common_line : forall d X i i' v, increasing d X -> (0 <= i < d - 1)%Z -> (0 <= i' < d - 1)%Z -> i <> i' ->
  X i <= v <= X (i + 1)%Z -> X i' <= v <= X (i' + 1)%Z -> exists k, (0 < k < d - 1)%Z /\ v = X k /\ (k = i \/ k = i').
Proof.
  intros d X i i' v H Hi Hi' NE V V'.
  assert (K : forall a b, (0 <= a)%Z -> (a < b)%Z -> (b < d - 1)%Z -> X a <= v <= X (a + 1)%Z -> X b <= v <= X (b + 1)%Z -> v = X b).
  { intros a b Ha Hab Hb Va Vb. assert (B := inc_le d X (a + 1) b H ltac:(lia) ltac:(lia)). lra. }
  destruct (Z_lt_le_dec i i').
  - exists i'. split; [lia|]. split; auto. apply (K i i'); auto; lia.
  - exists i. split; [lia|]. split; auto. apply (K i' i); auto; lia.
Qed.

Lemma rect_hull : forall d0 d1 X Y i j p, increasing d0 X -> increasing d1 Y -> is_cell2 d0 d1 i j ->
  in_hull (corners (rx X) (ry Y) i j) p <-> X i <= fst p <= X (i + 1)%Z /\ Y j <= snd p <= Y (j + 1)%Z.
Proof.
  intros d0 d1 X Y i j p HX HY [Hi Hj]. assert (A := HX i Hi). assert (B := HY j Hj).
  unfold corners, rx, ry. split.
  - intros (w & L & W & S1 & SX & SY). destruct w as [|w0 [|w1 [|w2 [|w3 [|]]]]]; try discriminate L.
    cbn [map wsum fst snd] in *. repeat (apply Forall_cons_iff in W; let H := fresh "W" in destruct W as [H W]).
    rewrite SX, SY. assert (w0 = 1 - w1 - w2 - w3) by lra. subst w0. split; nra.
  - intros [Px Py]. destruct p as [x y]. cbn [fst snd] in *.
    set (hx := X (i + 1)%Z - X i). set (hy := Y (j + 1)%Z - Y j).
    set (a := (x - X i) / hx). set (b := (y - Y j) / hy).
    assert (U : forall v h, 0 < h -> 0 <= v <= h -> 0 <= v / h <= 1).
    { intros v h Hh Hv. split; [apply Rmult_le_pos; [lra|left; apply Rinv_0_lt_compat; lra]|].
      apply Rmult_le_reg_r with h; [lra|]. unfold Rdiv. rewrite Rmult_assoc, Rinv_l by lra. lra. }
    assert (Ha : 0 <= a <= 1) by (apply U; unfold hx; lra).
    assert (Hb : 0 <= b <= 1) by (apply U; unfold hy; lra).
    exists [(1 - a) * (1 - b); a * (1 - b); a * b; (1 - a) * b]. split; [reflexivity|].
    split; [repeat (constructor; [rewrite Ropp_0; apply Rmult_le_pos; lra|]); constructor|].
    cbn [map wsum fst snd]. split; [ring|].
    assert (E1 : x = X i + a * hx) by (unfold a, hx; field; lra).
    assert (E2 : y = Y j + b * hy) by (unfold b, hy; field; lra).
    split; [rewrite E1; unfold hx; ring|rewrite E2; unfold hy; ring].
Qed.

Lemma between : forall a b lo hi t, lo <= a <= hi -> lo <= b <= hi -> 0 <= t <= 1 -> lo <= a + t * (b - a) <= hi.
Proof. intros. split; nra. Qed.

Lemma same_value : forall a b t t', t <> t' -> a + t * (b - a) = a + t' * (b - a) -> a = b.
Proof. intros a b t t' NE E. assert (X : (t - t') * (b - a) = 0) by lra. apply Rmult_integral in X. destruct X; lra. Qed.

Lemma rect_regular : forall tol d0 d1 X Y A B, 0 <= tol -> (2 <= d0)%Z -> (2 <= d1)%Z -> increasing d0 X -> increasing d1 Y ->
  rectilinear_segment tol d0 d1 X Y A B ->
  cells_cover d0 d1 (rx X) (ry Y) A B /\ cells_share_once d0 d1 (rx X) (ry Y) A B /\ cells_no_near_miss tol d0 d1 (rx X) (ry Y) A B.
Proof.
  intros tol d0 d1 X Y A B TP H0 H1 HX HY (EN & NX & NY & CX & CY).
  destruct (EN A (or_introl eq_refl)) as (A1 & A2 & A3 & A4). destruct (EN B (or_intror eq_refl)) as (B1 & B2 & B3 & B4).
  split; [|split].
  - intros t Ht.
    destruct (interval_of d0 X (fst (on_seg A B t)) H0 HX) as (i & Hi & Vi); [apply between; auto|].
    destruct (interval_of d1 Y (snd (on_seg A B t)) H1 HY) as (j & Hj & Vj); [apply between; auto|].
    exists i, j. split; [split; auto|]. apply (rect_hull d0 d1); auto. split; auto.
  - intros i j i' j' t t' HC HC' NE Ht Ht' I1 I2 I3 I4.
    apply (rect_hull d0 d1) in I1, I2, I3, I4; auto. destruct HC as [Hi Hj], HC' as [Hi' Hj'].
    destruct (Req_dec t t') as [|NT]; [auto|exfalso].
    destruct (Z.eq_dec i i') as [->|NI].
    + assert (NJ : j <> j') by congruence.
      destruct (common_line d1 Y j j' (snd (on_seg A B t)) HY Hj Hj' NJ ltac:(tauto) ltac:(tauto)) as (k & Hk & Ek & Kk).
      destruct (common_line d1 Y j j' (snd (on_seg A B t')) HY Hj Hj' NJ ltac:(tauto) ltac:(tauto)) as (k' & Hk' & Ek' & Kk').
      assert (EK : Y k = Y k').
      { destruct (Z.eq_dec k k') as [->|NK]; [auto|]. exfalso.
        destruct (Z_lt_le_dec j j').
        - assert (Q1 := inc_lt d1 Y j j' HY ltac:(lia) ltac:(lia)). assert (Q2 := inc_le d1 Y (j + 1) j' HY ltac:(lia) ltac:(lia)).
          assert (Q3 := HY j Hj). destruct I1 as [_ I1], I2 as [_ I2], I3 as [_ I3], I4 as [_ I4]. destruct Kk, Kk'; subst; try congruence; lra.
        - assert (Q1 := inc_lt d1 Y j' j HY ltac:(lia) ltac:(lia)). assert (Q2 := inc_le d1 Y (j' + 1) j HY ltac:(lia) ltac:(lia)).
          assert (Q3 := HY j' Hj'). destruct I1 as [_ I1], I2 as [_ I2], I3 as [_ I3], I4 as [_ I4]. destruct Kk, Kk'; subst; try congruence; lra. }
      assert (ES : snd A = snd B) by (apply (same_value _ _ t t' NT); unfold on_seg in *; cbn [fst snd] in *; lra).
      apply (NY k Hk). unfold on_seg in Ek. cbn [fst snd] in Ek. split; rewrite <- Ek, ES; ring.
    + destruct (common_line d0 X i i' (fst (on_seg A B t)) HX Hi Hi' NI ltac:(tauto) ltac:(tauto)) as (k & Hk & Ek & Kk).
      destruct (common_line d0 X i i' (fst (on_seg A B t')) HX Hi Hi' NI ltac:(tauto) ltac:(tauto)) as (k' & Hk' & Ek' & Kk').
      assert (EK : X k = X k').
      { destruct (Z.eq_dec k k') as [->|NK]; [auto|]. exfalso.
        destruct (Z_lt_le_dec i i').
        - assert (Q1 := inc_lt d0 X i i' HX ltac:(lia) ltac:(lia)). assert (Q2 := inc_le d0 X (i + 1) i' HX ltac:(lia) ltac:(lia)).
          assert (Q3 := HX i Hi). destruct I1 as [I1 _], I2 as [I2 _], I3 as [I3 _], I4 as [I4 _]. destruct Kk, Kk'; subst; try congruence; lra.
        - assert (Q1 := inc_lt d0 X i' i HX ltac:(lia) ltac:(lia)). assert (Q2 := inc_le d0 X (i' + 1) i HX ltac:(lia) ltac:(lia)).
          assert (Q3 := HX i' Hi'). destruct I1 as [I1 _], I2 as [I2 _], I3 as [I3 _], I4 as [I4 _]. destruct Kk, Kk'; subst; try congruence; lra. }
      assert (ES : fst A = fst B) by (apply (same_value _ _ t t' NT); unfold on_seg in *; cbn [fst snd] in *; lra).
      apply (NX k Hk). unfold on_seg in Ek. cbn [fst snd] in Ek. split; rewrite <- Ek, ES; ring.
  - intros i j HC. assert (HC' := HC). destruct HC' as [Hi Hj]. assert (PX := HX i Hi). assert (PY := HY j Hj).
    assert (IV : forall lo h s, 0 < h -> lo <= lo + s * h <= lo + h -> 0 <= s <= 1) by (intros; split; nra).
    split.
    + intros p Hp (w & L & W & S1 & SX & SY). apply (rect_hull d0 d1 X Y i j p HX HY HC).
      destruct w as [|w0 [|w1 [|w2 [|w3 [|]]]]]; try discriminate L. unfold rx, ry in *.
      cbn [map wsum fst snd] in *. repeat (apply Forall_cons_iff in W; let H := fresh "W" in destruct W as [H W]).
      destruct (EN p Hp) as (_ & _ & C1 & C2). assert (w0 = 1 - w1 - w2 - w3) by lra. subst w0.
      split; [apply (C1 i Hi)|apply (C2 j Hj)].
      * rewrite SX. assert (Q : (w1 + w2) * (X (i + 1)%Z - X i) >= - 2 * tol * (X (i + 1)%Z - X i)) by nra.
        assert (Q' : (w1 + w2) * (X (i + 1)%Z - X i) <= (1 + 2 * tol) * (X (i + 1)%Z - X i)) by nra. split; lra.
      * rewrite SY. assert (Q : (w2 + w3) * (Y (j + 1)%Z - Y j) >= - 2 * tol * (Y (j + 1)%Z - Y j)) by nra.
        assert (Q' : (w2 + w3) * (Y (j + 1)%Z - Y j) <= (1 + 2 * tol) * (Y (j + 1)%Z - Y j)) by nra. split; lra.
    + intros e He s t EQ TR Hs Ht. unfold rx, ry in *.
      assert (WX : forall u, - tol <= u <= 1 + tol -> X i - 2 * tol * (X (i + 1)%Z - X i) <= X i + u * (X (i + 1)%Z - X i) <= X (i + 1)%Z + 2 * tol * (X (i + 1)%Z - X i)) by (intros; split; nra).
      assert (WY : forall u, - tol <= u <= 1 + tol -> Y j - 2 * tol * (Y (j + 1)%Z - Y j) <= Y j + u * (Y (j + 1)%Z - Y j) <= Y (j + 1)%Z + 2 * tol * (Y (j + 1)%Z - Y j)) by (intros; split; nra).
      assert (EX := f_equal fst EQ). assert (EY := f_equal snd EQ).
      unfold on_seg at 1 in EX. unfold on_seg at 1 in EY. unfold turn in TR.
      destruct He as [<-|[<-|[<-|[<-|[]]]]]; cbn [fst snd] in *.
      * destruct (CY j t ltac:(lia) ltac:(intros E; apply TR; rewrite E; ring) Ht ltac:(lra)) as [T C]. split; auto.
        specialize (C i Hi). cbv zeta in C. rewrite <- EX in C. apply (IV (X i) (X (i + 1)%Z - X i)); [lra|]. specialize (C (WX s Hs)). lra.
      * destruct (CX (i + 1)%Z t ltac:(lia) ltac:(intros E; apply TR; rewrite E; ring) Ht ltac:(lra)) as [T C]. split; auto.
        specialize (C j Hj). cbv zeta in C. rewrite <- EY in C. apply (IV (Y j) (Y (j + 1)%Z - Y j)); [lra|]. specialize (C (WY s Hs)). lra.
      * destruct (CY (j + 1)%Z t ltac:(lia) ltac:(intros E; apply TR; rewrite E; ring) Ht ltac:(lra)) as [T C]. split; auto.
        specialize (C i Hi). cbv zeta in C. rewrite <- EX in C.
        assert (WS := WX (1 - s) ltac:(lra)). replace (X i + (1 - s) * (X (i + 1)%Z - X i)) with (X (i + 1)%Z + s * (X i - X (i + 1)%Z)) in WS by ring.
        specialize (C WS). assert (0 <= 1 - s <= 1) by (apply (IV (X i) (X (i + 1)%Z - X i)); lra). lra.
      * destruct (CX i t ltac:(lia) ltac:(intros E; apply TR; rewrite E; ring) Ht ltac:(lra)) as [T C]. split; auto.
        specialize (C j Hj). cbv zeta in C. rewrite <- EY in C.
        assert (WS := WY (1 - s) ltac:(lra)). replace (Y j + (1 - s) * (Y (j + 1)%Z - Y j)) with (Y (j + 1)%Z + s * (Y j - Y (j + 1)%Z)) in WS by ring.
        specialize (C WS). assert (0 <= 1 - s <= 1) by (apply (IV (Y j) (Y (j + 1)%Z - Y j)); lra). lra.
Qed.
