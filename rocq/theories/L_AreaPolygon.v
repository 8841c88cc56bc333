(** The area of a convex polygon is given by the shoelace formula. *)
From Coq Require Import List Reals Lra Lia Classical Permutation Psatz.
From Coquelicot Require Import Coquelicot.
From Verif Require Import S_Geometry S_Quad S_Area L_Polygon L_Hull L_Intervals L_Area.
Import ListNotations.
Open Scope R_scope.

(** ** Union of two sets *)
Lemma area_box : forall K r, has_area K r -> exists m, forall p, K p -> - m <= fst p <= m.
Proof.
  intros K r (E & f & a & b & AB & IN & _). exists (Rmax (Rabs a) (Rabs b)). intros p Hp. apply IN in Hp.
  assert (M1 := Rmax_l (Rabs a) (Rabs b)). assert (M2 := Rmax_r (Rabs a) (Rabs b)).
  assert (A1 : - Rabs a <= a) by (unfold Rabs; destruct (Rcase_abs a); lra). assert (A2 : b <= Rabs b) by apply Rle_abs. lra.
Qed.

Lemma area_union : forall A B C r s, has_area A r -> has_area B s -> flat (fun p => A p /\ B p) ->
  (forall p, C p <-> A p \/ B p) -> (forall x y y' z, C (x, y) -> C (x, y') -> y <= z <= y' -> C (x, z)) -> has_area C (r + s).
Proof.
  intros A B C r s HA HB F U CV. destruct (area_box A r HA) as (b1 & B1). destruct (area_box B s HB) as (b2 & B2).
  apply area_on in HA. apply area_on in HB. destruct (flat_slices _ F) as (c & HC). clear F.
  destruct HA as (E1 & f1 & m1 & S1 & I1). destruct HB as (E2 & f2 & m2 & S2 & I2).
  set (M := Rmax 0 (Rmax (Rmax b1 b2) (Rmax m1 m2))).
  assert (M1 := Rmax_l 0 (Rmax (Rmax b1 b2) (Rmax m1 m2))). assert (M2 := Rmax_r 0 (Rmax (Rmax b1 b2) (Rmax m1 m2))). fold M in M1, M2.
  assert (M3 := Rmax_l (Rmax b1 b2) (Rmax m1 m2)). assert (M4 := Rmax_r (Rmax b1 b2) (Rmax m1 m2)).
  assert (M5 := Rmax_l b1 b2). assert (M6 := Rmax_r b1 b2). assert (M7 := Rmax_l m1 m2). assert (M8 := Rmax_r m1 m2).
  exists (c :: E1 ++ E2), (fun x => f1 x + f2 x), (- M), M. split; [lra|]. split.
  { intros p Hp. apply U in Hp. destruct Hp as [Hp|Hp]; [apply B1 in Hp|apply B2 in Hp]; lra. }
  split; [|apply (is_RInt_plus f1 f2); [apply I1|apply I2]; lra].
  intros x. destruct (Req_dec x c) as [->|NE]; [left; left; auto|]. specialize (HC x NE).
  destruct (S1 x) as [X|T1]; [left; right; apply in_or_app; auto|]. destruct (S2 x) as [X|T2]; [left; right; apply in_or_app; auto|]. right.
  destruct T1 as [[-> N1]|(l1 & h1 & L1 & -> & T1)], T2 as [[-> N2]|(l2 & h2 & L2 & -> & T2)].
  - left. split; [lra|]. intros y Hy. apply U in Hy. destruct Hy; [eapply N1|eapply N2]; eauto.
  - right. exists l2, h2. split; auto. split; [lra|]. intros y. rewrite U, <- T2. split; auto. intros [H|H]; auto. exfalso. eapply N1; eauto.
  - right. exists l1, h1. split; auto. split; [lra|]. intros y. rewrite U, <- T1. split; auto. intros [H|H]; auto. exfalso. eapply N2; eauto.
  - assert (Ml1 := Rmax_l l1 l2). assert (Ml2 := Rmax_r l1 l2). assert (Mh1 := Rmin_l h1 h2). assert (Mh2 := Rmin_r h1 h2).
    assert (EQ : Rmax l1 l2 = Rmin h1 h2).
    { destruct (Rtotal_order (Rmax l1 l2) (Rmin h1 h2)) as [LT|[EQ|GT]]; auto; exfalso.
      - assert (Y : Rmax l1 l2 = Rmin h1 h2); [|lra]. apply HC; split; (apply T1 || apply T2); lra.
      - assert (G : exists z, (h1 < z < l2) \/ (h2 < z < l1)).
        { revert GT. unfold Rmax, Rmin. destruct (Rle_dec l1 l2), (Rle_dec h1 h2); intros; try lra.
          - exists ((h1 + l2) / 2). lra. - exists ((h2 + l1) / 2). lra. }
        destruct G as (z & G).
        assert (CZ : C (x, z)).
        { destruct G as [G|G].
          - apply (CV x h1 l2); [apply U; left; apply T1; lra|apply U; right; apply T2; lra|lra].
          - apply (CV x h2 l1); [apply U; right; apply T2; lra|apply U; left; apply T1; lra|lra]. }
        apply U in CZ. destruct CZ as [CZ|CZ]; [apply T1 in CZ|apply T2 in CZ]; lra. }
    right. exists (Rmin l1 l2), (Rmax h1 h2).
    assert (S3 : Rmin l1 l2 + Rmax l1 l2 = l1 + l2) by (unfold Rmin, Rmax; destruct (Rle_dec l1 l2); lra).
    assert (S4 : Rmin h1 h2 + Rmax h1 h2 = h1 + h2) by (unfold Rmin, Rmax; destruct (Rle_dec h1 h2); lra).
    assert (ml1 := Rmin_l l1 l2). assert (ml2 := Rmin_r l1 l2). assert (mh1 := Rmax_l h1 h2). assert (mh2 := Rmax_r h1 h2).
    split; [lra|]. split; [lra|]. intros y. split.
    + rewrite U. intros [H|H]; [apply T1 in H|apply T2 in H]; lra.
    + intros Hy. apply (CV x (Rmin l1 l2) (Rmax h1 h2)); auto.
      * apply U. unfold Rmin. destruct (Rle_dec l1 l2); [left; apply T1; lra|right; apply T2; lra].
      * apply U. unfold Rmax. destruct (Rle_dec h1 h2); [right; apply T2; lra|left; apply T1; lra].
Qed.

(** ** Hulls of two and three points *)
Lemma hull2 : forall a b p, in_hull [a; b] p <-> exists u v, 0 <= u /\ 0 <= v /\ u + v = 1 /\
  fst p = u * fst a + v * fst b /\ snd p = u * snd a + v * snd b.
Proof.
  intros a b p. split.
  - intros (w & L & W & S1 & S2 & S3). destruct w as [|u [|v [|]]]; try discriminate L. cbn in *.
    apply Forall_inv in W as W1. apply Forall_inv_tail in W. apply Forall_inv in W as W2. exists u, v. repeat split; lra.
  - intros (u & v & U & V & S1 & S2 & S3). exists [u; v]. cbn. split; auto. split; [repeat (apply List.Forall_cons; [lra|]); apply List.Forall_nil|]. repeat split; lra.
Qed.
Lemma hull3 : forall a b c p, in_hull [a; b; c] p <-> exists u v w, 0 <= u /\ 0 <= v /\ 0 <= w /\ u + v + w = 1 /\
  fst p = u * fst a + v * fst b + w * fst c /\ snd p = u * snd a + v * snd b + w * snd c.
Proof.
  intros a b c p. split.
  - intros (w & L & W & S1 & S2 & S3). destruct w as [|u [|v [|w [|]]]]; try discriminate L. cbn in *.
    apply Forall_inv in W as W1. apply Forall_inv_tail in W. apply Forall_inv in W as W2. apply Forall_inv_tail in W. apply Forall_inv in W as W3.
    exists u, v, w. repeat split; lra.
  - intros (u & v & w & U & V & W & S1 & S2 & S3). exists [u; v; w]. cbn. split; auto. split; [repeat (apply List.Forall_cons; [lra|]); apply List.Forall_nil|]. repeat split; lra.
Qed.

Lemma hull_slices : forall V x y y' z, in_hull V (x, y) -> in_hull V (x, y') -> y <= z <= y' -> in_hull V (x, z).
Proof.
  intros V x y y' z H H' Hz. destruct (Req_dec y y') as [E|E]; [replace z with y by lra; auto|].
  assert (P := hull_convex V (x, y) (x, y') ((z - y) / (y' - y)) H H').
  assert (T : 0 <= (z - y) / (y' - y) <= 1).
  { split; [apply Rcomplements.Rdiv_le_0_compat; lra|]. apply (Rmult_le_reg_r (y' - y)); [lra|]. unfold Rdiv. rewrite Rmult_assoc, Rinv_l by lra. lra. }
  specialize (P T). unfold on_seg in P. cbn [fst snd] in P. replace (x + (z - y) / (y' - y) * (x - x)) with x in P by ring.
  replace (y + (z - y) / (y' - y) * (y' - y)) with z in P by (field; lra). exact P.
Qed.

Lemma area_hull2 : forall a b, has_area (in_hull [a; b]) 0.
Proof.
  intros [ax ay] [bx by_]. exists [ax], (fun _ => 0), (Rmin ax bx), (Rmax ax bx).
  assert (A1 := Rmin_l ax bx). assert (A2 := Rmin_r ax bx). assert (A3 := Rmax_l ax bx). assert (A4 := Rmax_r ax bx).
  split; [lra|]. split.
  { intros p Hp. apply hull2 in Hp. destruct Hp as (u & v & U & V & S & X & _). cbn [fst snd] in X. rewrite X.
    replace u with (1 - v) by lra. split; nra. }
  split; [|apply RInt_zero].
  intros x. destruct (Req_dec x ax) as [->|NE]; [left; left; auto|]. right.
  destruct (Req_dec ax bx) as [E|E].
  - left. split; auto. intros y Hy. apply hull2 in Hy. destruct Hy as (u & v & U & V & S & X & _). cbn [fst snd] in X. subst bx. nra.
  - set (t := (x - ax) / (bx - ax)). assert (T : x = ax + t * (bx - ax)) by (unfold t; field; lra).
    destruct (Rle_dec 0 t) as [P|P]; [destruct (Rle_dec t 1) as [P1|P1]|].
    + right. exists (ay + t * (by_ - ay)), (ay + t * (by_ - ay)). split; [lra|]. split; [lra|]. intros y. split.
      * intros Hy. apply hull2 in Hy. destruct Hy as (u & v & U & V & S & X & Y). cbn [fst snd] in X, Y.
        assert (v = t). { apply (Rmult_eq_reg_r (bx - ax)); [|lra]. nra. } subst v. replace u with (1 - t) in Y by lra. lra.
      * intros Hy. apply hull2. exists (1 - t), t. cbn [fst snd]. repeat split; lra.
    + left. split; auto. intros y Hy. apply hull2 in Hy. destruct Hy as (u & v & U & V & S & X & Y). cbn [fst snd] in X.
      assert (v = t). { apply (Rmult_eq_reg_r (bx - ax)); [|lra]. nra. } lra.
    + left. split; auto. intros y Hy. apply hull2 in Hy. destruct Hy as (u & v & U & V & S & X & Y). cbn [fst snd] in X.
      assert (v = t). { apply (Rmult_eq_reg_r (bx - ax)); [|lra]. nra. } lra.
Qed.

Lemma hull_same2 : forall a p, in_hull [a] p <-> in_hull [a; a] p.
Proof.
  intros a p. split; intros H; (eapply hull_trans; [exact H|]); intros q Hq; simpl in Hq; apply hull_member; simpl; tauto.
Qed.

Lemma area_hull1 : forall a, has_area (in_hull [a]) 0.
Proof. intros a. apply (area_ext (in_hull [a; a])); [intros p; symmetry; apply hull_same2|]. apply area_hull2. Qed.

Lemma area_hull0 : has_area (in_hull []) 0.
Proof.
  exists [], (fun _ => 0), 0, 0. split; [lra|]. split; [|split; [|apply RInt_zero]].
  - intros p (w & L & _ & S & _). destruct w; [|discriminate L]. cbn in S. lra.
  - intros x. right. left. split; auto. intros y (w & L & _ & S & _). destruct w; [|discriminate L]. cbn in S. lra.
Qed.

(** A triangle with a vertical side. *)
Lemma area_vertical : forall x1 x2 ya yb yc, ya <= yb -> x1 <> x2 ->
  has_area (in_hull [(x1, ya); (x1, yb); (x2, yc)]) ((yb - ya) * Rabs (x2 - x1) / 2).
Proof.
  intros x1 x2 ya yb yc Y NE.
  set (tt := fun x => (x - x1) / (x2 - x1)).
  assert (TT : forall x, x = x1 + tt x * (x2 - x1)) by (intros; unfold tt; field; lra).
  exists [], (fun x => if Rle_dec 0 (tt x) then if Rle_dec (tt x) 1 then (1 - tt x) * (yb - ya) else 0 else 0), (Rmin x1 x2), (Rmax x1 x2).
  assert (A1 := Rmin_l x1 x2). assert (A2 := Rmin_r x1 x2). assert (A3 := Rmax_l x1 x2). assert (A4 := Rmax_r x1 x2).
  split; [lra|]. split; [|split].
  - intros p Hp. apply hull3 in Hp. destruct Hp as (u & v & w & U & V & W & S & X & _). cbn [fst snd] in X. rewrite X.
    replace u with (1 - v - w) by lra. replace ((1 - v - w) * x1 + v * x1 + w * x2) with (x1 + w * (x2 - x1)) by ring. assert (w <= 1) by lra. split; nra.
  - intros x. right.
    assert (W : forall y, in_hull [(x1, ya); (x1, yb); (x2, yc)] (x, y) -> 0 <= tt x <= 1 /\ (1 - tt x) * ya + tt x * yc <= y <= (1 - tt x) * yb + tt x * yc).
    { intros y Hy. apply hull3 in Hy. destruct Hy as (u & v & w & U & V & W & S & X & YY). cbn [fst snd] in X, YY.
      assert (EW : w = tt x). { apply (Rmult_eq_reg_r (x2 - x1)); [|lra]. assert (Z := TT x). replace u with (1 - v - w) in X by lra. nra. }
      rewrite <- EW. split; [lra|]. rewrite YY. replace (1 - w) with (u + v) by lra. split; nra. }
    destruct (Rle_dec 0 (tt x)) as [P|P]; [destruct (Rle_dec (tt x) 1) as [P1|P1]|].
    + right. exists ((1 - tt x) * ya + tt x * yc), ((1 - tt x) * yb + tt x * yc). split; [nra|]. split; [ring|]. intros y. split; [apply W|].
      intros Hy. apply hull3. destruct (Req_dec ya yb) as [E|E].
      * subst yb. exists (1 - tt x), 0, (tt x). cbn [fst snd]. assert (Z := TT x). repeat split; try lra.
      * set (v := (y - (1 - tt x) * ya - tt x * yc) / (yb - ya)).
        assert (EV : y = (1 - tt x) * ya + tt x * yc + v * (yb - ya)) by (unfold v; field; lra).
        assert (V0 : 0 <= v) by (apply (Rmult_le_reg_r (yb - ya)); [lra|]; lra).
        assert (V1 : v <= 1 - tt x) by (apply (Rmult_le_reg_r (yb - ya)); [lra|]; lra).
        exists (1 - tt x - v), v, (tt x). cbn [fst snd]. assert (Z := TT x). repeat split; try lra.
    + left. split; auto. intros y Hy. apply W in Hy. lra.
    + left. split; auto. intros y Hy. apply W in Hy. lra.
  - set (G := fun x => (yb - ya) * (x - (x - x1) * (x - x1) / (2 * (x2 - x1)))).
    apply (is_RInt_ext (fun x => (1 - tt x) * (yb - ya))).
    { intros x Hx. rewrite Rmin_left, Rmax_right in Hx by lra.
      assert (Z := TT x). destruct (Rlt_dec x1 x2) as [L|L].
      - rewrite Rmin_left, Rmax_right in Hx by lra. destruct (Rle_dec 0 (tt x)) as [P|P]; [destruct (Rle_dec (tt x) 1) as [P1|P1]; auto|]; exfalso; nra.
      - rewrite Rmin_right, Rmax_left in Hx by lra. destruct (Rle_dec 0 (tt x)) as [P|P]; [destruct (Rle_dec (tt x) 1) as [P1|P1]; auto|]; exfalso; nra. }
    replace ((yb - ya) * Rabs (x2 - x1) / 2) with (minus (G (Rmax x1 x2)) (G (Rmin x1 x2))).
    + apply (is_RInt_derive G).
      * intros x _. unfold G, tt. auto_derive; auto. field. lra.
      * intros x _. apply (ex_derive_continuous (fun x => (1 - tt x) * (yb - ya))). unfold tt. auto_derive. auto.
    + unfold minus, plus, opp; cbn. unfold G. destruct (Rlt_dec x1 x2) as [L|L].
      * rewrite Rmin_left, Rmax_right by lra. rewrite Rabs_pos_eq by lra. field. lra.
      * rewrite Rmin_right, Rmax_left by lra. rewrite Rabs_left by lra. field. lra.
Qed.

(** ** Triangles *)
Lemma hull_perm : forall V W p, Permutation V W -> in_hull V p -> in_hull W p.
Proof. intros V W p P H. apply (hull_trans V); auto. intros q Hq. apply hull_member. apply (Permutation_in q P); auto. Qed.

Lemma area_perm : forall V W r, Permutation V W -> has_area (in_hull V) r -> has_area (in_hull W) r.
Proof. intros V W r P. apply area_ext. intros p. split; apply hull_perm; auto using Permutation_sym. Qed.

Lemma area_vertical2 : forall x1 x2 ya yb yc, x1 <> x2 ->
  has_area (in_hull [(x1, ya); (x1, yb); (x2, yc)]) (Rabs (yb - ya) * Rabs (x2 - x1) / 2).
Proof.
  intros x1 x2 ya yb yc N. destruct (Rle_dec ya yb) as [L|L].
  - rewrite (Rabs_pos_eq (yb - ya)) by lra. apply area_vertical; auto.
  - apply (area_perm [(x1, yb); (x1, ya); (x2, yc)]); [apply perm_swap|]. rewrite (Rabs_left (yb - ya)) by lra.
    replace (- (yb - ya)) with (ya - yb) by ring. apply area_vertical; auto. lra.
Qed.

Lemma flat_vertical : forall (K : point -> Prop) c, (forall p, K p -> fst p = c) -> flat K.
Proof. intros K c H p q r Hp Hq Hr. unfold cr. rewrite (H p Hp), (H q Hq), (H r Hr). ring. Qed.

Lemma area_sorted : forall a b c, fst a <= fst b <= fst c -> fst a <> fst c -> has_area (in_hull [a; b; c]) (Rabs (cr a b c) / 2).
Proof.
  intros [xa ya] [xb yb] [xc yc] H N. cbn [fst] in H, N. unfold cr. cbn [fst snd].
  destruct (Req_dec xa xb) as [E|E]; [|destruct (Req_dec xb xc) as [E2|E2]].
  - subst xb. replace ((xa - xa) * (yc - ya) - (yb - ya) * (xc - xa)) with (- ((yb - ya) * (xc - xa))) by ring.
    rewrite Rabs_Ropp, Rabs_mult. apply area_vertical2. auto.
  - subst xc. replace ((xb - xa) * (yc - ya) - (yb - ya) * (xb - xa)) with (- ((yc - yb) * (xa - xb))) by ring.
    rewrite Rabs_Ropp, Rabs_mult. apply (area_perm [(xb, yb); (xb, yc); (xa, ya)]); [|apply area_vertical2; auto].
    apply Permutation_sym. apply (perm_trans (l' := [(xb, yb); (xa, ya); (xb, yc)])); [apply perm_swap|apply perm_skip, perm_swap].
  - set (t := (xb - xa) / (xc - xa)). assert (T : xb = xa + t * (xc - xa)) by (unfold t; field; lra).
    assert (T0 : 0 < t) by (apply (Rmult_lt_reg_r (xc - xa)); lra). assert (T1 : t < 1) by (apply (Rmult_lt_reg_r (xc - xa)); lra).
    set (ym := ya + t * (yc - ya)).
    assert (A1 := area_vertical2 xb xa yb ym ya ltac:(lra)). assert (A2 := area_vertical2 xb xc yb ym yc ltac:(lra)).
    replace (Rabs ((xb - xa) * (yc - ya) - (yb - ya) * (xc - xa)) / 2) with
      (Rabs (ym - yb) * Rabs (xa - xb) / 2 + Rabs (ym - yb) * Rabs (xc - xb) / 2).
    2: { replace ((xb - xa) * (yc - ya) - (yb - ya) * (xc - xa)) with ((ym - yb) * (xc - xa)) by (unfold ym; rewrite T; ring).
         rewrite Rabs_mult. rewrite (Rabs_left (xa - xb)), (Rabs_pos_eq (xc - xb)), (Rabs_pos_eq (xc - xa)) by lra. field. }
    apply (area_union (in_hull [(xb, yb); (xb, ym); (xa, ya)]) (in_hull [(xb, yb); (xb, ym); (xc, yc)])); auto.
    + apply (flat_vertical _ xb). intros p [H1 H2]. apply hull3 in H1. apply hull3 in H2.
      destruct H1 as (u & v & w & U & V & W & S & X & _). destruct H2 as (u' & v' & w' & U' & V' & W' & S' & X' & _). cbn [fst snd] in X, X'.
      replace u with (1 - v - w) in X by lra. replace u' with (1 - v' - w') in X' by lra. nra.
    + intros p. split.
      * intros Hp. apply hull3 in Hp. destruct Hp as (u & v & w & U & V & W & S & X & Y). cbn [fst snd] in X, Y.
        destruct (Rle_dec (w * (1 - t)) (u * t)) as [L|L].
        -- left. apply hull3. exists v, (w / t), (u - w / t * (1 - t)). cbn [fst snd].
           assert (W2 : 0 <= w / t) by (apply Rcomplements.Rdiv_le_0_compat; lra).
           assert (U2 : 0 <= u - w / t * (1 - t)). { apply (Rmult_le_reg_r t); [lra|]. replace ((u - w / t * (1 - t)) * t) with (u * t - w * (1 - t)) by (field; lra). lra. }
           do 3 (split; [assumption|]). split; [replace u with (1 - v - w) by lra; field; lra|]. split.
           ++ rewrite X, T. field. lra. ++ rewrite Y. unfold ym. field. lra.
        -- right. apply hull3. exists v, (u / (1 - t)), (w - u / (1 - t) * t). cbn [fst snd].
           assert (W2 : 0 <= u / (1 - t)) by (apply Rcomplements.Rdiv_le_0_compat; lra).
           assert (U2 : 0 <= w - u / (1 - t) * t). { apply (Rmult_le_reg_r (1 - t)); [lra|]. replace ((w - u / (1 - t) * t) * (1 - t)) with (w * (1 - t) - u * t) by (field; lra). lra. }
           do 3 (split; [assumption|]). split; [replace w with (1 - v - u) by lra; field; lra|]. split.
           ++ rewrite X, T. field. lra. ++ rewrite Y. unfold ym. field. lra.
      * assert (M : in_hull [(xa, ya); (xb, yb); (xc, yc)] (xb, ym)).
        { apply hull3. exists (1 - t), 0, t. cbn [fst snd]. unfold ym. repeat split; try lra. }
        assert (MA : in_hull [(xa, ya); (xb, yb); (xc, yc)] (xa, ya)) by (apply hull_member; simpl; auto).
        assert (MB : in_hull [(xa, ya); (xb, yb); (xc, yc)] (xb, yb)) by (apply hull_member; simpl; auto).
        assert (MC : in_hull [(xa, ya); (xb, yb); (xc, yc)] (xc, yc)) by (apply hull_member; simpl; auto).
        intros [Hp|Hp]; apply (hull_trans _ _ p Hp); intros q [<-|[<-|[<-|[]]]]; auto.
    + intros x y y' z. apply hull_slices.
Qed.

Lemma abs_cr_rot : forall a b c, Rabs (cr b c a) = Rabs (cr a b c).
Proof. intros. f_equal. symmetry. apply cr_rot. Qed.
Lemma abs_cr_swap : forall a b c, Rabs (cr a c b) = Rabs (cr a b c).
Proof. intros. rewrite (cr_swap a b c). symmetry. apply Rabs_Ropp. Qed.

Lemma area_triangle : forall a b c, cr a b c <> 0 -> has_area (in_hull [a; b; c]) (Rabs (cr a b c) / 2).
Proof.
  intros a b c N.
  assert (NV : ~ (fst a = fst b /\ fst b = fst c)) by (intros [E1 E2]; apply N; unfold cr; rewrite <- E2, <- E1; ring).
  assert (S : forall a b c, fst a <= fst b <= fst c -> ~ (fst a = fst b /\ fst b = fst c) -> has_area (in_hull [a; b; c]) (Rabs (cr a b c) / 2)).
  { intros a' b' c' H H'. apply area_sorted; auto. lra. }
  destruct (Rle_dec (fst a) (fst b)) as [L1|L1], (Rle_dec (fst b) (fst c)) as [L2|L2], (Rle_dec (fst a) (fst c)) as [L3|L3]; try lra.
  - apply S; auto.
  - rewrite <- abs_cr_swap. apply (area_perm [a; c; b]); [apply perm_skip, perm_swap|]. apply S; lra.
  - rewrite abs_cr_rot with (a := c) (b := a) (c := b). apply (area_perm [c; a; b]); [|apply S; lra].
    apply (Permutation_cons_append [a; b] c).
  - rewrite <- abs_cr_rot, <- abs_cr_swap, abs_cr_rot with (a := b) (b := a) (c := c) || idtac.
    apply (area_perm [b; a; c]); [apply perm_swap|]. replace (Rabs (cr a b c)) with (Rabs (cr b a c)); [apply S; lra|].
    rewrite <- (abs_cr_rot b a c), abs_cr_swap. reflexivity.
  - rewrite <- abs_cr_rot. apply (area_perm [b; c; a]); [apply Permutation_sym, (Permutation_cons_append [b; c] a)|]. apply S; lra.
  - replace (Rabs (cr a b c)) with (Rabs (cr c b a)).
    + apply (area_perm [c; b; a]); [|apply S; lra]. apply (Permutation_rev [c; b; a]).
    + rewrite (abs_cr_rot a c b). apply abs_cr_swap.
Qed.

Lemma in_triangle : forall a b c p, 0 < cr a b c -> 0 <= cr a b p -> 0 <= cr b c p -> 0 <= cr c a p -> in_hull [a; b; c] p.
Proof.
  intros [ax ay] [bx by_] [cx cy] [px py] D H1 H2 H3. apply hull3.
  set (d := cr (ax, ay) (bx, by_) (cx, cy)) in *.
  exists (cr (bx, by_) (cx, cy) (px, py) / d), (cr (cx, cy) (ax, ay) (px, py) / d), (cr (ax, ay) (bx, by_) (px, py) / d).
  split; [apply Rcomplements.Rdiv_le_0_compat; auto|]. split; [apply Rcomplements.Rdiv_le_0_compat; auto|]. split; [apply Rcomplements.Rdiv_le_0_compat; auto|].
  unfold d, cr in *. cbn [fst snd] in *. split; [field; lra|]. split; field; lra.
Qed.

Lemma on_line_flat : forall a b p q r, a <> b -> cr a b p = 0 -> cr a b q = 0 -> cr a b r = 0 -> cr p q r = 0.
Proof.
  intros a b p q r N Hp Hq Hr. apply on_line in Hp; auto. apply on_line in Hq; auto. apply on_line in Hr; auto.
  destruct Hp as (s & P1 & P2). destruct Hq as (t & Q1 & Q2). destruct Hr as (u & R1 & R2).
  unfold cr. rewrite P1, P2, Q1, Q2, R1, R2. ring.
Qed.

(** ** Convex polygons *)
Definition scale (k : R) (w : list R) : list R := map (fun a => k * a) w.
Lemma scale_wsum : forall k w x, wsum (scale k w) x = k * wsum w x.
Proof. intros k. induction w as [|a w IH]; intros [|b x]; cbn; try ring. unfold scale in IH. rewrite IH. ring. Qed.

Lemma wsum_nonneg : forall w x, List.Forall (fun x => - 0 <= x) w -> List.Forall (fun x => 0 <= x) x -> 0 <= wsum w x.
Proof.
  induction w as [|a w IH]; intros [|b x] H H'; cbn; try lra.
  apply List.Forall_inv in H as A. apply List.Forall_inv_tail in H. apply List.Forall_inv in H' as B. apply List.Forall_inv_tail in H'.
  assert (I := IH x H H'). assert (0 <= a * b) by (apply Rmult_le_pos; lra). lra.
Qed.

Lemma hull_cons : forall q V x, in_hull (q :: V) x -> x = q \/ exists y t, in_hull V y /\ 0 <= t < 1 /\ x = on_seg y q t.
Proof.
  intros q V x (w & L & W & S1 & S2 & S3). destruct w as [|t w]; [discriminate|]. cbn in L, S1, S2, S3.
  apply List.Forall_inv in W as T. apply List.Forall_inv_tail in W.
  assert (O : 0 <= wsum w (map (fun _ => 1) V)).
  { apply wsum_nonneg; auto. apply List.Forall_forall. intros z Hz. apply in_map_iff in Hz. destruct Hz as (? & <- & _). lra. }
  destruct (Req_dec t 1) as [E|E].
  - left. subst t. assert (Z : wsum w (map (fun _ => 1) V) = 0) by lra.
    assert (Zs : List.Forall (fun x => x = 0) w).
    { clear - L W Z. revert V L Z. induction w as [|a w IH]; intros [|v V] L Z; cbn in *; try discriminate; constructor.
      - apply List.Forall_inv in W as A. apply List.Forall_inv_tail in W.
        assert (0 <= wsum w (map (fun _ => 1) V)). { apply wsum_nonneg; auto. apply List.Forall_forall. intros z Hz. apply in_map_iff in Hz. destruct Hz as (? & <- & _). lra. } lra.
      - apply List.Forall_inv in W as A. apply List.Forall_inv_tail in W. apply (IH W V); [lia|].
        assert (0 <= wsum w (map (fun _ => 1) V)). { apply wsum_nonneg; auto. apply List.Forall_forall. intros z Hz. apply in_map_iff in Hz. destruct Hz as (? & <- & _). lra. } lra. }
    assert (G : forall y, wsum w y = 0).
    { clear - Zs. induction Zs as [|a w A Zs IH]; intros [|b y]; cbn; auto. rewrite A, IH. ring. }
    rewrite G in S2, S3. destruct x, q. cbn in *. f_equal; lra.
  - right. assert (T1 : t < 1) by lra.
    exists (wsum (scale (/ (1 - t)) w) (map fst V), wsum (scale (/ (1 - t)) w) (map snd V)), t. split; [|split; [lra|]].
    + exists (scale (/ (1 - t)) w). split; [unfold scale; rewrite map_length; lia|]. split.
      * apply List.Forall_forall. intros z Hz. apply in_map_iff in Hz. destruct Hz as (a & <- & Ha).
        rewrite List.Forall_forall in W. assert (A := W a Ha). assert (0 < / (1 - t)) by (apply Rinv_0_lt_compat; lra).
        assert (0 <= / (1 - t) * a) by (apply Rmult_le_pos; lra). lra.
      * split; [rewrite scale_wsum|split; reflexivity]. replace (wsum w (map (fun _ => 1) V)) with (1 - t) by lra. field. lra.
    + rewrite !scale_wsum. unfold on_seg. cbn [fst snd]. destruct x as [x y]. cbn [fst snd] in *. f_equal; [rewrite S2|rewrite S3]; field; lra.
Qed.

Lemma cr_seg : forall a b p q t, cr a b (on_seg p q t) = (1 - t) * cr a b p + t * cr a b q.
Proof. intros. unfold cr, on_seg. cbn [fst snd]. ring. Qed.

Lemma hull_cr : forall V a b p, in_hull V p -> (forall q, In q V -> 0 <= cr a b q) -> 0 <= cr a b p.
Proof.
  intros V a b p H G. assert (E : forall q, cr a b q = (- (fst b - fst a) * snd a + (snd b - snd a) * fst a) + (- (snd b - snd a)) * fst q + (fst b - fst a) * snd q) by (intros; unfold cr; ring).
  rewrite E. apply (hull_linear V p); auto. intros q Hq. rewrite <- E. auto.
Qed.

Lemma chain_snoc : forall l a b, chain_sum (l ++ [a; b]) = chain_sum (l ++ [a]) + det2 a b.
Proof.
  induction l as [|p l IH]; intros a b; cbn [app]; [cbn; ring|].
  specialize (IH a b). destruct l as [|q l]; cbn [app] in *; [cbn in *; lra|].
  change (chain_sum (p :: q :: l ++ [a; b])) with (det2 p q + chain_sum (q :: l ++ [a; b])).
  change (chain_sum (p :: q :: l ++ [a])) with (det2 p q + chain_sum (q :: l ++ [a])). rewrite IH. ring.
Qed.

Lemma shoelace_cons : forall q a m z, shoelace (q :: a :: m ++ [z]) = shoelace (a :: m ++ [z]) + cr q a z.
Proof.
  intros q a m z. unfold shoelace.
  replace ((q :: a :: m ++ [z]) ++ [q]) with ((q :: a :: m) ++ [z; q]) by (cbn; rewrite <- app_assoc; reflexivity).
  replace ((a :: m ++ [z]) ++ [a]) with ((a :: m) ++ [z; a]) by (cbn; rewrite <- app_assoc; reflexivity).
  rewrite !chain_snoc. cbn [app]. change (chain_sum (q :: a :: m ++ [z])) with (det2 q a + chain_sum (a :: m ++ [z])).
  unfold det2, cr. ring.
Qed.

(** The fan of a strictly convex polygon: splitting off the first point. *)
Lemma fan : forall q a m z, 0 < cr q a z -> (forall p, In p m -> 0 < cr q a p /\ 0 < cr q p z /\ 0 < cr a p z) ->
  (forall x, in_hull (q :: a :: m ++ [z]) x <-> in_hull (a :: m ++ [z]) x \/ in_hull [q; a; z] x) /\
  flat (fun x => in_hull (a :: m ++ [z]) x /\ in_hull [q; a; z] x).
Proof.
  intros q a m z D H.
  assert (IN : forall p, In p (a :: m ++ [z]) -> p = a \/ In p m \/ p = z).
  { intros p [<-|I]; auto. apply in_app_or in I. destruct I as [I|[<-|[]]]; auto. }
  assert (N : forall p, In p (a :: m ++ [z]) -> 0 <= cr z a p).
  { intros p I. destruct (IN p I) as [->|[I'| ->]]; [rewrite cr_same2; lra| |rewrite cr_same3; lra].
    destruct (H p I') as (_ & _ & H3). replace (cr z a p) with (cr a p z) by (unfold cr; ring). lra. }
  assert (B1 : forall p, In p (q :: a :: m ++ [z]) -> 0 <= cr q a p).
  { intros p [<-|I]; [rewrite cr_same3; lra|]. destruct (IN p I) as [->|[I'| ->]]; [rewrite cr_same2; lra| |lra].
    destruct (H p I') as (H1 & _). lra. }
  assert (B2 : forall p, In p (q :: a :: m ++ [z]) -> 0 <= cr z q p).
  { intros p [<-|I]; [rewrite cr_same2; lra|]. destruct (IN p I) as [->|[I'| ->]]; [| |rewrite cr_same3; lra].
    - replace (cr z q a) with (cr q a z) by (unfold cr; ring). lra.
    - destruct (H p I') as (_ & H2 & _). replace (cr z q p) with (cr q p z) by (unfold cr; ring). lra. }
  assert (ZA : forall p, cr a z p = - cr z a p) by (intros; unfold cr; ring).
  assert (NA : a <> z) by (intros ->; rewrite cr_same2 in D; lra).
  split.
  - intros x. split.
    + intros Hx. destruct (Rle_dec 0 (cr a z x)) as [L|L].
      * right. apply in_triangle; auto.
        -- apply (hull_cr _ _ _ _ Hx B1).
        -- apply (hull_cr _ _ _ _ Hx B2).
      * left. apply Rnot_le_lt in L. assert (Hx' := Hx). apply hull_cons in Hx.
        assert (Dq : cr a z q = cr q a z) by (unfold cr; ring).
        destruct Hx as [->|(y & t & Hy & Ht & ->)]; [lra|].
        assert (Y := hull_cr _ z a y Hy N). rewrite cr_seg in L. assert (Y' := ZA y). rewrite Dq, Y' in L.
        set (d := cr q a z) in *. set (cy := cr z a y) in *.
        assert (T0 : t * (d + cy) < cy) by lra.
        set (s := cy / (d + cy)).
        assert (S : s * (d + cy) = cy) by (unfold s; field; lra).
        assert (TS : t < s) by (apply (Rmult_lt_reg_r (d + cy)); lra).
        assert (S1 : s <= 1) by (apply (Rmult_le_reg_r (d + cy)); lra).
        set (x' := on_seg y q s).
        assert (Hx2 : in_hull (q :: a :: m ++ [z]) x').
        { apply hull_convex; [|apply hull_member; left; auto|lra]. apply (hull_trans _ _ _ Hy). intros p Hp. apply hull_member. right. auto. }
        assert (C0 : cr a z x' = 0) by (unfold x'; rewrite cr_seg, Dq, Y'; lra).
        assert (C1 := hull_cr _ _ _ _ Hx2 B1). assert (C2 := hull_cr _ _ _ _ Hx2 B2).
        assert (M : in_hull (a :: m ++ [z]) x').
        { assert (on2 : in_hull [a; z] x').
          { apply hull2. exists (cr z q x' / d), (cr q a x' / d). split; [apply Rcomplements.Rdiv_le_0_compat; lra|]. split; [apply Rcomplements.Rdiv_le_0_compat; lra|].
            clear - C0 D. unfold d in *. clear d. generalize dependent x'. intros x' C0. assert (ID : cr z q x' + cr q a x' = cr q a z) by (replace (cr q a z) with (cr z q x' + cr q a x' + cr a z x') by (unfold cr; ring); lra).
            split; [unfold Rdiv; rewrite <- Rmult_plus_distr_r, ID; field; lra|].
            assert (IX : fst x' * cr q a z = cr z q x' * fst a + cr q a x' * fst z + cr a z x' * fst q) by (unfold cr; ring).
            assert (IY : snd x' * cr q a z = cr z q x' * snd a + cr q a x' * snd z + cr a z x' * snd q) by (unfold cr; ring).
            rewrite C0 in IX, IY.
            split; [apply (Rmult_eq_reg_r (cr q a z)); [rewrite IX; field; lra|lra]|apply (Rmult_eq_reg_r (cr q a z)); [rewrite IY; field; lra|lra]]. }
          apply (hull_trans _ _ _ on2). intros p Hp. apply hull_member. destruct Hp as [<-|[<-|[]]]; [left; auto|right; apply in_or_app; right; left; auto]. }
        assert (S0 : 0 < s) by lra.
        replace (on_seg y q t) with (on_seg y x' (t / s)).
        -- apply hull_convex; auto. split; [apply Rcomplements.Rdiv_le_0_compat; lra|]. apply (Rmult_le_reg_r s); [lra|]. replace (t / s * s) with t by (field; lra). lra.
        -- unfold x', on_seg. cbn [fst snd]. f_equal; field; lra.
    + intros [Hx|Hx]; apply (hull_trans _ _ _ Hx); intros p Hp; apply hull_member; [right; auto|].
      destruct Hp as [<-|[<-|[<-|[]]]]; [left; auto|right; left; auto|right; right; apply in_or_app; right; left; auto].
  - assert (F : forall p, in_hull (a :: m ++ [z]) p /\ in_hull [q; a; z] p -> cr a z p = 0).
    { intros p [H1 H2]. assert (A := hull_cr _ z a p H1 N).
      assert (B : 0 <= cr a z p). { apply (hull_cr _ a z p H2). intros r [<-|[<-|[<-|[]]]]; [replace (cr a z q) with (cr q a z) by (unfold cr; ring); lra|rewrite cr_same3; lra|rewrite cr_same2; lra]. }
      rewrite ZA in *. lra. }
    intros p1 p2 p3 H1 H2 H3. apply (on_line_flat a z); auto.
Qed.

Lemma strict_tail : forall q P, strict_ccw (q :: P) -> strict_ccw P.
Proof. intros q P H i j k Hij Hk. apply (H (S i) (S j) (S k)); cbn; lia. Qed.


Lemma strict_fan : forall q a m z, strict_ccw (q :: a :: m ++ [z]) ->
  0 < cr q a z /\ forall p, In p m -> 0 < cr q a p /\ 0 < cr q p z /\ 0 < cr a p z.
Proof.
  intros q a m z H.
  assert (Z : nthp (q :: a :: m ++ [z]) (S (S (length m))) = z).
  { unfold nthp. cbn. rewrite app_nth2 by lia. rewrite Nat.sub_diag. reflexivity. }
  assert (L : length (q :: a :: m ++ [z]) = S (S (S (length m)))) by (cbn; rewrite app_length; cbn; lia).
  split.
  - assert (G := H 0%nat 1%nat (S (S (length m))) ltac:(lia) ltac:(lia)). rewrite Z in G. exact G.
  - intros p Hp. apply (In_nth m p origin) in Hp. destruct Hp as (n & Hn & E).
    assert (P : nthp (q :: a :: m ++ [z]) (S (S n)) = p) by (unfold nthp; cbn; rewrite app_nth1 by lia; auto).
    assert (G1 := H 0%nat 1%nat (S (S n)) ltac:(lia) ltac:(lia)). assert (G2 := H 0%nat (S (S n)) (S (S (length m))) ltac:(lia) ltac:(lia)).
    assert (G3 := H 1%nat (S (S n)) (S (S (length m))) ltac:(lia) ltac:(lia)). rewrite Z, P in *. auto.
Qed.

Theorem area_polygon : forall P, strict_ccw P -> has_area (in_hull P) (polygon_area P).
Proof.
  induction P as [|q P IH]; intros H.
  - replace (polygon_area []) with 0 by (unfold polygon_area; cbn; field). apply area_hull0.
  - destruct P as [|a P].
    + replace (polygon_area [q]) with 0 by (unfold polygon_area; cbn; unfold det2; field). apply area_hull1.
    + assert (NE : {P = []} + {P <> []}) by (destruct P; [left; auto|right; discriminate]). destruct NE as [->|NE].
      * replace (polygon_area [q; a]) with 0 by (unfold polygon_area; cbn; unfold det2; field). apply area_hull2.
      * destruct (exists_last NE) as (m & z & ->). destruct (strict_fan q a m z H) as (D & G). destruct (fan q a m z D G) as (F1 & F2).
        assert (E : polygon_area (q :: a :: m ++ [z]) = polygon_area (a :: m ++ [z]) + Rabs (cr q a z) / 2).
        { unfold polygon_area. rewrite shoelace_cons, Rabs_pos_eq by lra. field. }
        rewrite E. apply (area_union (in_hull (a :: m ++ [z])) (in_hull [q; a; z])); auto.
        -- apply IH. apply (strict_tail q); auto.
        -- apply area_triangle. lra.
        -- intros x y y' w. apply hull_slices.
Qed.
