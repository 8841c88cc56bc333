(** Projections of a segment on the edges of a quad. *)
From Coq Require Import ZArith List Bool Reals Lra Lia.
From Verif Require Import Base Num NumR M_LinearSolve M_FindPoint M_Triangulate M_Quad M_QuadLine S_LinAlg S_Geometry S_Grid S_Flow
  L_LinearSolve L_Interp L_FindPoint L_FindPointR L_FindPointA L_FindPointB.
Import ListNotations.
Open Scope R_scope.

Lemma nhalf_R : (nhalf : R) = 1 / 2.
Proof. unfold nhalf. rewrite lit_R. reflexivity. Qed.

Lemma projections_exact : forall x0a x1a x0b x1b w0 w1 w2 w3, projections (T := R) x0a x1a x0b x1b = (w0, w1, w2, w3) ->
  forall p00 p10 p01 p11,
  w0 * (p10 - p00) + w1 * (p11 - p01) + w2 * (p01 - p00) + w3 * (p11 - p10) =
  bilinear p00 p10 p01 p11 x0b x1b - bilinear p00 p10 p01 p11 x0a x1a.
Proof.
  intros x0a x1a x0b x1b w0 w1 w2 w3 H p00 p10 p01 p11. unfold projections in H. rewrite nhalf_R in H.
  change (n1 : R) with 1 in H. cbn [nmul nadd nsub NumR] in H. injection H as <- <- <- <-. unfold bilinear. field.
Qed.

(** ** The finder of SgQuadLineFlows *)
Definition finder_inv (f : fp (T:=R)) : Prop :=
  fp_nitermax f = 10%Z /\ fp_tolpos f = / 10 ^ 10 /\ (fp_period f = [] \/ fp_period f = [0; 0]).

Definition finder_ready (q : quad R) (f : fp (T:=R)) : Prop :=
  finder_inv f /\ fp_period f = [0; 0] /\ fp_holds [2; 2]%Z f /\ fp_coords f = quad_grid q /\ length (fp_target f) = 2%nat /\
  solver_ok f /\ box_holds [2; 2]%Z (quad_grid q) f.

Lemma quad_grid_data : forall q : quad R, grid_data [2; 2]%Z (quad_grid q).
Proof. intros q. split; [discriminate|split; [split; [repeat constructor; lia|simpl; lia]|split; [reflexivity|repeat constructor]]]. Qed.

Lemma finder_new : finder_inv (qf_finder (qf_new (T := R))).
Proof. unfold finder_inv, qf_new, fp_new. cbn [qf_finder fp_nitermax fp_tolpos fp_period]. rewrite lit_R. repeat split; auto. lra. Qed.

Lemma finder_set : forall f q, finder_inv f ->
  exists f', fp_setGrid f [2; 2]%Z [0; 0]%Z (quad_grid q) = Ret f' /\ finder_ready q f'.
Proof.
  intros f q (I1 & I2 & I3).
  destruct (setGrid_ok f [2; 2]%Z [0; 0]%Z (quad_grid q) (quad_grid_data q))
    as (f' & E & H1 & H2 & H3 & H4 & H5 & H6 & H7 & H8 & H9 & H10 & _).
  exists f'. split; auto.
  assert (P : fp_period f' = [0; 0]) by (rewrite H8; destruct I3 as [-> | ->]; reflexivity).
  assert (B := box_holds_after f f' f' _ _ _ (quad_grid_data q) E eq_refl eq_refl).
  unfold finder_ready, finder_inv. rewrite H9, H10. auto 10.
Qed.

Lemma loop_one : forall g fuel (f f' : fp (T:=R)) code, fp_next g f = Ret (code, f') -> code <> 0%Z ->
  fp_loop g (S fuel) f = Ret (Some (code, f')).
Proof.
  intros g fuel f f' code E C. cbn [fp_loop]. rewrite E. cbn [bind fst snd]. rewrite (proj2 (Z.eqb_neq _ _) C). reflexivity.
Qed.

Lemma search_one : forall g (f f' : fp (T:=R)) code, fp_next g f = Ret (code, f') -> code <> 0%Z ->
  fp_search g f = Ret (code, f').
Proof. intros. unfold fp_search. rewrite (loop_one g _ f f' code); auto. Qed.

(** A parallelogram. *)
Definition parallelogram (q : quad R) : Prop :=
  fst (q2 q) = fst (q1 q) + fst (q3 q) - fst (q0 q) /\ snd (q2 q) = snd (q1 q) + snd (q3 q) - snd (q0 q) /\
  cr (q0 q) (q1 q) (q3 q) <> 0.

Lemma par_affine : forall q, parallelogram q ->
  affine_grid [2; 2]%Z (quad_grid q) [fst (q0 q); snd (q0 q)]
    [[fst (q1 q) - fst (q0 q); fst (q3 q) - fst (q0 q)]; [snd (q1 q) - snd (q0 q); snd (q3 q) - snd (q0 q)]].
Proof.
  intros q (P1 & P2 & D). split; [reflexivity|]. split; [repeat constructor|].
  intros i v Hi Hv. inversion Hv as [|d x ds v' Hx Hv' E1 E2]; subst. inversion Hv' as [|d y ds v'' Hy Hv'' E1 E2]; subst.
  inversion Hv''; subst. simpl in Hi.
  assert (Cx : x = 0%Z \/ x = 1%Z) by lia. assert (Cy : y = 0%Z \/ y = 1%Z) by lia.
  destruct i as [|[|]]; [| |lia]; destruct Cx as [-> | ->], Cy as [-> | ->];
        match goal with |- context [Z.to_nat (flat ?d ?v)] =>
      let n := eval vm_compute in (Z.to_nat (flat d v)) in change (Z.to_nat (flat d v)) with n end;
    cbn [map quad_grid nth dot]; rewrite ?P1, ?P2; lra.
Qed.

Lemma par_invertible : forall q, parallelogram q ->
  invertible 2 [[fst (q1 q) - fst (q0 q); fst (q3 q) - fst (q0 q)]; [snd (q1 q) - snd (q0 q); snd (q3 q) - snd (q0 q)]].
Proof.
  intros q (P1 & P2 & D). set (d := cr (q0 q) (q1 q) (q3 q)) in *.
  exists (fun i j => match i, j with
    | 0%nat, 0%nat => (snd (q3 q) - snd (q0 q)) / d
    | 0%nat, _ => - (fst (q3 q) - fst (q0 q)) / d
    | _, 0%nat => - (snd (q1 q) - snd (q0 q)) / d
    | _, _ => (fst (q1 q) - fst (q0 q)) / d end).
  split; intros i k Hi Hk; destruct i as [|[|]]; try lia; destruct k as [|[|]]; try lia;
    unfold entry; cbn [rsum nth Nat.eqb]; unfold d, cr in *; field; exact D.
Qed.

Lemma in_grid2 : forall x y, 0 <= x <= 1 -> 0 <= y <= 1 -> in_grid [2; 2]%Z [x; y].
Proof. intros. constructor; [|constructor; [|constructor]]; change (IZR (2 - 1)) with 1; lra. Qed.

Lemma find_par : forall g q f p x y, gels_spec g 2 2 -> finder_ready q f -> parallelogram q ->
  0 <= x <= 1 -> 0 <= y <= 1 -> p = in_frame (q0 q) (q1 q) (q3 q) x y ->
  exists f', qf_find g f p = Ret (1%Z, [x; y], f') /\ finder_ready q f'.
Proof.
  intros g q f p x y G (I & P & Hh & Hc & Ht & Hs & Hb) HP Hx Hy Ep.
  assert (Hd : fp_dims f = [2; 2]%Z) by apply Hh.
  unfold qf_find. rewrite nhalf_R. set (h := 1 / 2).
  rewrite reset_ok by (rewrite Hd; reflexivity). cbn [bind].
  match goal with |- context [fp_search g ?f] => set (f1 := f) end.
  assert (GG : fp_good [2; 2]%Z (quad_grid q) f1).
  { unfold fp_good, f1, fp_holds, solver_ok. cbn. split; [apply quad_grid_data|]. split; [exact Hh|]. split; [exact Hc|].
    rewrite P. split; [reflexivity|]. split; [reflexivity|]. split; [exact Hs|]. apply in_grid2; unfold h; lra. }
  assert (PO : periods_ok [2; 2]%Z (fp_period f1)).
  { unfold f1. cbn. rewrite P. constructor; [left; reflexivity|]. constructor; [left; reflexivity|constructor]. }
  destruct (affine_one_step g [2; 2]%Z (quad_grid q) _ _ f1 [x; y] G GG Hb PO eq_refl eq_refl (par_affine q HP) (par_invertible q HP)
    (in_grid2 x y Hx Hy)) as (code & f2 & R1 & R2 & R3 & _ & R5).
  { intros i Hi. simpl in Hi. unfold f1. rewrite Ep. unfold in_frame. destruct i as [|[|]]; [| |lia]; cbn [fp_target nth dot fst snd]; ring. }
  destruct I as (I1 & I2 & I3).
  assert (C : code = 1%Z).
  { apply R5; unfold f1; cbn; [rewrite I1; lia|rewrite I2; lra]. }
  subst code. rewrite (search_one g f1 f2 1%Z R1 ltac:(discriminate)). cbn [bind fst snd].
  exists f2. rewrite R2. split; [reflexivity|].
  assert (SG : same_grid f1 f2).
  { apply next_inv in R1. destruct R1 as [(A & _)|(_ & jr & sv & info & sv' & xs & err & H)]; [discriminate A|]. tauto. }
  destruct SG as (S1 & S2 & S3 & S4 & S5 & S6 & S7 & S8 & S9). unfold f1 in *. cbn in S1, S2, S3, S4, S5, S6, S7, S8, S9.
  destruct R3 as (_ & H2 & H3 & H4 & H5 & H6 & _).
  unfold finder_ready, finder_inv. rewrite <- S8, <- S9, <- S6. split; [auto|]. split; [auto|]. split; [auto|]. split; [auto|].
  split; [exact H5|]. split; [exact H6|]. unfold box_holds in *. rewrite <- S2, <- S3. exact Hb.
Qed.
