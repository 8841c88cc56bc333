(** Property C40, any arithmetic and any solver. *)
From Coq Require Import ZArith List Bool Reals Lia Floats.SpecFloat.
From Verif Require Import Base Num NumR NumF S_Array S_Sort M_LinearSolve M_Triangulate M_Quad M_QuadIntersect M_ConserveInterp S_ConserveTable S_ConserveRel
  L_LinearSolve L_Cramer L_Conserve L_ConserveTable L_ConserveRel P_Conserve.
Import ListNotations.

(** The row of every destination cell is what testing it by itself against every source cell gives, up to the directions in
    which the edges are followed in the computation of the crossings. *)
Theorem C40_some_direction_partial : forall {T} {N : Num T} srt (g : gels T) d0 d1 nx ny xs ys e0 e1 mx my us vs m ms,
  (2 <= d0)%Z -> (2 <= d1)%Z -> (d0 * d1 <= int_max)%Z -> (2 <= e0)%Z -> (2 <= e1)%Z -> (e0 * e1 <= int_max)%Z ->
  stores d0 d1 nx xs -> stores d0 d1 ny ys -> stores e0 e1 mx us -> stores e0 e1 my vs ->
  exists s, conserve_run srt g d0 d1 xs ys e0 e1 us vs (m :: ms) = Ret s /\
    forall c, (0 <= c < (d0 - 1) * (d1 - 1))%Z ->
      pieces (entry_rel srt g (fst m c) (snd m c) (cell_at d1 nx ny c) (cell_at e1 mx my)) (range ((e0 - 1) * (e1 - 1))) (row_of (ci_weights s) c).
Proof.
  intros T N srt g d0 d1 nx ny xs ys e0 e1 mx my us vs m ms H0 H1 H2 H3 H4 H5 SX SY SU SV.
  destruct (run_grids srt g d0 d1 _ _ xs ys e0 e1 _ _ us vs H0 H1 H2 H3 H4 H5 SX SY SU SV) as (dg & sg & GD & GS & RUN).
  destruct (computeWeights_rel srt g (fst m) (snd m) d0 d1 e0 e1 _ _ _ _ dg sg GD GS (mkCi (Some dg) (Some sg) [] None)) as (s & CW & _ & _ & _ & AS & RF & ROW); auto.
  { constructor. } { intros d r []. }
  exists s. split; [rewrite RUN; apply run_again; auto|]. intros c Hc.
  assert (ND : g_numCells dg = ((d0 - 1) * (d1 - 1))%Z) by apply GD. assert (NS : g_numCells sg = ((e0 - 1) * (e1 - 1))%Z) by apply GS.
  destruct (ROW c) as [R1 _]. rewrite ND in R1. destruct (R1 Hc) as (o & PC & EO). rewrite NS in PC. rewrite EO. exact PC.
Qed.
Print Assumptions C40_some_direction_partial.

(** The grids of C40_refuted: both rows have an entry, and they are made of crossings found in some direction. *)
Example C40_some_direction_case : let xs := map F10 [0; 1; 10; 13; 21; 20]%Z in let ys := map F10 [0; 11; 1; 10; 0; 9]%Z in
  let us := map F10 [3; 4; 17; 18]%Z in let vs := map F10 [3; 8; 2; 7]%Z in
  exists s, conserve_run isort cramer 3 2 xs ys 2 2 us vs [zeros] = Ret s /\
    forall c, (0 <= c < 2)%Z -> row_of (ci_weights s) c <> [] /\
      pieces (entry_rel isort cramer (fst zeros c) (snd zeros c) (cell_at 2 (nodes_of 2 xs) (nodes_of 2 ys) c) (cell_at 2 (nodes_of 2 us) (nodes_of 2 vs))) (range 1) (row_of (ci_weights s) c).
Proof.
  intros xs ys us vs. assert (SX := stores_nth (T := spec_float) 3 2 xs ltac:(lia) ltac:(lia) eq_refl). assert (SY := stores_nth (T := spec_float) 3 2 ys ltac:(lia) ltac:(lia) eq_refl).
  assert (SU := stores_nth (T := spec_float) 2 2 us ltac:(lia) ltac:(lia) eq_refl). assert (SV := stores_nth (T := spec_float) 2 2 vs ltac:(lia) ltac:(lia) eq_refl).
  destruct (C40_some_direction_partial isort cramer 3 2 _ _ xs ys 2 2 _ _ us vs zeros [] ltac:(lia) ltac:(lia) ltac:(unfold int_max; lia) ltac:(lia) ltac:(lia) ltac:(unfold int_max; lia) SX SY SU SV) as (s & RN & W).
  exists s. split; auto. intros c Hc. split; [|apply W; lia].
  assert (E : match conserve_run isort cramer 3 2 xs ys 2 2 us vs [zeros] with Ret s => match row_of (ci_weights s) 0, row_of (ci_weights s) 1 with _ :: _, _ :: _ => true | _, _ => false end | Undef _ => false end = true) by (vm_compute; reflexivity).
  rewrite RN in E. assert (K : (c = 0 \/ c = 1)%Z) by lia. destruct K as [-> | ->]; destruct (row_of (ci_weights s) 0), (row_of (ci_weights s) 1); congruence.
Qed.
