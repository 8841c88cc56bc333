(** The inputs of the repository's own tests (tests/*.cxx, tests/*.py.in), run on the model in IEEE
    double arithmetic.  These are tests, not proofs: they check that the model computes what the tests
    of the code say the code computes.  Decimal constants are quotients of exact integers, which
    division rounds to the same double as the compiler.  dgels is replaced by [cramer], std::sort by
    insertion sorts, uninitialised memory by zeros; cos and sin are tables of the double results.
    Larger tests (testSrc10By10, testConserveInterpDisk.cxx, streamFunctionInterp_1) pass as well but are
    left out of the build. *)
From Coq Require Import ZArith List Bool Floats.SpecFloat.
From Verif Require Import Base Num NumF L_Cramer S_Sort M_BoxIterator M_SideIterator M_LinearSolve
  M_FindPoint M_Triangulate M_Quad M_QuadIntersect M_QuadLine M_ConserveInterp M_NodeInterp
  M_FindOverlap M_FlowInterp M_Octree M_Grids M_Simplex M_CmdLine.
Import ListNotations.
Open Scope Z_scope.

(** The decimal constant m * 10^-k. *)
Definition dec (m k : Z) : spec_float := lit m (10 ^ k).
Definition int (z : Z) : spec_float := nofZ z.

(** fabs(a - b) <= tol *)
Definition near (a b tol : spec_float) : bool := nle (nabs (nsub a b)) tol.

Definition run {A} (m : exec A) (f : A -> bool) : bool := match m with Ret a => f a | Undef _ => false end.

Definition mem0 : nat -> pt spec_float := fun _ => (int 0, int 0).

(** Arguments and results of cos and sin in the tests below. *)
Definition cos_table : list (spec_float * spec_float) :=
  [(lit (-884279719003555) (2 ^ 48), lit (-1) (2 ^ 0));
   (lit (-176855943800711) (2 ^ 46), lit (-7286977268806823) (2 ^ 53));
   (lit (-530567831402133) (2 ^ 48), lit (-2783377641436327) (2 ^ 53));
   (lit (-5659390201622751) (2 ^ 52), lit 1391688820718165 (2 ^ 52));
   (lit (-5659390201622751) (2 ^ 53), lit 910872158600853 (2 ^ 50));
   ((nofZ 0), lit 1 (2 ^ 0));
   (lit 176855943800711 (2 ^ 49), lit 8566355544790271 (2 ^ 53));
   (lit 176855943800711 (2 ^ 48), lit 910872158600853 (2 ^ 50));
   (lit 5659390201622757 (2 ^ 53), lit 7286977268806821 (2 ^ 53));
   (lit 530567831402133 (2 ^ 49), lit 2647149443198255 (2 ^ 52));
   (lit 176855943800711 (2 ^ 47), lit 347922205179541 (2 ^ 50));
   (lit 2829695100811377 (2 ^ 51), lit 5566755282872649 (2 ^ 54));
   (lit 884279719003555 (2 ^ 49), lit 4967757600021511 (2 ^ 106));
   (lit 530567831402133 (2 ^ 48), lit (-2783377641436327) (2 ^ 53));
   (lit 8489085302434129 (2 ^ 52), lit (-2783377641436329) (2 ^ 53));
   (lit 1237991606604977 (2 ^ 49), lit (-5294298886396509) (2 ^ 53));
   (lit 176855943800711 (2 ^ 46), lit (-7286977268806823) (2 ^ 53));
   (lit 1591703494206399 (2 ^ 49), lit (-8566355544790271) (2 ^ 53));
   (lit 884279719003555 (2 ^ 48), lit (-1) (2 ^ 0));
   (lit 7781661527231283 (2 ^ 51), lit (-8566355544790273) (2 ^ 53));
   (lit 530567831402133 (2 ^ 47), lit (-7286977268806825) (2 ^ 53));
   (lit 8489085302434129 (2 ^ 51), lit (-3643488634403411) (2 ^ 52));
   (lit 2299127269409243 (2 ^ 49), lit (-5294298886396511) (2 ^ 53));
   (lit 1237991606604977 (2 ^ 48), lit (-2783377641436329) (2 ^ 53));
   (lit 4951966426419909 (2 ^ 50), lit (-5566755282872643) (2 ^ 54));
   (lit 2652839157010665 (2 ^ 49), lit (-3725818200016133) (2 ^ 104));
   (lit 176855943800711 (2 ^ 45), lit 1391688820718163 (2 ^ 52));
   (lit 3006551044612087 (2 ^ 49), lit 1323574721599127 (2 ^ 51));
   (lit 1591703494206399 (2 ^ 48), lit 7286977268806823 (2 ^ 53));
   (lit 6366813976825597 (2 ^ 50), lit 7286977268806827 (2 ^ 53));
   (lit 3360262932213509 (2 ^ 49), lit 8566355544790271 (2 ^ 53));
   (lit 884279719003555 (2 ^ 47), lit 1 (2 ^ 0));
   (lit 7781661527231285 (2 ^ 50), lit 1821744317201705 (2 ^ 51));
   (lit 8489085302434129 (2 ^ 50), lit 5566755282872645 (2 ^ 54));
   (lit 2299127269409243 (2 ^ 48), lit (-2783377641436325) (2 ^ 53));
   (lit 4598254538818487 (2 ^ 49), lit (-695844410359085) (2 ^ 51));
   (lit 1237991606604977 (2 ^ 47), lit (-3643488634403411) (2 ^ 52));
   (lit 2652839157010665 (2 ^ 48), lit (-1) (2 ^ 0));
   (lit 5305678314021331 (2 ^ 49), lit (-1) (2 ^ 0));
   (lit 176855943800711 (2 ^ 44), lit (-3643488634403413) (2 ^ 52));
   (lit 6013102089224175 (2 ^ 49), lit (-695844410359079) (2 ^ 51));
   (lit 1591703494206399 (2 ^ 47), lit 695844410359081 (2 ^ 51));
   (lit 6366813976825597 (2 ^ 49), lit 2783377641436339 (2 ^ 53));
   (lit 3360262932213509 (2 ^ 48), lit 7286977268806821 (2 ^ 53));
   (lit 884279719003555 (2 ^ 46), lit 1 (2 ^ 0));
   (lit 3713974819814931 (2 ^ 48), lit 3643488634403413 (2 ^ 52))].
Definition sin_table : list (spec_float * spec_float) :=
  [((nofZ 0), (nofZ 0));
   (lit 176855943800711 (2 ^ 49), lit 5566755282872655 (2 ^ 54));
   (lit 176855943800711 (2 ^ 48), lit 2647149443198255 (2 ^ 52));
   (lit 530567831402133 (2 ^ 49), lit 910872158600853 (2 ^ 50));
   (lit 176855943800711 (2 ^ 47), lit 8566355544790271 (2 ^ 53));
   (lit 884279719003555 (2 ^ 49), lit 1 (2 ^ 0));
   (lit 530567831402133 (2 ^ 48), lit 33462326346837 (2 ^ 45));
   (lit 1237991606604977 (2 ^ 49), lit 910872158600853 (2 ^ 50));
   (lit 176855943800711 (2 ^ 46), lit 5294298886396511 (2 ^ 53));
   (lit 1591703494206399 (2 ^ 49), lit 5566755282872657 (2 ^ 54));
   (lit 884279719003555 (2 ^ 48), lit 4967757600021511 (2 ^ 105));
   (lit 7781661527231283 (2 ^ 51), lit (-2783377641436323) (2 ^ 53));
   (lit 530567831402133 (2 ^ 47), lit (-5294298886396509) (2 ^ 53));
   (lit 2299127269409243 (2 ^ 49), lit (-7286977268806823) (2 ^ 53));
   (lit 1237991606604977 (2 ^ 48), lit (-8566355544790271) (2 ^ 53));
   (lit 2652839157010665 (2 ^ 49), lit (-1) (2 ^ 0));
   (lit 176855943800711 (2 ^ 45), lit (-33462326346837) (2 ^ 45));
   (lit 3006551044612087 (2 ^ 49), lit (-7286977268806825) (2 ^ 53));
   (lit 1591703494206399 (2 ^ 48), lit (-165446840199891) (2 ^ 48));
   (lit 3360262932213509 (2 ^ 49), lit (-5566755282872659) (2 ^ 54));
   (lit 884279719003555 (2 ^ 47), lit (-4967757600021511) (2 ^ 104))].

(** cos(1.99 * M_PI * i / (n - 1)) for n = 2. *)
Definition cos2 (i n : Z) : spec_float := if (i =? 0) then int 1 else lit 9995065603657316 10000000000000000.

Fixpoint look (t : list (spec_float * spec_float)) (x : spec_float) : spec_float :=
  match t with
  | [] => S754_nan
  | (a, v) :: t' => if SFeqb a x then v else look t' x
  end.
#[local] Instance TrigTable : Trig spec_float := {|
  mpi := lit 884279719003555 (2 ^ 48);
  mcos := look cos_table;
  msin := look sin_table;
  mtan := fun _ => S754_nan; masin := fun _ => S754_nan; macos := fun _ => S754_nan;
  matan := fun _ => S754_nan; matan2 := fun _ _ => S754_nan |}.

Definition square : quad spec_float := mkQuad (int 0, int 0) (int 1, int 0) (int 1, int 1) (int 0, int 1).

(** tests/testTriangulate.cxx *)
Definition area (ps : list (pt spec_float)) : spec_float := tr_hullArea (tr_new isort mem0 (length ps) ps).
Definition xy (a b : spec_float) : pt spec_float := (a, b).
Example test_triangulate :
  map (fun pv => near (area (fst pv)) (snd pv) (dec 1 10))
    [([(int 0, int 0)], int 0);
     ([(int 0, int 0); (int 1, int 0)], int 0);
     ([(int 0, int 0); (int 1, int 0); (int 1, int 1)], dec 5 1);
     ([(int 0, int 0); (int 1, int 0); (int 1, int 1); (int 0, int 1)], int 1);
     ([(int 0, int 0); (int 1, int 0); (int 1, int 1); (int 0, int 1); (dec 5 1, int 1); (dec 5 1, int 0)], int 1);
     ([(int 0, int 0); (int 1, int 0); (int 1, int 1); (int 0, int 1); (int 0, int 0); (dec 1 1, int 0); (dec 2 1, int 0)], int 1);
     ([(dec 612 19, int 1); (int 0, dec 5 1); (int 0, int 1); (dec 5 1, dec 49999999999 11)], dec 125 3)]
  = repeat true 7.
Proof. vm_compute. reflexivity. Qed.

(** tests/testQuadIntersect.cxx and tests/testQuadOverlap.cxx: number of points and area. *)
Definition overlap (a b : quad spec_float) : exec (list (pt spec_float) * qi spec_float) :=
  qi_collect cramer (qi_setQuadPoints qi_new a b).
Definition inner : quad spec_float :=
  mkQuad (dec 3 1, dec 2 1) (dec 8 1, dec 2 1) (dec 7 1, dec 6 1) (dec 2 1, dec 5 1).
Definition partly : quad spec_float :=
  mkQuad (dec 11 1, dec 4 1) (dec 20 1, dec 4 1) (dec 13 1, dec 11 1) (dec 6 1, dec 11 1).
Definition apart : quad spec_float :=
  mkQuad (dec 1001 3, int 0) (int 2, int 0) (int 2, int 1) (dec 1001 3, int 1).
Definition points_area (n : option nat) (v tol : spec_float) (r : list (pt spec_float) * qi spec_float) : bool :=
  match n with None => true | Some n => (length (fst r) =? n)%nat end && near (area (fst r)) v tol.
Example test_quad_overlap :
  [run (overlap square apart) (points_area (Some 0%nat) (int 0) (dec 1 10));
   run (overlap square inner) (points_area (Some 4%nat) (dec 18 2) (dec 1 10));
   run (overlap inner square) (points_area (Some 4%nat) (dec 18 2) (dec 1 10));
   run (overlap partly square) (points_area (Some 3%nat) (dec 755716 7) (dec 1 6));
   run (overlap square square) (points_area None (int 1) (dec 1 10))] = repeat true 5.
Proof. vm_compute. reflexivity. Qed.

(** tests/testQuadLineIntersect.cxx: number of points. *)
Definition crossings (q : quad spec_float) (a b : pt spec_float) : exec (list (pt spec_float) * ql spec_float) :=
  ql_collect insertion cramer (ql_setLinePoints (ql_setQuadPoints ql_new q) (a, b)).
Definition count (f : nat -> bool) (r : list (pt spec_float) * ql spec_float) : bool := f (length (fst r)).
Example test_quad_line :
  [run (crossings square (dec 1001 3, int 0) (int 2, int 0)) (count (Nat.eqb 0));
   run (crossings square (dec 3 1, dec 2 1) (dec 8 1, dec 2 1)) (count (Nat.eqb 2));
   run (crossings square (dec (-2) 1, dec 1 1) (dec 8 1, dec 5 1)) (count (Nat.eqb 2));
   run (crossings square (dec (-2) 1, dec 1 1) (dec 8 1, dec 11 1)) (count (Nat.eqb 2));
   run (crossings square (dec (-2) 1, int 0) (dec (-2) 1, dec 11 1)) (count (Nat.eqb 0));
   run (crossings square (int 0, int 0) (int 0, int 1)) (count (Nat.leb 2));
   run (crossings square (int 0, dec 4 1) (int 0, dec 6 1)) (count (Nat.eqb 2));
   run (crossings (mkQuad (int 0, int 0) (dec 5 1, int 0) (dec 5 1, dec 5 1) (int 0, dec 5 1)) (int 0, int 0) (int 1, int 1))
     (count (Nat.leb 2))] = repeat true 8.
Proof. vm_compute. reflexivity. Qed.

(** tests/testQuadLineFlows.cxx: a line on each edge. *)
Definition project (a b : pt spec_float) : exec (Z * list spec_float) :=
  let! s := qf_setQuadPoints qf_new square in
  let! r := qf_computeProjections cramer (qf_setLinePoints s (a, b)) in
  let! w := mapM (qf_getProjection (snd r)) (range 4) in
  Ret (fst r, w).
Definition are (v : list Z) (r : Z * list spec_float) : bool :=
  (fst r =? 0) && (length (snd r) =? length v)%nat &&
  forallb (fun xz => near (fst xz) (int (snd xz)) (dec 1 10)) (combine (snd r) v).
Example test_quad_line_flows :
  [run (project (int 0, int 0) (int 1, int 0)) (are [1; 0; 0; 0]);
   run (project (int 0, int 1) (int 1, int 1)) (are [0; 1; 0; 0]);
   run (project (int 0, int 0) (int 0, int 1)) (are [0; 0; 1; 0]);
   run (project (int 1, int 0) (int 1, int 1)) (are [0; 0; 0; 1])] = repeat true 4.
Proof. vm_compute. reflexivity. Qed.

(** Grids of the tests; the arrays of the caller are full of zeros. *)
Definition blank (n : Z) : list spec_float := repeat (int 0) (Z.to_nat n).
Definition rectangle (d0 d1 : Z) (a b : spec_float * spec_float) : exec (list spec_float * list spec_float) :=
  createRectangularGrid d0 d1 a b (blank (d0 * d1), blank (d0 * d1)).
Definition disk (d0 d1 : Z) : exec (list spec_float * list spec_float) :=
  createPolarGrid d0 d1 (int 0, int 0) (int 1) (blank (d0 * d1), blank (d0 * d1)).

(** tests/testFlowInterp2D.cxx, testSimple2x2: the values of the edges are their numbers, those of the
    second direction follow those of the first.  The errors are printed only; here they are below the
    distances of the segments from the edges. *)
Definition simple2x2 (a b : pt spec_float) : exec (list spec_float) :=
  let! c := rectangle 3 3 (int 0, int 0) (int 1, int 1) in
  let! s1 := fl_setSrcGrid fl_new 3 3 [fst c; snd c] in
  let! s2 := fl_setDstGrid cos2 s1 2 [[fst a; fst b]; [snd a; snd b]] in
  let! s3 := fl_computeWeights insertion cramer s2 in
  fl_apply s3 (map int (zseq 6)) (map (fun k => int (6 + k)) (zseq 6)) [int 0].
Definition flux_is (v tol : spec_float) (out : list spec_float) : bool :=
  match out with [x] => near x v tol | _ => false end.
Example test_flow_2x2 :
  [run (simple2x2 (dec 1 7, dec 1 8) (dec 9999999 7, dec 1 8)) (flux_is (int 3) (dec 1 5));
   run (simple2x2 (dec 1 7, dec 1 8) (dec 1 7, dec 99999999 8)) (flux_is (int 13) (dec 1 5));
   run (simple2x2 (dec 1 7, dec 1 8) (dec 2499999 7, dec 49999999 8))
     (flux_is (dec 675 2) (dec 1 5))] = repeat true 3.
Proof. vm_compute. reflexivity. Qed.

(** tests/streamFunctionInterp.cxx with the arguments of tests/CMakeLists.txt:143-148: stream
    function y^2 + cos(2 pi x) / (4 pi), a segment on the edges of the cells. *)
Definition psi (x y : spec_float) : spec_float :=
  nadd (nmul y y) (ndiv (mcos (nmul (nmul (int 2) mpi) x)) (nmul (int 4) mpi)).
Definition stream (d0 d1 : Z) (pa pb : pt spec_float) : exec (list spec_float) :=
  let lo := (int 0, dec (-5) 1) in
  let hi := (int 2, dec 5 1) in
  let! c := rectangle d0 d1 lo hi in
  let hx := ndiv (nsub (fst hi) (fst lo)) (int (d0 - 1)) in
  let hy := ndiv (nsub (snd hi) (snd lo)) (int (d1 - 1)) in
  let! e0 := box_new [0; 0] [d0 - 1; d1] in
  let! e1 := box_new [0; 0] [d0; d1 - 1] in
  let! w0 := mapM (fun k => let! e := box_getElement e0 k in let! i := vget e 0 in let! j := vget e 1 in
      let xl := nadd (fst lo) (nmul (int i) hx) in
      let y := nadd (snd lo) (nmul (int j) hy) in
      Ret (nsub (psi (nadd xl hx) y) (psi xl y))) (range (box_getNumberOfElements e0)) in
  let! w1 := mapM (fun k => let! e := box_getElement e1 k in let! i := vget e 0 in let! j := vget e 1 in
      let x := nadd (snd lo) (nmul (int i) hx) in
      let yl := nadd (snd lo) (nmul (int j) hy) in
      Ret (nsub (psi x (nadd yl hy)) (psi x yl))) (range (box_getNumberOfElements e1)) in
  let! s1 := fl_setSrcGrid fl_new d0 d1 [fst c; snd c] in
  let line (a b : spec_float) := map (fun i => nadd a (nmul (int i) (ndiv (nsub b a) (int 1)))) [0; 1] in
  let! s2 := fl_setDstGrid cos2 s1 2 [line (fst pa) (fst pb); line (snd pa) (snd pb)] in
  let! s3 := fl_computeWeights insertion cramer s2 in
  fl_apply s3 w0 w1 [int 0].

Example test_stream :
  [run (stream 21 11 (dec 11 1, int 0) (int 1, int 0)) (flux_is (dec 151979 7) (dec 1 5));
   run (stream 21 11 (int 1, int 0) (dec 11 1, int 0)) (flux_is (dec (-151979) 7) (dec 1 5))] = repeat true 2.
Proof. vm_compute. reflexivity. Qed.

(** tests/testConserveInterp2D.cxx.  The tests add the weights with get and next; the constructor
    and next on the last weight read past the end of a map (C41), so here the object starts without
    weights and the weights stored are added. *)
Definition conserve (src dst : exec (list spec_float * list spec_float)) (s0 s1 d0 d1 : Z) : exec spec_float :=
  let! a := src in
  let! b := dst in
  let! c1 := ci_setSrcGrid ci_blank s0 s1 [fst a; snd a] in
  let! c2 := ci_setDstGrid c1 d0 d1 [fst b; snd b] in
  let! c3 := ci_computeWeights isort (fun _ => mem0) (fun _ _ => mem0) cramer c2 in
  Ret (fold_left nadd (flat_map (fun r => map snd (snd r)) (ci_weights c3)) (int 0)).
Definition unit_grid (d0 d1 : Z) := rectangle d0 d1 (int 0, int 0) (int 1, int 1).
Example test_conserve :
  [run (conserve (unit_grid 2 2) (unit_grid 2 2) 2 2 2 2) (fun w => near w (int 1) (dec 1 10));
   run (conserve (rectangle 2 2 (dec 25 2, dec 25 2) (dec 75 2, dec 75 2)) (unit_grid 2 2) 2 2 2 2) (fun w => near w (dec 25 2) (dec 1 10));
   run (conserve (unit_grid 2 3) (disk 2 5) 2 3 2 5) (fun w => near w (int 1) (dec 1 10))] = repeat true 3.
Proof. vm_compute. reflexivity. Qed.

(** tests/testNodeInterp2D.cxx, testSimple. *)
Definition linear_field (x y : spec_float) : spec_float :=
  nadd (nadd (nadd (dec 12 1) (nmul (dec 23 1) x)) (nmul (dec 34 1) y)) (nmul (nmul (dec 56 1) x) y).
Definition node_simple : exec (list spec_float) :=
  let! c := unit_grid 2 2 in
  let! s1 := ni_setSrcGrid (ni_new 100 (dec 1 8)) 2 2 0 0 (fst c) (snd c) in
  let! s2 := ni_setDstGrid s1 2 2 (fst c) (snd c) in
  let! s3 := ni_computeWeights cramer s2 in
  let data := map (fun p => linear_field (fst p) (snd p)) (combine (fst c) (snd c)) in
  let! out := ni_apply s3 data (blank 4) in
  Ret (map (fun p => nabs (nsub (fst p) (snd p))) (combine out data)).
Example test_node_interp :
  run node_simple (fun e => (length e =? 4)%nat && nle (fold_left nadd e (int 0)) (dec 1 12)) = true.
Proof. vm_compute. reflexivity. Qed.

(** tests/testOctreePoints.cxx *)
Definition oct_points (n : Z) : list spec_float :=
  flat_map (fun j => flat_map (fun i => [ndiv (nmul (int i) (int 1)) (int (n - 1)); ndiv (nmul (int j) (int 1)) (int (n - 1))]) (range n)) (range n).
Definition has_key (o : octree (T:=spec_float)) (p : list spec_float) (key : list Z) : bool :=
  run (oc_getKey o p (length key)) (fun k => key_eqb k key).
Example test_octree_simple :
  run (oc_new 1 2 (oct_points 2)) (fun o => forallb (fun pk => has_key o (fst pk) (snd pk))
    [([int 0; int 0], [0]); ([dec 1 1; dec 2 1], [0]); ([dec 51 2; dec 2 1], [2]); ([dec 51 2; dec 53 2], [3]);
     ([dec 49 2; dec 53 2], [1]); ([dec 99 2; dec 1 2], [2]); ([dec 99 2; int 0], [2]); ([int 1; int 0], [2]);
     ([int 1; int 1], [3]); ([int 0; int 1], [1]); ([int 0; int 0], [0; 0]); ([int 0; dec 11 1], [1; 1]);
     ([dec (-1) 1; dec (-5) 2], [0; 0]); ([dec (-1) 1; dec 26 2], [0; 1])]) = true.
Proof. vm_compute. reflexivity. Qed.
Definition has_box (o : octree (T:=spec_float)) (key : list Z) (lo hi : list spec_float) : bool :=
  forallb (fun xy => near (fst xy) (snd xy) (dec 1 10)) (combine (oc_getLo o key ++ oc_getHi o key) (lo ++ hi)) &&
  (length (oc_getLo o key ++ oc_getHi o key) =? 4)%nat.
Example test_octree_cart :
  run (oc_new 2 2 (oct_points 11)) (fun o =>
    has_box o [0; 0] [int 0; int 0] [dec 25 2; dec 25 2] &&
    has_box o [1; 2] [dec 25 2; dec 5 1] [dec 5 1; dec 75 2] &&
    has_box o [3; 1] [dec 5 1; dec 75 2] [dec 75 2; int 1] &&
    has_box o [2] [dec 5 1; int 0] [int 1; dec 5 1] &&
    forallb (fun pk => has_key o (fst pk) (snd pk))
      [([int 0; int 0], [0]); ([dec 6 1; int 0], [2]); ([dec 6 1; dec 7 1], [3]); ([dec 4 1; dec 7 1], [1]);
       ([dec 4 1; dec 7 1], [1; 2]); ([dec 4 1; dec 7 1], [1; 2; 3]); ([dec 99 2; dec 1 2], [2; 2; 2])]) = true.
Proof. vm_compute. reflexivity. Qed.

(** tests/testFindOverlappingCells2D.cxx, testRect. *)
Definition overlap_rect : exec Z :=
  let! c := rectangle 2 3 (int (-1), int (-1)) (int 1, int 1) in
  let! s1 := fo_setSrcGrid fo_new 2 3 [0; 0] [fst c; snd c] in
  let! s2 := fo_setPolygonPoints s1 4 (map int [-1; -1; -1; 1; 1; 1; 1; -1]) in
  let! s3 := fo_findSrcCellIndices cramer s2 in
  let! cells := fo_getSrcCellIndices s3 in
  Ret (fo_getNumberOfSrcCellIndices s3).
Example test_find_overlap : overlap_rect = Ret 2.
Proof. vm_compute. reflexivity. Qed.

(** tests/testFindPointInCell1D.cxx (only return codes are asserted there): one step reaches the point. *)
Definition line_grid : list spec_float := map (fun i => ndiv (nmul (int 1) (int i)) (int 10)) (range 11).
Definition point_1d (guess : spec_float) : exec (Z * list spec_float) :=
  let! s := fp_setGrid (fp_new 1 (dec 1 10)) [11] [0] [line_grid] in
  let! s1 := fp_reset s [guess] [dec 3 1] in
  let! r := fp_search cramer s1 in
  let! p := fp_getPosition (snd r) in
  Ret (fst r, p).
Example test_point_1d :
  [run (point_1d (dec 38 1)) (fun r => match snd r with [x] => near x (dec 3 1) (dec 1 10) | _ => false end);
   run (point_1d (int 0)) (fun r => match snd r with [x] => near x (dec 3 1) (dec 1 10) | _ => false end)] = [true; true].
Proof. vm_compute. reflexivity. Qed.

(** tests/testFindPointInCellPolarXY.cxx: the search in a polar grid periodic in the second index ends
    with a non-negative code. *)
Definition polar_xy : exec (Z * list spec_float) :=
  let x f := flat_map (fun i => map (fun j => nmul (nadd (int 0) (ndiv (nmul (nsub (int 1) (int 0)) (int i)) (int 10)))
      (f (nadd (int 0) (ndiv (nmul (nsub (nmul (int 2) mpi) (int 0)) (int j)) (int 20))))) (range 21)) (range 11) in
  let! s := fp_setGrid (fp_new 10 (dec 1 10)) [11; 21] [0; 1] [x mcos; x msin] in
  let! s1 := fp_reset s [dec 1 1; dec 2 1] [dec 7 1; dec 3 1] in
  let! r := fp_search cramer s1 in
  let! p := fp_getPosition (snd r) in
  Ret (fst r, p).
Example test_polar_xy :
  run polar_xy (fun r => (0 <=? fst r) && match snd r with [x; y] => near x (dec 7 1) (dec 1 10) && near y (dec 3 1) (dec 1 10) | _ => false end) = true.
Proof. vm_compute. reflexivity. Qed.

(** tests/testLinearSolve.cxx and tests/testLinearSolve.py.in: the solution of 1 2 / 3 4, 1 2 is 0 1/2. *)
Example test_linear_solve :
  run (ls_run cramer (ls_new 2 2) (map int [1; 2; 3; 4]) (map int [1; 2])) (fun r =>
    (fst r =? 0) &&
    match ls_getSolution (snd r) with [x; y] => near x (int 0) (dec 1 12) && near y (dec 5 1) (dec 1 12) | _ => false end &&
    run (ls_getResidual (snd r)) (fun e => nle e (dec 1 12))) = true.
Proof. vm_compute. reflexivity. Qed.

(** tests/testLine.py.in, tests/testTriangle.py.in, tests/testTetrahedron.py.in *)
Example test_simplex :
  let p0 := map int [0; 0; 0] in let p1 := map int [1; 0; 0] in let p2 := map int [0; 1; 0] in let p3 := map int [0; 0; 1] in
  run (line_new p0 p1) (fun s => sx_getNumberOfPoints s =? 2) &&
  run (triangle_new p0 p1 p2) (fun s => (sx_getNumberOfPoints s =? 3) && (sx_getNumberOfEdges s =? 3)) &&
  run (tetrahedron_new p0 p1 p2 p3) (fun s =>
    (sx_getNumberOfPoints s =? 4) && (sx_getNumberOfEdges s =? 6) && (sx_getNumberOfFaces s =? 4)) = true.
Proof. vm_compute. reflexivity. Qed.

(** tests/testBoxIterator.py.in: getIndex undoes getElement. *)
Example test_box_iterator :
  run (let! b := box_new [1; 2; 3] [2; 4; 7] in
       mapM (fun i => let! e := box_getElement b i in let! k := box_getIndex b e in Ret (k =? i)) (range (box_getNumberOfElements b)))
    (fun l => (length l =? 8)%nat && forallb (fun b => b) l) = true.
Proof. vm_compute. reflexivity. Qed.
