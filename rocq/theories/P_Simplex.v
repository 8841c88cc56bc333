(** Property theorems C57: points, edges and faces of lines, triangles and tetrahedra. *)
From Coq Require Import ZArith List Bool Lia Reals Lra.
From Verif Require Import Base M_Simplex.
Import ListNotations.
Open Scope Z_scope.

(** ** Specification *)
(** The sides of a face followed in its order of points. *)
Definition sides_of (f : list Z) : list (Z * Z) :=
  match f with [a; b; c] => [(a, b); (b, c); (c, a)] | [a; b] => [(a, b)] | _ => [] end.
Definition pair_eqb (p q : Z * Z) : bool := (fst p =? fst q) && (snd p =? snd q).
Definition times (p : Z * Z) (l : list (Z * Z)) : nat := length (filter (pair_eqb p) l).

(** Oriented faces form a closed boundary: the sides cancel in opposite pairs. *)
Definition closed_boundary (faces : list (list Z)) : Prop :=
  forall a b, times (a, b) (flat_map sides_of faces) = times (b, a) (flat_map sides_of faces).
(** The ends of oriented edges cancel. *)
Definition closed_loop (edges : list (list Z)) : Prop :=
  forall v, length (filter (fun e => Z.eqb v (nth 0 e (-1))) edges) = length (filter (fun e => Z.eqb v (nth 1 e (-1))) edges).
(** Every pair of points is an edge once, in one direction. *)
Definition all_pairs (n : Z) (edges : list (list Z)) : Prop :=
  forall a b, 0 <= a < n -> 0 <= b < n -> a <> b ->
    (times (a, b) (flat_map sides_of edges) + times (b, a) (flat_map sides_of edges) = 1)%nat.

(** Reads with the indices 0, ..., n - 1 succeed, others do not. *)
Definition reads {A} (n : Z) (get : Z -> exec A) (spec : Z -> A) : Prop :=
  (forall i, 0 <= i < n -> get i = Ret (spec i)) /\ (forall i, ~ 0 <= i < n -> get i = Undef OutOfBounds).

Definition p3 {T} (p : T * T * T) : list T := [fst (fst p); snd (fst p); snd p].

(** Six times the signed volume of the tetrahedron a b c d. *)
Definition vol6 (a b c d : list R) : R :=
  let x i p q := (nth i q 0 - nth i p 0)%R in
  (x 0%nat a b * (x 1%nat a c * x 2%nat a d - x 2%nat a c * x 1%nat a d)
   - x 1%nat a b * (x 0%nat a c * x 2%nat a d - x 2%nat a c * x 0%nat a d)
   + x 2%nat a b * (x 0%nat a c * x 1%nat a d - x 1%nat a c * x 0%nat a d))%R.

(** ** Theorems *)
Lemma reads_list : forall {A} (l : list A) (d : A), reads (Z.of_nat (length l)) (vget l) (fun i => nth (Z.to_nat i) l d).
Proof. intros A l d. split; intros i H; [apply vget_nth; auto|apply vget_undef; auto]. Qed.

Lemma times_out : forall p l, (forall q, In q l -> q <> p) -> times p l = 0%nat.
Proof.
  intros p l. unfold times. induction l as [|q l IH]; intros H; [reflexivity|]. cbn [filter].
  destruct (pair_eqb p q) eqn:E; [|apply IH; intros; apply H; right; auto].
  exfalso. unfold pair_eqb in E. apply andb_true_iff in E. destruct E as [E1 E2]. apply Z.eqb_eq in E1. apply Z.eqb_eq in E2.
  apply (H q); [left; auto|]. destruct p, q. cbn in *. congruence.
Qed.

Lemma range_boundary : forall n faces, (forall p, In p (flat_map sides_of faces) -> 0 <= fst p < n /\ 0 <= snd p < n) ->
  (forall a b, 0 <= a < n -> 0 <= b < n -> times (a, b) (flat_map sides_of faces) = times (b, a) (flat_map sides_of faces)) -> closed_boundary faces.
Proof.
  intros n faces H1 H2 a b. assert (D : (0 <= a < n /\ 0 <= b < n) \/ ~ (0 <= a < n /\ 0 <= b < n)) by lia. destruct D as [[A B]|C]; [auto|].
  rewrite !times_out; auto; intros q I ->; apply H1 in I; cbn in I; lia.
Qed.

(** C57, triangles and lines: any points, any number type.  The points are given back, the edges
    form a loop over all points, reading outside the counts is undefined. *)
Theorem C57_triangle : forall (T : Type) (p0 p1 p2 : T * T * T), exists s, triangle_new (p3 p0) (p3 p1) (p3 p2) = Ret s /\
  sx_getNumberOfPoints s = 3 /\ sx_getNumberOfEdges s = 3 /\
  reads 3 (sx_getPoint s) (fun i => p3 (nth (Z.to_nat i) [p0; p1; p2] p0)) /\
  exists edges, reads 3 (sx_getEdge s) (fun i => nth (Z.to_nat i) edges []) /\ length edges = 3%nat /\ closed_loop edges /\ all_pairs 3 edges.
Proof.
  intros T p0 p1 p2. eexists. split; [reflexivity|]. split; [reflexivity|]. split; [reflexivity|]. split.
  - split; intros i H.
    + assert (i = 0 \/ i = 1 \/ i = 2) as [-> |[-> | ->]] by lia; reflexivity.
    + apply vget_undef. cbn. lia.
  - exists [[0; 1]; [1; 2]; [2; 0]]. split; [apply (reads_list [[0; 1]; [1; 2]; [2; 0]])|]. split; [reflexivity|]. split.
    + intros v. cbn. destruct (Z.eqb_spec v 0), (Z.eqb_spec v 1), (Z.eqb_spec v 2); reflexivity || lia.
    + intros a b Ha Hb H. assert (a = 0 \/ a = 1 \/ a = 2) as [-> |[-> | ->]] by lia; assert (b = 0 \/ b = 1 \/ b = 2) as [-> |[-> | ->]] by lia; try lia; reflexivity.
Qed.
Print Assumptions C57_triangle.

Theorem C57_line : forall (T : Type) (p0 p1 : T * T * T), exists s, line_new (p3 p0) (p3 p1) = Ret s /\
  sx_getNumberOfPoints s = 2 /\ reads 2 (sx_getPoint s) (fun i => p3 (nth (Z.to_nat i) [p0; p1] p0)).
Proof.
  intros T p0 p1. eexists. split; [reflexivity|]. split; [reflexivity|]. split; intros i H.
  - assert (i = 0 \/ i = 1) as [-> | ->] by lia; reflexivity.
  - apply vget_undef. cbn. lia.
Qed.
Print Assumptions C57_line.

(** C57 is false for tetrahedra: whatever the points, the faces do not form a closed boundary. *)
Theorem C57_tetrahedron_refuted : forall (T : Type) (p0 p1 p2 q : T * T * T) s, tetrahedron_new (p3 p0) (p3 p1) (p3 p2) (p3 q) = Ret s ->
  forall faces, reads 4 (sx_getFace s) (fun i => nth (Z.to_nat i) faces []) -> length faces = 4%nat -> ~ closed_boundary faces.
Proof.
  intros T p0 p1 p2 q s E faces [H _] L C. injection E as <-.
  assert (H0 := H 0 ltac:(lia)). assert (H1 := H 1 ltac:(lia)). assert (H2 := H 2 ltac:(lia)). assert (H3 := H 3 ltac:(lia)).
  destruct faces as [|f0 [|f1 [|f2 [|f3 [|]]]]]; try discriminate. cbn in H0, H1, H2, H3. injection H0 as <-. injection H1 as <-. injection H2 as <-. injection H3 as <-.
  specialize (C 1 2). discriminate.
Qed.
Print Assumptions C57_tetrahedron_refuted.

(** Differences of four numbers in terms of those from the first. *)
Ltac from_first a b c d :=
  replace (a - b)%R with (- (b - a))%R by ring; replace (a - c)%R with (- (c - a))%R by ring; replace (a - d)%R with (- (d - a))%R by ring;
  replace (c - b)%R with ((c - a) - (b - a))%R by ring; replace (d - b)%R with ((d - a) - (b - a))%R by ring; replace (d - c)%R with ((d - a) - (c - a))%R by ring;
  replace (b - c)%R with ((b - a) - (c - a))%R by ring; replace (b - d)%R with ((b - a) - (d - a))%R by ring; replace (c - d)%R with ((c - a) - (d - a))%R by ring;
  generalize (b - a)%R (c - a)%R (d - a)%R; intros.

(** The same seen in space: of a tetrahedron with volume, the point opposite to a face lies on the
    one side of the faces 0, 1 and 3 and on the other side of face 2. *)
Theorem C57_face_sides_refuted : forall p0 p1 p2 q : R * R * R, vol6 (p3 p0) (p3 p1) (p3 p2) (p3 q) <> 0%R ->
  exists s, tetrahedron_new (p3 p0) (p3 p1) (p3 p2) (p3 q) = Ret s /\
  forall i f, sx_getFace s i = Ret f -> exists a b c d, f = [a; b; c] /\ 0 <= d < 4 /\ ~ In d [a; b; c] /\
    exists A B C D, sx_getPoint s a = Ret A /\ sx_getPoint s b = Ret B /\ sx_getPoint s c = Ret C /\ sx_getPoint s d = Ret D /\
    vol6 A B C D = (if i =? 2 then - vol6 (p3 p0) (p3 p1) (p3 p2) (p3 q) else vol6 (p3 p0) (p3 p1) (p3 p2) (p3 q))%R.
Proof.
  intros [[x0 y0] z0] [[x1 y1] z1] [[x2 y2] z2] [[x3 y3] z3] _. eexists. split; [reflexivity|]. intros i f E.
  apply vget_inv in E. destruct E as [Hi E]. cbn in Hi. assert (i = 0 \/ i = 1 \/ i = 2 \/ i = 3) as [-> |[-> |[-> | ->]]] by lia; cbn in E; injection E as <-;
    do 3 eexists; [exists 3|exists 2|exists 0|exists 1]; (split; [reflexivity|]; split; [lia|]; split; [intros HI; cbn in HI; lia|];
    do 4 eexists; do 4 (split; [reflexivity|]); unfold vol6, p3; cbn [nth fst snd Z.eqb Pos.eqb]; from_first x0 x1 x2 x3; from_first y0 y1 y2 y3; from_first z0 z1 z2 z3; ring).
Qed.
Print Assumptions C57_face_sides_refuted.

(** What holds for tetrahedra: the points are given back, every pair of points is an edge, every edge
    belongs to two faces, and the faces form a closed boundary once face 2 is turned round. *)
Theorem C57_tetrahedron_partial : forall (T : Type) (p0 p1 p2 q : T * T * T), exists s, tetrahedron_new (p3 p0) (p3 p1) (p3 p2) (p3 q) = Ret s /\
  sx_getNumberOfPoints s = 4 /\ sx_getNumberOfEdges s = 6 /\ sx_getNumberOfFaces s = 4 /\
  reads 4 (sx_getPoint s) (fun i => p3 (nth (Z.to_nat i) [p0; p1; p2; q] p0)) /\
  (exists edges, reads 6 (sx_getEdge s) (fun i => nth (Z.to_nat i) edges []) /\ length edges = 6%nat /\ all_pairs 4 edges) /\
  exists faces, reads 4 (sx_getFace s) (fun i => nth (Z.to_nat i) faces []) /\ length faces = 4%nat /\
    (forall a b, 0 <= a < 4 -> 0 <= b < 4 -> a <> b -> (times (a, b) (flat_map sides_of faces) + times (b, a) (flat_map sides_of faces) = 2)%nat) /\
    closed_boundary (upd faces 2 (rev (nth 2 faces []))).
Proof.
  intros T p0 p1 p2 q. eexists. split; [reflexivity|]. do 3 (split; [reflexivity|]). split; [|split].
  - split; intros i H.
    + assert (i = 0 \/ i = 1 \/ i = 2 \/ i = 3) as [-> |[-> |[-> | ->]]] by lia; reflexivity.
    + apply vget_undef. cbn. lia.
  - exists [[0; 1]; [1; 2]; [2; 0]; [0; 3]; [1; 3]; [2; 3]]. split; [apply (reads_list [[0; 1]; [1; 2]; [2; 0]; [0; 3]; [1; 3]; [2; 3]])|]. split; [reflexivity|].
    intros a b Ha Hb H. assert (a = 0 \/ a = 1 \/ a = 2 \/ a = 3) as [-> |[-> |[-> | ->]]] by lia; assert (b = 0 \/ b = 1 \/ b = 2 \/ b = 3) as [-> |[-> |[-> | ->]]] by lia; try lia; reflexivity.
  - exists [[0; 1; 2]; [0; 3; 1]; [3; 1; 2]; [0; 2; 3]]. split; [apply (reads_list [[0; 1; 2]; [0; 3; 1]; [3; 1; 2]; [0; 2; 3]])|]. split; [reflexivity|]. split.
    + intros a b Ha Hb H. assert (a = 0 \/ a = 1 \/ a = 2 \/ a = 3) as [-> |[-> |[-> | ->]]] by lia; assert (b = 0 \/ b = 1 \/ b = 2 \/ b = 3) as [-> |[-> |[-> | ->]]] by lia; try lia; reflexivity.
    + apply range_boundary with (n := 4).
      * intros p I. cbn in I. repeat (destruct I as [<- |I]; [cbn; lia|]). contradiction.
      * intros a b Ha Hb. assert (a = 0 \/ a = 1 \/ a = 2 \/ a = 3) as [-> |[-> |[-> | ->]]] by lia; assert (b = 0 \/ b = 1 \/ b = 2 \/ b = 3) as [-> |[-> |[-> | ->]]] by lia; reflexivity.
Qed.
Print Assumptions C57_tetrahedron_partial.

(** A tetrahedron with volume. *)
Example C57_nonvacuous : vol6 (p3 (0, 0, 0)%R) (p3 (1, 0, 0)%R) (p3 (0, 1, 0)%R) (p3 (0, 0, 1)%R) <> 0%R.
Proof. replace (vol6 _ _ _ _) with 1%R; [lra|]. unfold vol6, p3. cbn [nth fst snd]. ring. Qed.
