(** C73: the files written by the Python scripts. *)
From Coq Require Import ZArith List Bool Ascii String Lia DecimalString.
From Verif Require Import Base M_PyUtils.
Import ListNotations.
Open Scope string_scope.
Open Scope list_scope.
Open Scope Z_scope.

(** ** Specification: the words of a text, as a reader of VTK files sees them *)
Definition blank (c : ascii) : bool := Ascii.eqb c " " || Ascii.eqb c (ascii_of_nat 10) || Ascii.eqb c (ascii_of_nat 9) || Ascii.eqb c (ascii_of_nat 13).
Fixpoint words_from (cur : chars) (s : chars) : list chars :=
  match s with
  | [] => match cur with [] => [] | _ => [cur] end
  | c :: s' => if blank c then match cur with [] => words_from [] s' | _ => cur :: words_from [] s' end
               else words_from (cur ++ [c]) s'
  end.
Definition words (s : chars) : list chars := words_from [] s.
(** A number is printed as one word. *)
Definition one_word (w : chars) : Prop := w <> [] /\ List.Forall (fun c => blank c = false) w.
Definition tok (l : list string) : list chars := map list_ascii_of_string l.

Section Spec.
Context {T : Type} (fmt : T -> chars).
(** From word b on: the two components and a zero, for the elements of an n0 x n1 array in the order of a structured grid with
    the second index fastest. *)
Definition vectors_at (ws : list chars) (b k0 k1 : Z) (vx vy : Z -> Z -> T) : Prop :=
  forall i j, 0 <= i < k0 -> 0 <= j < k1 -> let p := Z.to_nat (b + 3 * (i * k1 + j)) in
    nth_error ws p = Some (fmt (vx i j)) /\ nth_error ws (S p) = Some (fmt (vy i j)) /\ nth_error ws (S (S p)) = Some (txt "0.0").
Definition values_at (ws : list chars) (b n : Z) (f : Z -> chars) : Prop :=
  forall i, 0 <= i < n -> nth_error ws (Z.to_nat (b + i)) = Some (f i).
(** Words l from word b on. *)
Definition words_at (ws : list chars) (b : Z) (l : list chars) : Prop := forall k w, nth_error l k = Some w -> nth_error ws (Z.to_nat b + k) = Some w.
End Spec.

(** ** Words of concatenations *)
Lemma words_from_blank : forall s cur c r, blank c = true -> words_from cur (s ++ c :: r) = words_from cur s ++ words r.
Proof.
  induction s as [|d s IH]; intros cur c r B; cbn [app words_from].
  - rewrite B. destruct cur; reflexivity.
  - destruct (blank d); [|now apply IH]. destruct cur; [now apply IH|]. cbn [app]. now rewrite (IH [] c r B).
Qed.
Lemma words_blank : forall s c r, blank c = true -> words (s ++ c :: r) = words s ++ words r.
Proof. intros. now apply words_from_blank. Qed.
Lemma words_from_word : forall w cur, List.Forall (fun c => blank c = false) w -> words_from cur w = match cur ++ w with [] => [] | l => [l] end.
Proof.
  induction w as [|c w IH]; intros cur F; cbn [words_from].
  - rewrite app_nil_r. now destruct cur.
  - inversion F as [|? ? B F']; subst. rewrite B, IH by assumption. now rewrite <- app_assoc.
Qed.
Lemma words_word : forall w, one_word w -> words w = [w].
Proof. intros w [N F]. unfold words. rewrite words_from_word by assumption. cbn [app]. now destruct w. Qed.

Section Words.
Context {T : Type} (fmt : T -> chars) (fmtZ : Z -> chars).
Hypothesis F1 : forall v, one_word (fmt v).
Hypothesis FZ : forall z, one_word (fmtZ z).

Lemma words_line : forall s r, words (line s ++ r) = words (txt s) ++ words r.
Proof. intros. unfold line, newline. rewrite <- app_assoc. now apply words_blank. Qed.
Lemma words_sp : forall s r, words (s ++ txt " " ++ r) = words s ++ words r.
Proof. intros. now apply (words_blank s " " r). Qed.
Lemma words_nl : forall s r, words (s ++ newline ++ r) = words s ++ words r.
Proof. intros. now apply words_blank. Qed.

Lemma words_vec : forall a b r, words ((fmt a ++ txt " " ++ fmt b ++ txt " 0.0" ++ newline) ++ r) = [fmt a; fmt b; txt "0.0"] ++ words r.
Proof.
  intros a b r. rewrite <- !app_assoc. rewrite words_sp, (words_word (fmt a)) by auto.
  change (txt " 0.0" ++ newline ++ r) with (txt " " ++ txt "0.0" ++ newline ++ r). rewrite words_sp, (words_word (fmt b)) by auto.
  rewrite words_nl. reflexivity.
Qed.
Lemma words_vectors : forall l (vx vy : Z * Z -> T) r,
  words (flat_map (fun ij => fmt (vx ij) ++ txt " " ++ fmt (vy ij) ++ txt " 0.0" ++ newline) l ++ r)
  = flat_map (fun ij => [fmt (vx ij); fmt (vy ij); txt "0.0"]) l ++ words r.
Proof.
  induction l as [|ij l IH]; intros vx vy r; cbn [flat_map]; [reflexivity|].
  rewrite <- (app_assoc _ (flat_map _ l) r), words_vec, IH. reflexivity.
Qed.
Lemma words_scalars : forall {A} (l : list A) (f : A -> chars) c r, (forall a, one_word (f a)) -> blank c = true ->
  words (flat_map (fun a => f a ++ [c]) l ++ r) = map f l ++ words r.
Proof.
  intros A l f c r W B. induction l as [|a l IH]; cbn [flat_map map]; [reflexivity|].
  rewrite <- (app_assoc _ (flat_map _ l) r), <- app_assoc. cbn [app]. rewrite words_blank, IH, words_word by auto. reflexivity.
Qed.

Definition head (title : string) (m0 m1 : Z) : list chars :=
  tok ["#"; "vtk"; "DataFile"; "Version"; "2.0"; title; "ASCII"; "DATASET"; "STRUCTURED_GRID"; "DIMENSIONS"; "1"] ++
  [fmtZ m1; fmtZ m0; txt "POINTS"; fmtZ (m0 * m1); txt "float"].
Definition triples (k0 k1 : Z) (x y : Z -> Z -> T) : list chars :=
  flat_map (fun ij => [fmt (x (fst ij) (snd ij)); fmt (y (fst ij) (snd ij)); txt "0.0"]) (cells_of k0 k1).

Lemma words_structured : forall title m0 m1 x y r, words (txt title) = [txt title] ->
  words (structured fmt fmtZ title m0 m1 x y ++ r) = head title m0 m1 ++ triples m0 m1 x y ++ words r.
Proof.
  intros title m0 m1 x y r HT. unfold structured, line1, vectors. rewrite <- !app_assoc. rewrite !words_line, HT.
  change (txt "DIMENSIONS 1 " ++ ?z) with (txt "DIMENSIONS 1" ++ txt " " ++ z). rewrite words_sp.
  rewrite words_sp. rewrite (words_word (fmtZ m1)) by auto. rewrite words_nl, (words_word (fmtZ m0)) by auto.
  change (txt "POINTS " ++ ?z) with (txt "POINTS" ++ txt " " ++ z). rewrite words_sp.
  change (txt " float" ++ ?z) with (txt " " ++ txt "float" ++ z). rewrite words_sp, (words_word (fmtZ (m0 * m1))) by auto. rewrite words_nl.
  rewrite (words_vectors (cells_of m0 m1) (fun ij => x (fst ij) (snd ij)) (fun ij => y (fst ij) (snd ij))). reflexivity.
Qed.

Definition cell_head (m0 m1 : Z) : list chars := [txt "CELL_DATA"; fmtZ ((m0 - 1) * (m1 - 1))].
Lemma words_line1 : forall a n r, words (line1 fmtZ (a ++ " ") n "" ++ r) = words (txt a) ++ [fmtZ n] ++ words r.
Proof.
  intros a n r. unfold line1. replace (txt (a ++ " ")) with (txt a ++ txt " ").
  2:{ clear. unfold txt. induction a as [|c a IH]; [reflexivity|]. cbn [append list_ascii_of_string app]. now rewrite <- IH. }
  rewrite <- !app_assoc. rewrite words_sp. change (txt "" ++ ?z) with z. rewrite words_nl, (words_word (fmtZ n)) by auto. reflexivity.
Qed.

Definition velocity_head : list chars := tok ["SCALARS"; "velocity"; "float"; "3"; "LOOKUP_TABLE"; "default"].
Lemma flow_words : forall m0 m1 x y vx vy, words (flow_file fmt fmtZ m0 m1 x y vx vy) =
  head "flow" m0 m1 ++ triples m0 m1 x y ++ cell_head m0 m1 ++ velocity_head ++ triples (m0 - 1) (m1 - 1) vx vy.
Proof.
  intros. unfold flow_file. rewrite words_structured by reflexivity.
  change (line1 fmtZ "CELL_DATA " ?n "" ++ ?z) with (line1 fmtZ ("CELL_DATA" ++ " ") n "" ++ z). rewrite words_line1, !words_line.
  unfold vectors. rewrite <- (app_nil_r (flat_map _ (cells_of (m0 - 1) (m1 - 1)))).
  rewrite (words_vectors (cells_of (m0 - 1) (m1 - 1)) (fun ij => vx (fst ij) (snd ij)) (fun ij => vy (fst ij) (snd ij))).
  change (words []) with (@nil chars). rewrite app_nil_r. reflexivity.
Qed.

Lemma stream_words : forall m0 m1 x y psi vx vy, words (stream_file fmt fmtZ m0 m1 x y psi vx vy) =
  head "streamFunctionInterp" m0 m1 ++ triples m0 m1 x y ++ [txt "POINT_DATA"; fmtZ (m0 * m1)] ++
  tok ["SCALARS"; "psi"; "float"; "LOOKUP_TABLE"; "default"] ++ map (fun ij => fmt (psi (fst ij) (snd ij))) (cells_of m0 m1) ++
  cell_head m0 m1 ++ velocity_head ++ triples (m0 - 1) (m1 - 1) vx vy.
Proof.
  intros. unfold stream_file. rewrite words_structured by reflexivity.
  change (line1 fmtZ "POINT_DATA " ?n "" ++ ?z) with (line1 fmtZ ("POINT_DATA" ++ " ") n "" ++ z). rewrite words_line1, !words_line.
  unfold newline at 1. rewrite (words_scalars (cells_of m0 m1) (fun ij => fmt (psi (fst ij) (snd ij)))) by auto.
  change (line1 fmtZ "CELL_DATA " ?n "" ++ ?z) with (line1 fmtZ ("CELL_DATA" ++ " ") n "" ++ z). rewrite words_line1, !words_line.
  unfold vectors. rewrite <- (app_nil_r (flat_map _ (cells_of (m0 - 1) (m1 - 1)))).
  rewrite (words_vectors (cells_of (m0 - 1) (m1 - 1)) (fun ij => vx (fst ij) (snd ij)) (fun ij => vy (fst ij) (snd ij))).
  change (words []) with (@nil chars). rewrite app_nil_r. reflexivity.
Qed.

Lemma line_words : forall n x y data, words (line_file fmt fmtZ n x y data) =
  tok ["#"; "vtk"; "DataFile"; "Version"; "2.0"; "streamFunctionInterp"; "ASCII"; "DATASET"; "POLYDATA"; "POINTS"] ++ [fmtZ n; txt "float"] ++
  flat_map (fun i => [fmt (x i); fmt (y i); txt "0.0"]) (range n) ++ [txt "LINES"; txt "1"; fmtZ (n + 1); fmtZ n] ++ map fmtZ (range n) ++
  [txt "CELL_DATA"; fmtZ (n - 1)] ++ tok ["SCALARS"; "integrated_flux"; "float"; "LOOKUP_TABLE"; "default"] ++ map (fun i => fmt (data i)) (range (n - 1)).
Proof.
  intros. unfold line_file. rewrite !words_line. unfold line1 at 1. rewrite <- !app_assoc.
  change (txt "POINTS " ++ ?z) with (txt "POINTS" ++ txt " " ++ z). rewrite words_sp.
  change (txt " float" ++ ?z) with (txt " " ++ txt "float" ++ z). rewrite words_sp, (words_word (fmtZ n)) by auto. rewrite words_nl.
  assert (V : forall l r, words (flat_map (fun i => fmt (x i) ++ txt " " ++ fmt (y i) ++ txt " 0.0" ++ newline) l ++ r)
    = flat_map (fun i => [fmt (x i); fmt (y i); txt "0.0"]) l ++ words r).
  { induction l as [|i l IH]; intros r; cbn [flat_map]; [reflexivity|]. rewrite <- (app_assoc _ (flat_map _ l) r), words_vec, IH. reflexivity. }
  rewrite V. change (line1 fmtZ "LINES 1 " ?m "" ++ ?z) with (line1 fmtZ ("LINES 1" ++ " ") m "" ++ z). rewrite words_line1.
  rewrite words_sp, (words_word (fmtZ n)) by auto.
  change (flat_map (fun i => fmtZ i ++ txt " ")) with (flat_map (fun i => fmtZ i ++ [" "%char])). rewrite words_scalars by auto.
  change (newline ++ ?z) with ([] ++ newline ++ z) at 1. rewrite words_nl. change (words []) with (@nil chars). rewrite app_nil_l.
  change (line1 fmtZ "CELL_DATA " ?m "" ++ ?z) with (line1 fmtZ ("CELL_DATA" ++ " ") m "" ++ z). rewrite words_line1, !words_line.
  change (flat_map (fun i => fmt (data i) ++ txt " ")) with (flat_map (fun i => fmt (data i) ++ [" "%char])). rewrite words_scalars by auto.
  change (words newline) with (@nil chars). rewrite app_nil_r. reflexivity.
Qed.
End Words.

(** ** Positions *)
Lemma range_nth : forall n i, 0 <= i < n -> nth_error (range n) (Z.to_nat i) = Some i.
Proof.
  intros n i H. unfold range. assert (G : forall m k, (k < m)%nat -> nth_error (zseq m) k = Some (Z.of_nat k)).
  { intros m k L. unfold zseq. rewrite nth_error_map. rewrite (nth_error_nth' _ 0%nat) by (now rewrite seq_length). cbn [option_map]. now rewrite seq_nth. }
  rewrite G by lia. f_equal. lia.
Qed.
Lemma range_len : forall n, 0 <= n -> Z.of_nat (List.length (range n)) = n.
Proof. intros n H. unfold range, zseq. rewrite map_length, seq_length. lia. Qed.

Lemma flat_map_len : forall {A B} (f : A -> list B) k l, (forall a, List.length (f a) = k) -> List.length (flat_map f l) = (k * List.length l)%nat.
Proof. intros A B f k l H. induction l as [|a l IH]; cbn [flat_map List.length]; [lia|]. rewrite app_length, H, IH. lia. Qed.
Lemma flat_map_nth : forall {A B} (f : A -> list B) k l p q a, (forall a, List.length (f a) = k) -> nth_error l p = Some a -> (q < k)%nat ->
  nth_error (flat_map f l) (k * p + q) = nth_error (f a) q.
Proof.
  intros A B f k l. induction l as [|b l IH]; intros p q a H E L; [now destruct p|].
  cbn [flat_map]. destruct p as [|p].
  - cbn [nth_error] in E. injection E as ->. rewrite nth_error_app1 by (rewrite H; lia). f_equal. lia.
  - rewrite nth_error_app2 by (rewrite H; lia). rewrite H. replace (k * S p + q - k)%nat with (k * p + q)%nat by lia. now apply IH.
Qed.
Lemma cells_len : forall k0 k1, 0 <= k0 -> 0 <= k1 -> Z.of_nat (List.length (cells_of k0 k1)) = k0 * k1.
Proof.
  intros k0 k1 H0 H1. unfold cells_of. rewrite (flat_map_len _ (Z.to_nat k1)).
  - pose proof (range_len k0 H0). nia.
  - intros a. rewrite map_length. pose proof (range_len k1 H1). lia.
Qed.
Lemma cells_nth : forall k0 k1 i j, 0 <= i < k0 -> 0 <= j < k1 -> nth_error (cells_of k0 k1) (Z.to_nat (i * k1 + j)) = Some (i, j).
Proof.
  intros k0 k1 i j Hi Hj. unfold cells_of. replace (Z.to_nat (i * k1 + j)) with (Z.to_nat k1 * Z.to_nat i + Z.to_nat j)%nat by nia.
  rewrite (flat_map_nth _ (Z.to_nat k1) (range k0) (Z.to_nat i) (Z.to_nat j) i).
  - rewrite nth_error_map, range_nth by assumption. reflexivity.
  - intros a. rewrite map_length. pose proof (range_len k1 ltac:(lia)). lia.
  - now apply range_nth.
  - lia.
Qed.

Section Positions.
Context {T : Type} (fmt : T -> chars) (fmtZ : Z -> chars).
Hypothesis F1 : forall v, one_word (fmt v).
Hypothesis FZ : forall z, one_word (fmtZ z).

Lemma triples_len : forall k0 k1 x y, 0 <= k0 -> 0 <= k1 -> Z.of_nat (List.length (triples fmt k0 k1 x y)) = 3 * (k0 * k1).
Proof. intros k0 k1 x y H0 H1. unfold triples. rewrite (flat_map_len _ 3) by reflexivity. pose proof (cells_len k0 k1 H0 H1). lia. Qed.

Lemma words_at_app : forall a l r b, Z.of_nat (List.length a) = b -> words_at (a ++ l ++ r) b l.
Proof.
  intros a l r b H k w E. rewrite nth_error_app2 by lia. replace (Z.to_nat b + k - List.length a)%nat with k by lia.
  assert (k < List.length l)%nat by (apply nth_error_Some; congruence). now rewrite nth_error_app1.
Qed.
Lemma vectors_at_app : forall a r b k0 k1 x y, Z.of_nat (List.length a) = b -> 0 <= k0 -> 0 <= k1 ->
  vectors_at fmt (a ++ triples fmt k0 k1 x y ++ r) b k0 k1 x y.
Proof.
  intros a r b k0 k1 x y H H0 H1 i j Hi Hj p. pose proof (cells_nth k0 k1 i j Hi Hj) as C.
  pose proof (triples_len k0 k1 x y H0 H1) as L.
  assert (Q : 0 <= i * k1 + j < k0 * k1) by nia.
  assert (G : forall q, (q < 3)%nat -> nth_error (a ++ triples fmt k0 k1 x y ++ r) (Z.to_nat (b + 3 * (i * k1 + j)) + q)
    = nth_error [fmt (x i j); fmt (y i j); txt "0.0"] q).
  { intros q Hq. rewrite nth_error_app2 by lia. replace (Z.to_nat (b + 3 * (i * k1 + j)) + q - List.length a)%nat with (3 * Z.to_nat (i * k1 + j) + q)%nat by lia.
    rewrite nth_error_app1 by lia.
    unfold triples. now rewrite (flat_map_nth _ 3 (cells_of k0 k1) (Z.to_nat (i * k1 + j)) q (i, j)). }
  unfold p. split; [|split].
  - rewrite <- (Nat.add_0_r (Z.to_nat _)). now rewrite G by lia.
  - rewrite <- (Nat.add_1_r (Z.to_nat _)). now rewrite G by lia.
  - replace (S (S (Z.to_nat (b + 3 * (i * k1 + j))))) with (Z.to_nat (b + 3 * (i * k1 + j)) + 2)%nat by lia. now rewrite G by lia.
Qed.
Lemma values_at_app : forall a r b n (f : Z -> chars), Z.of_nat (List.length a) = b -> 0 <= n -> values_at (a ++ map f (range n) ++ r) b n f.
Proof.
  intros a r b n f H Hn i Hi. rewrite nth_error_app2 by lia. replace (Z.to_nat (b + i) - List.length a)%nat with (Z.to_nat i) by lia.
  rewrite nth_error_app1 by (rewrite map_length; pose proof (range_len n Hn); lia). rewrite nth_error_map, range_nth by assumption. reflexivity.
Qed.

(** The numbers are where a reader of the format looks for them, as many as announced, and nothing follows. *)
Theorem C73_flow_partial : forall m0 m1 x y vx vy, 1 <= m0 -> 1 <= m1 ->
  let ws := words (flow_file fmt fmtZ m0 m1 x y vx vy) in let n := m0 * m1 in let nc := (m0 - 1) * (m1 - 1) in
  words_at ws 0 (tok ["#"; "vtk"; "DataFile"; "Version"; "2.0"; "flow"; "ASCII"; "DATASET"; "STRUCTURED_GRID"; "DIMENSIONS"; "1"] ++
    [fmtZ m1; fmtZ m0; txt "POINTS"; fmtZ n; txt "float"]) /\
  vectors_at fmt ws 16 m0 m1 x y /\
  words_at ws (16 + 3 * n) ([txt "CELL_DATA"; fmtZ nc] ++ tok ["SCALARS"; "velocity"; "float"; "3"; "LOOKUP_TABLE"; "default"]) /\
  vectors_at fmt ws (24 + 3 * n) (m0 - 1) (m1 - 1) vx vy /\
  Z.of_nat (List.length ws) = 24 + 3 * n + 3 * nc.
Proof.
  intros m0 m1 x y vx vy H0 H1 ws n nc. unfold ws. rewrite (flow_words fmt fmtZ F1 FZ).
  pose proof (triples_len m0 m1 x y ltac:(lia) ltac:(lia)) as L1. pose proof (triples_len (m0 - 1) (m1 - 1) vx vy ltac:(lia) ltac:(lia)) as L2. fold n in L1. fold nc in L2.
  split; [|split; [|split; [|split]]].
  - apply (words_at_app [] (head fmtZ "flow" m0 m1)). reflexivity.
  - apply vectors_at_app; [reflexivity|lia|lia].
  - rewrite app_assoc. rewrite (app_assoc (cell_head fmtZ m0 m1)). apply words_at_app. rewrite app_length, Nat2Z.inj_add, L1. reflexivity.
  - rewrite <- (app_nil_r (triples fmt (m0 - 1) (m1 - 1) vx vy)). rewrite !app_assoc. rewrite <- (app_assoc _ (triples fmt (m0 - 1) (m1 - 1) vx vy) []).
    apply vectors_at_app; [|lia|lia]. rewrite !app_length, !Nat2Z.inj_add, L1. change (Z.of_nat (List.length (head fmtZ "flow" m0 m1))) with 16.
    change (Z.of_nat (List.length (cell_head fmtZ m0 m1))) with 2. change (Z.of_nat (List.length velocity_head)) with 6. lia.
  - rewrite !app_length, !Nat2Z.inj_add, L1, L2. change (Z.of_nat (List.length (head fmtZ "flow" m0 m1))) with 16.
    change (Z.of_nat (List.length (cell_head fmtZ m0 m1))) with 2. change (Z.of_nat (List.length velocity_head)) with 6. lia.
Qed.

Theorem C73_stream_partial : forall m0 m1 x y psi vx vy, 1 <= m0 -> 1 <= m1 ->
  let ws := words (stream_file fmt fmtZ m0 m1 x y psi vx vy) in let n := m0 * m1 in let nc := (m0 - 1) * (m1 - 1) in
  words_at ws 0 (tok ["#"; "vtk"; "DataFile"; "Version"; "2.0"; "streamFunctionInterp"; "ASCII"; "DATASET"; "STRUCTURED_GRID"; "DIMENSIONS"; "1"] ++
    [fmtZ m1; fmtZ m0; txt "POINTS"; fmtZ n; txt "float"]) /\
  vectors_at fmt ws 16 m0 m1 x y /\
  words_at ws (16 + 3 * n) ([txt "POINT_DATA"; fmtZ n] ++ tok ["SCALARS"; "psi"; "float"; "LOOKUP_TABLE"; "default"]) /\
  (forall i j, 0 <= i < m0 -> 0 <= j < m1 -> nth_error ws (Z.to_nat (23 + 3 * n + (i * m1 + j))) = Some (fmt (psi i j))) /\
  words_at ws (23 + 4 * n) ([txt "CELL_DATA"; fmtZ nc] ++ tok ["SCALARS"; "velocity"; "float"; "3"; "LOOKUP_TABLE"; "default"]) /\
  vectors_at fmt ws (31 + 4 * n) (m0 - 1) (m1 - 1) vx vy /\
  Z.of_nat (List.length ws) = 31 + 4 * n + 3 * nc.
Proof.
  intros m0 m1 x y psi vx vy H0 H1 ws n nc. unfold ws. rewrite (stream_words fmt fmtZ F1 FZ).
  pose proof (triples_len m0 m1 x y ltac:(lia) ltac:(lia)) as L1. pose proof (triples_len (m0 - 1) (m1 - 1) vx vy ltac:(lia) ltac:(lia)) as L2. fold n in L1. fold nc in L2.
  assert (LP : Z.of_nat (List.length (map (fun ij => fmt (psi (fst ij) (snd ij))) (cells_of m0 m1))) = n) by (rewrite map_length; apply cells_len; lia).
  set (P := map (fun ij => fmt (psi (fst ij) (snd ij))) (cells_of m0 m1)) in *.
  assert (LH : Z.of_nat (List.length (head fmtZ "streamFunctionInterp" m0 m1)) = 16) by reflexivity.
  assert (LC : Z.of_nat (List.length (cell_head fmtZ m0 m1)) = 2) by reflexivity. assert (LV : Z.of_nat (List.length velocity_head) = 6) by reflexivity.
  set (K := tok ["SCALARS"; "psi"; "float"; "LOOKUP_TABLE"; "default"]). assert (LK : Z.of_nat (List.length K) = 5) by reflexivity.
  assert (LD : Z.of_nat (List.length [txt "POINT_DATA"; fmtZ (m0 * m1)]) = 2) by reflexivity.
  set (D := [txt "POINT_DATA"; fmtZ (m0 * m1)]) in *. change [txt "POINT_DATA"; fmtZ n] with D.
  split; [|split; [|split; [|split; [|split; [|split]]]]].
  - apply (words_at_app [] (head fmtZ "streamFunctionInterp" m0 m1)). reflexivity.
  - apply vectors_at_app; [reflexivity|lia|lia].
  - rewrite app_assoc. rewrite (app_assoc D). apply words_at_app. rewrite app_length, Nat2Z.inj_add, L1, LH. reflexivity.
  - intros i j Hi Hj. assert (Q : 0 <= i * m1 + j < n) by (unfold n; nia).
    rewrite !(app_assoc _ _ (P ++ _)) || idtac.
    replace (head fmtZ "streamFunctionInterp" m0 m1 ++ triples fmt m0 m1 x y ++ D ++ K ++ P ++ cell_head fmtZ m0 m1 ++ velocity_head ++ triples fmt (m0 - 1) (m1 - 1) vx vy)
      with ((head fmtZ "streamFunctionInterp" m0 m1 ++ triples fmt m0 m1 x y ++ D ++ K) ++ P ++ cell_head fmtZ m0 m1 ++ velocity_head ++ triples fmt (m0 - 1) (m1 - 1) vx vy)
      by (now rewrite <- !app_assoc).
    assert (LA : Z.of_nat (List.length (head fmtZ "streamFunctionInterp" m0 m1 ++ triples fmt m0 m1 x y ++ D ++ K)) = 23 + 3 * n)
      by (rewrite !app_length, !Nat2Z.inj_add; lia).
    rewrite nth_error_app2 by lia.
    match goal with |- nth_error _ (?a - ?b) = _ => replace (a - b)%nat with (Z.to_nat (i * m1 + j)) by lia end.
    rewrite nth_error_app1 by lia. unfold P. rewrite nth_error_map, cells_nth by assumption. reflexivity.
  - rewrite (app_assoc (cell_head fmtZ m0 m1)). rewrite !(app_assoc _ _ ((cell_head fmtZ m0 m1 ++ velocity_head) ++ _)).
    apply words_at_app. rewrite !app_length, !Nat2Z.inj_add. lia.
  - rewrite <- (app_nil_r (triples fmt (m0 - 1) (m1 - 1) vx vy)). rewrite !(app_assoc _ _ (triples fmt (m0 - 1) (m1 - 1) vx vy ++ [])).
    apply vectors_at_app; [|lia|lia]. rewrite !app_length, !Nat2Z.inj_add. lia.
  - rewrite !app_length, !Nat2Z.inj_add. lia.
Qed.

Theorem C73_line_partial : forall n x y data, 1 <= n ->
  let ws := words (line_file fmt fmtZ n x y data) in
  words_at ws 0 (tok ["#"; "vtk"; "DataFile"; "Version"; "2.0"; "streamFunctionInterp"; "ASCII"; "DATASET"; "POLYDATA"; "POINTS"] ++ [fmtZ n; txt "float"]) /\
  vectors_at fmt ws 12 n 1 (fun i _ => x i) (fun i _ => y i) /\
  words_at ws (12 + 3 * n) [txt "LINES"; txt "1"; fmtZ (n + 1); fmtZ n] /\
  values_at ws (16 + 3 * n) n fmtZ /\
  words_at ws (16 + 4 * n) ([txt "CELL_DATA"; fmtZ (n - 1)] ++ tok ["SCALARS"; "integrated_flux"; "float"; "LOOKUP_TABLE"; "default"]) /\
  values_at ws (23 + 4 * n) (n - 1) (fun i => fmt (data i)) /\
  Z.of_nat (List.length ws) = 23 + 4 * n + (n - 1).
Proof.
  intros n x y data H ws. unfold ws. rewrite (line_words fmt fmtZ F1 FZ).
  assert (TR : flat_map (fun i => [fmt (x i); fmt (y i); txt "0.0"]) (range n) = triples fmt n 1 (fun i _ => x i) (fun i _ => y i)).
  { unfold triples, cells_of. change (range 1) with [0]. induction (range n) as [|i l IH]; [reflexivity|]. cbn [flat_map map app fst snd]. now rewrite IH. }
  rewrite TR. pose proof (triples_len n 1 (fun i _ => x i) (fun i _ => y i) ltac:(lia) ltac:(lia)) as L1.
  set (V := triples fmt n 1 (fun i _ => x i) (fun i _ => y i)) in *.
  set (H1 := tok ["#"; "vtk"; "DataFile"; "Version"; "2.0"; "streamFunctionInterp"; "ASCII"; "DATASET"; "POLYDATA"; "POINTS"]).
  assert (LH1 : Z.of_nat (List.length H1) = 10) by reflexivity.
  set (H2 := [fmtZ n; txt "float"]). assert (LH2 : Z.of_nat (List.length H2) = 2) by reflexivity.
  set (H3 := [txt "LINES"; txt "1"; fmtZ (n + 1); fmtZ n]). assert (LH3 : Z.of_nat (List.length H3) = 4) by reflexivity.
  set (H4 := [txt "CELL_DATA"; fmtZ (n - 1)]). assert (LH4 : Z.of_nat (List.length H4) = 2) by reflexivity.
  set (H5 := tok ["SCALARS"; "integrated_flux"; "float"; "LOOKUP_TABLE"; "default"]). assert (LH5 : Z.of_nat (List.length H5) = 5) by reflexivity.
  assert (LZ : Z.of_nat (List.length (map fmtZ (range n))) = n) by (rewrite map_length; apply range_len; lia).
  assert (LF : Z.of_nat (List.length (map (fun i => fmt (data i)) (range (n - 1)))) = n - 1) by (rewrite map_length; apply range_len; lia).
  split; [|split; [|split; [|split; [|split; [|split]]]]].
  - rewrite (app_assoc H1). apply (words_at_app [] (H1 ++ H2)). reflexivity.
  - rewrite (app_assoc H1). unfold V. apply vectors_at_app; [|lia|lia]. rewrite app_length, Nat2Z.inj_add. lia.
  - rewrite !(app_assoc _ _ (H3 ++ _)). apply words_at_app. rewrite !app_length, !Nat2Z.inj_add. lia.
  - rewrite !(app_assoc _ _ (map fmtZ (range n) ++ _)). apply values_at_app; [|lia]. rewrite !app_length, !Nat2Z.inj_add. lia.
  - rewrite (app_assoc H4). rewrite !(app_assoc _ _ ((H4 ++ H5) ++ _)). apply words_at_app. rewrite !app_length, !Nat2Z.inj_add. lia.
  - rewrite <- (app_nil_r (map (fun i => fmt (data i)) (range (n - 1)))). rewrite !(app_assoc _ _ (map (fun i => fmt (data i)) (range (n - 1)) ++ [])).
    apply values_at_app; [|lia]. rewrite !app_length, !Nat2Z.inj_add. lia.
  - rewrite !app_length, !Nat2Z.inj_add. lia.
Qed.
End Positions.
Print Assumptions C73_flow_partial.
Print Assumptions C73_stream_partial.
Print Assumptions C73_line_partial.

(** ** scripts/cellFaceBasis.py *)
Section Bases.
Context {T : Type} (fmt : T -> chars) (fmtZ : Z -> chars).
Hypothesis F1 : forall v, one_word (fmt v).
Hypothesis FZ : forall z, one_word (fmtZ z).

Lemma words_from_app : forall w cur r, List.Forall (fun c => blank c = false) w -> words_from cur (w ++ r) = words_from (cur ++ w) r.
Proof.
  induction w as [|c w IH]; intros cur r F; cbn [app words_from]; [now rewrite app_nil_r|].
  inversion F as [|? ? B F']; subst. rewrite B, IH by assumption. now rewrite <- app_assoc.
Qed.
Lemma words_from_end : forall cur c r, cur <> [] -> blank c = true -> words_from cur (c :: r) = cur :: words r.
Proof. intros cur c r N B. cbn [words_from]. rewrite B. now destruct cur. Qed.

(** The vectors of a side, written without ends of lines, make two words each, the third is joined with what follows. *)
Lemma joined_len : forall l (vx vy : Z * Z -> T) cur r, l <> [] ->
  List.length (words_from cur (flat_map (fun ij => fmt (vx ij) ++ txt " " ++ fmt (vy ij) ++ txt " 0.0") l ++ r))
  = (2 * List.length l + List.length (words_from (txt "0.0") r))%nat.
Proof.
  intros l vx vy cur r NE. destruct l as [|ij l]; [contradiction|]. clear NE. revert ij cur.
  induction l as [|ij' l IH]; intros ij cur; cbn [flat_map List.length].
  - rewrite app_nil_r, <- !app_assoc. destruct (F1 (vx ij)) as [N A], (F1 (vy ij)) as [N' A'].
    rewrite words_from_app by assumption. change (txt " " ++ ?z) with (" "%char :: z). rewrite words_from_end; [|now destruct cur, (fmt (vx ij))|reflexivity].
    unfold words. rewrite words_from_app by assumption. change (txt " 0.0" ++ r) with (" "%char :: txt "0.0" ++ r).
    rewrite words_from_end by (try reflexivity; exact N'). unfold words. rewrite words_from_app by (repeat constructor). cbn [List.length app]. reflexivity.
  - rewrite <- (app_assoc _ (_ ++ flat_map _ l) r), <- !app_assoc. destruct (F1 (vx ij)) as [N A], (F1 (vy ij)) as [N' A'].
    rewrite words_from_app by assumption. change (txt " " ++ ?z) with (" "%char :: z). rewrite words_from_end; [|now destruct cur, (fmt (vx ij))|reflexivity].
    unfold words. rewrite words_from_app by assumption.
    match goal with |- context [txt " 0.0" ++ ?z] => change (txt " 0.0" ++ z) with (" "%char :: txt "0.0" ++ z) end.
    rewrite words_from_end by (try reflexivity; exact N'). unfold words. rewrite words_from_app by (repeat constructor). cbn [List.length app].
    specialize (IH ij' ([] ++ txt "0.0")). cbn [flat_map List.length] in IH. rewrite <- !app_assoc in IH.
    change (" "%char :: ?z) with (txt " " ++ z). cbn [app] in IH |- *. rewrite IH. lia.
Qed.

Lemma sides_len : forall l bases cur, l <> [] -> List.Forall (fun c => blank c = false) cur -> List.Forall (fun b => one_word (fst b)) bases ->
  List.length (words_from cur (flat_map (fun b : chars * ((Z -> Z -> T) * (Z -> Z -> T)) =>
      txt "SCALARS " ++ fst b ++ txt " float 3" ++ newline ++ line "LOOKUP_TABLE default" ++
      flat_map (fun ij => fmt (fst (snd b) (fst ij) (snd ij)) ++ txt " " ++ fmt (snd (snd b) (fst ij) (snd ij)) ++ txt " 0.0") l) bases))
  = match bases with [] => List.length (words_from cur []) | _ => (List.length bases * (6 + 2 * List.length l) + 1)%nat end.
Proof.
  intros l bases cur NE FC FB. revert cur FC. induction bases as [|b bs IH]; intros cur FC; [reflexivity|].
  inversion FB as [|? ? [NB WB] FB']; subst. cbn [flat_map]. rewrite <- !app_assoc.
  change (txt "SCALARS " ++ ?z) with (txt "SCALARS" ++ " "%char :: z). rewrite words_from_app by (repeat constructor).
  rewrite words_from_end; [|now destruct cur|reflexivity]. unfold words. rewrite words_from_app by assumption. cbn [app].
  change (txt " float 3" ++ ?z) with (" "%char :: txt "float 3" ++ z). rewrite words_from_end by (try reflexivity; exact NB).
  rewrite words_nl. unfold line. rewrite <- !app_assoc, words_nl. cbn [List.length]. rewrite !app_length. unfold words at 3.
  change (List.length (words (txt "float 3"))) with 2%nat. change (List.length (words (txt "LOOKUP_TABLE default"))) with 2%nat.
  rewrite (joined_len l (fun ij => fst (snd b) (fst ij) (snd ij)) (fun ij => snd (snd b) (fst ij) (snd ij))) by assumption.
  fold (line "LOOKUP_TABLE default") in IH. unfold line in IH. rewrite (IH FB' (txt "0.0")) by (repeat constructor).
  destruct bs; cbn [List.length]; [change (words_from (txt "0.0") []) with [txt "0.0"]; cbn [List.length]|]; lia.
Qed.

(** The file is too short: with n cells, every side has 2 n words where 3 n are announced, and one more for all sides. *)
Theorem C73_bases_refuted : forall m0 m1 x y bases, 2 <= m0 -> 2 <= m1 -> (2 <= List.length bases)%nat -> List.Forall (fun b => one_word (fst b)) bases ->
  let n := m0 * m1 in let nc := (m0 - 1) * (m1 - 1) in let sides := Z.of_nat (List.length bases) in
  let len := Z.of_nat (List.length (words (basis_file fmt fmtZ m0 m1 x y bases))) in
  len = 18 + 3 * n + sides * (6 + 2 * nc) + 1 /\ len < 18 + 3 * n + sides * (6 + 3 * nc).
Proof.
  intros m0 m1 x y bases H0 H1 HB FB n nc sides len.
  pose proof (triples_len fmt m0 m1 x y ltac:(lia) ltac:(lia)) as L1. fold n in L1.
  pose proof (cells_len (m0 - 1) (m1 - 1) ltac:(lia) ltac:(lia)) as L2. fold nc in L2.
  assert (NC : 1 <= nc) by (unfold nc; nia).
  assert (E : len = 18 + 3 * n + sides * (6 + 2 * nc) + 1).
  { unfold len, basis_file. rewrite (words_structured fmt fmtZ F1 FZ) by reflexivity.
    change (line1 fmtZ "CELL_DATA " ?n "" ++ ?z) with (line1 fmtZ ("CELL_DATA" ++ " ") n "" ++ z). rewrite (words_line1 fmtZ FZ).
    rewrite !app_length, !Nat2Z.inj_add, L1. change (Z.of_nat (List.length (head fmtZ "bases" m0 m1))) with 16.
    change (Z.of_nat (List.length (words (txt "CELL_DATA")))) with 1. change (Z.of_nat (List.length [fmtZ ((m0 - 1) * (m1 - 1))])) with 1.
    pose proof (sides_len (cells_of (m0 - 1) (m1 - 1)) bases [] ltac:(intros Z0; rewrite Z0 in L2; cbn in L2; lia) (Forall_nil _) FB) as SL.
    match type of SL with ?a = _ => match goal with |- context [Z.of_nat (List.length (words ?z))] => change (List.length (words z)) with a end end. rewrite SL.
    destruct bases as [|b bs]; [cbn in HB; lia|]. set (k := List.length (b :: bs)) in *. unfold sides. nia. }
  split; [exact E|]. rewrite E. assert (2 <= sides) by (unfold sides; lia). nia.
Qed.
End Bases.
Print Assumptions C73_bases_refuted.

(** ** A format for integers, and the file of a grid with one cell *)
Definition decimal (z : Z) : chars := txt (NilZero.string_of_int (Z.to_int z)).
Lemma decimal_uint : forall d, List.Forall (fun c => blank c = false) (txt (NilEmpty.string_of_uint d)).
Proof. induction d; cbn; constructor; first [reflexivity|exact IHd]. Qed.
Lemma decimal_word : forall z, one_word (decimal z).
Proof.
  assert (U : forall d, one_word (txt (NilZero.string_of_uint d))).
  { intros d. destruct d; (split; [cbn; discriminate|]); try (repeat constructor; fail); exact (decimal_uint _). }
  intros z. unfold decimal. destruct (Z.to_int z) as [d|d]; cbn [NilZero.string_of_int].
  - apply U.
  - destruct (U d) as [N F]. split; [discriminate|]. constructor; [reflexivity|exact F].
Qed.
Example C73_nonvacuous : (forall z, one_word (decimal z)) /\
  flow_file decimal decimal 2 2 (fun i j => i) (fun i j => -j) (fun _ _ => 5) (fun _ _ => -7) = txt
"# vtk DataFile Version 2.0
flow
ASCII
DATASET STRUCTURED_GRID
DIMENSIONS 1 2 2
POINTS 4 float
0 0 0.0
0 -1 0.0
1 0 0.0
1 -1 0.0
CELL_DATA 1
SCALARS velocity float 3
LOOKUP_TABLE default
5 -7 0.0
" /\
  (let side k := (txt k, ((fun i j => i), (fun i j => j))) in let bases := [side "_-1_0"; side "_-1_1"; side "_0_-1"; side "_1_-1"] in
   List.Forall (fun b => one_word (fst b)) bases /\
   basis_file decimal decimal 2 3 (fun i j => i) (fun i j => j) (firstn 2 bases) = txt
"# vtk DataFile Version 2.0
bases
ASCII
DATASET STRUCTURED_GRID
DIMENSIONS 1 3 2
POINTS 6 float
0 0 0.0
0 1 0.0
0 2 0.0
1 0 0.0
1 1 0.0
1 2 0.0
CELL_DATA 2
SCALARS _-1_0 float 3
LOOKUP_TABLE default
0 0 0.00 1 0.0SCALARS _-1_1 float 3
LOOKUP_TABLE default
0 0 0.00 1 0.0").
Proof.
  split; [exact decimal_word|]. split; [vm_compute; reflexivity|]. cbv zeta. split; [|vm_compute; reflexivity].
  repeat (constructor; [split; [discriminate|repeat constructor]|]). constructor.
Qed.
