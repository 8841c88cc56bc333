(** Model of examples/sgutils.py and of scripts/cellFaceBasis.py: arrays of numpy, the velocities and basis functions
    computed, and the text of the files written.

    Not modelled: the evaluation of the expressions given by the user (the arrays x and y are arguments), the axes
    of numpy beyond two, the file system.  The print statement of Python 2 in saveLineVtk is left out. *)
From Coq Require Import ZArith List Bool Ascii String.
From Verif Require Import Base Num M_Grids.
Import ListNotations.

(** ** Arrays *)
(** A two-dimensional array: shape and elements. *)
Record arr (T : Type) := mkArr { a_n0 : Z; a_n1 : Z; a_at : Z -> Z -> T }.
Arguments mkArr {T}. Arguments a_n0 {T}. Arguments a_n1 {T}. Arguments a_at {T}.

Section Arrays.
Context {T : Type} {N : Num T}.
Local Open Scope num_scope.

(** a[:-1, :], a[1:, :], a[:, :-1], a[:, 1:] and a[:1, :]. *)
Definition lo0 (a : arr T) : arr T := mkArr (Z.max 0 (a_n0 a - 1)) (a_n1 a) (a_at a).
Definition hi0 (a : arr T) : arr T := mkArr (Z.max 0 (a_n0 a - 1)) (a_n1 a) (fun i j => a_at a (i + 1)%Z j).
Definition lo1 (a : arr T) : arr T := mkArr (a_n0 a) (Z.max 0 (a_n1 a - 1)) (a_at a).
Definition hi1 (a : arr T) : arr T := mkArr (a_n0 a) (Z.max 0 (a_n1 a - 1)) (fun i j => a_at a i (j + 1)%Z).
Definition first0 (a : arr T) : arr T := mkArr (Z.min 1 (a_n0 a)) (a_n1 a) (a_at a).

(** Shape of the result of an operation on two arrays; None: ValueError. *)
Definition bdim (m n : Z) : option Z :=
  if (m =? n)%Z then Some m else if (m =? 1)%Z then Some n else if (n =? 1)%Z then Some m else None.
(** An axis of length 1 is repeated. *)
Definition bidx (n : Z) (i : Z) : Z := if (n =? 1)%Z then 0%Z else i.
Definition bop (f : T -> T -> T) (a b : option (arr T)) : option (arr T) :=
  match a, b with
  | Some a, Some b =>
      match bdim (a_n0 a) (a_n0 b), bdim (a_n1 a) (a_n1 b) with
      | Some m0, Some m1 =>
          Some (mkArr m0 m1 (fun i j => f (a_at a (bidx (a_n0 a) i) (bidx (a_n1 a) j)) (a_at b (bidx (a_n0 b) i) (bidx (a_n1 b) j))))
      | _, _ => None
      end
  | _, _ => None
  end.
Definition umap (f : T -> T) (a : option (arr T)) : option (arr T) :=
  match a with Some a => Some (mkArr (a_n0 a) (a_n1 a) (fun i j => f (a_at a i j))) | None => None end.

(** 0.5*(a + b) *)
Definition avg (a b : arr T) : option (arr T) := umap (fun v => nhalf * v) (bop nadd (Some a) (Some b)).

(** ** examples/sgutils.py *)
(** numpy.linspace(a, b, n): the last element is b. *)
Definition linspace (a b : T) (n : Z) (i : Z) : T :=
  if ((1 <? n) && (i =? n - 1))%Z then b else a + nofZ i * ((b - a) / nofZ (n - 1)).

(** examples/sgutils.py:4-9. *)
Definition createRectilinearGrid (m0 m1 : Z) (x0 y0 x1 y1 : T) : arr T * arr T :=
  (mkArr m0 m1 (fun i _ => linspace x0 x1 m0 i * n1), mkArr m0 m1 (fun _ j => n1 * linspace y0 y1 m1 j)).

(** examples/sgutils.py:11-18. *)
Definition createPolarGrid {TT : Trig T} (m0 m1 : Z) (radius eps : T) : arr T * arr T :=
  let rho i := linspace eps radius m0 i * n1 in
  let the j := n1 * linspace n0 (nofZ 2 * mpi) m1 j in
  (mkArr m0 m1 (fun i j => rho i * mcos (the j)), mkArr m0 m1 (fun i j => rho i * msin (the j))).

(** examples/sgutils.py:71-117: the arrays vx and vy of saveFlowVtk. *)
Definition flow_velocity (xx yy flux0 flux1 : arr T) : option (arr T) * option (arr T) :=
  let flux0Avg := avg (lo1 flux0) (hi1 flux0) in
  let flux1Avg := avg (lo0 flux1) (hi0 flux1) in
  let xx0Lo := avg (lo0 (lo1 xx)) (hi0 (lo1 xx)) in
  let yy0Lo := avg (lo0 (lo1 yy)) (hi0 (lo1 yy)) in
  let xx0Hi := avg (lo0 (hi1 xx)) (hi0 (hi1 xx)) in
  let yy0Hi := avg (lo0 (hi1 yy)) (hi0 (hi1 yy)) in
  let xx1Lo := avg (lo0 (lo1 xx)) (lo0 (hi1 xx)) in
  let yy1Lo := avg (lo0 (lo1 yy)) (lo0 (hi1 yy)) in
  let xx1Hi := avg (hi0 (lo1 xx)) (hi0 (hi1 xx)) in
  let yy1Hi := avg (hi0 (lo1 yy)) (hi0 (hi1 yy)) in
  let dx0 := bop nsub xx1Hi xx1Lo in
  let dy0 := bop nsub yy1Hi yy1Lo in
  let dx1 := bop nsub xx0Hi xx0Lo in
  let dy1 := bop nsub yy0Hi yy0Lo in
  let length0 := umap nsqrt (bop nadd (bop nmul dx0 dx0) (bop nmul dy0 dy0)) in
  let length1 := umap nsqrt (bop nadd (bop nmul dx1 dx1) (bop nmul dy1 dy1)) in
  let ff0 := bop ndiv flux0Avg length0 in
  let ff1 := bop ndiv flux1Avg length1 in
  let u0x := bop ndiv dy0 length0 in
  let u0y := bop ndiv (umap nopp dx0) length0 in
  let u1x := bop ndiv dy1 length1 in
  let u1y := bop ndiv (umap nopp dx1) length1 in
  (bop nadd (bop nmul ff0 u0x) (bop nmul ff1 u1x), bop nadd (bop nmul ff0 u0y) (bop nmul ff1 u1y)).

(** examples/sgutils.py:157-162: the arrays vxAvg and vyAvg of saveStreamlinesVtk. *)
Definition stream_velocity (xx yy psi : arr T) : option (arr T) * option (arr T) :=
  let vx := bop ndiv (umap nopp (bop nsub (Some (hi1 psi)) (Some (lo1 psi)))) (bop nsub (Some (hi1 yy)) (Some (lo1 yy))) in
  let vy := bop ndiv (bop nsub (Some (hi0 psi)) (Some (lo0 psi))) (bop nsub (Some (hi0 xx)) (Some (lo0 xx))) in
  (match vx with Some vx => avg (lo0 vx) (hi0 vx) | None => None end,
   match vy with Some vy => avg (lo1 vy) (hi1 vy) | None => None end).

(** ** scripts/cellFaceBasis.py *)
(** scripts/cellFaceBasis.py:14-35: derivatives at the cell centres; line 28 takes y[:1, :] where y[1:, :]
    is meant. *)
Record derivs := mkDerivs { dxdxi : option (arr T); dxdeta : option (arr T); dydxi : option (arr T); dydeta : option (arr T) }.
Definition face_derivs (x y : arr T) : derivs :=
  let dXi := n1 / nofZ (a_n0 x - 1) in
  let dEta := n1 / nofZ (a_n1 x - 1) in
  let x1Avg := avg (lo0 x) (hi0 x) in
  let x2Avg := avg (lo1 x) (hi1 x) in
  let y1Avg := avg (lo0 y) (first0 y) in
  let y2Avg := avg (lo1 y) (hi1 y) in
  let d0 a := match a with Some a => umap (fun v => v / dXi) (bop nsub (Some (hi0 a)) (Some (lo0 a))) | None => None end in
  let d1 a := match a with Some a => umap (fun v => v / dEta) (bop nsub (Some (hi1 a)) (Some (lo1 a))) | None => None end in
  mkDerivs (d0 x2Avg) (d1 x1Avg) (d0 y2Avg) (d1 y1Avg).

(** scripts/cellFaceBasis.py:16-19, 38-39: the centred coordinates. *)
Definition xi_grid (m0 m1 : Z) : arr T := mkArr m0 m1 (fun i _ => linspace n0 n1 m0 i * n1).
Definition eta_grid (m0 m1 : Z) : arr T := mkArr m0 m1 (fun _ j => n1 * linspace n0 n1 m1 j).
Definition centred (a : arr T) : option (arr T) :=
  umap (fun v => lit 25 100 * v)
    (bop nadd (bop nadd (bop nadd (Some (lo0 (lo1 a))) (Some (lo0 (hi1 a)))) (Some (hi0 (hi1 a)))) (Some (hi0 (lo1 a)))).

(** scripts/cellFaceBasis.py:41-49: the basis functions of the sides (-1, 0), (-1, 1), (0, -1), (1, -1), in this order. *)
Definition face_bases (x y : arr T) : list (option (arr T) * option (arr T)) :=
  let d := face_derivs x y in
  let xi := centred (xi_grid (a_n0 x) (a_n1 x)) in
  let eta := centred (eta_grid (a_n0 x) (a_n1 x)) in
  let jac := bop nsub (bop nmul (dxdxi d) (dydeta d)) (bop nmul (dydxi d) (dxdeta d)) in
  let low a := umap (fun v => n1 - v) a in
  let high a := umap (fun v => n0 + v) a in
  let q a b := bop ndiv (bop nmul a b) jac in
  [(q (low eta) (dxdeta d), q (low eta) (dydeta d)); (q (high eta) (dxdeta d), q (high eta) (dydeta d));
   (q (low xi) (dxdxi d), q (low xi) (dydxi d)); (q (high xi) (dxdxi d), q (high xi) (dydxi d))].

End Arrays.

(** ** Files *)
Definition chars := list ascii.
Definition txt (s : string) : chars := list_ascii_of_string s.
Definition newline : chars := [ascii_of_nat 10].

Section Files.
Context {T : Type}.
(** str.format of numbers. *)
Variable fmt : T -> chars.
Variable fmtZ : Z -> chars.

(** A line without numbers. *)
Definition line (s : string) : chars := txt s ++ newline.
(** "a {} b\n" *)
Definition line1 (a : string) (n : Z) (b : string) : chars := txt a ++ fmtZ n ++ txt b ++ newline.
Definition cells_of (m0 m1 : Z) : list (Z * Z) := flat_map (fun i => map (fun j => (i, j)) (range m1)) (range m0).

(** "{} {} 0.0\n" for all elements. *)
Definition vectors (m0 m1 : Z) (vx vy : Z -> Z -> T) : chars :=
  flat_map (fun ij => fmt (vx (fst ij) (snd ij)) ++ txt " " ++ fmt (vy (fst ij) (snd ij)) ++ txt " 0.0" ++ newline) (cells_of m0 m1).
Definition structured (title : string) (m0 m1 : Z) (x y : Z -> Z -> T) : chars :=
  line "# vtk DataFile Version 2.0" ++ line title ++ line "ASCII" ++ line "DATASET STRUCTURED_GRID" ++
  txt "DIMENSIONS 1 " ++ fmtZ m1 ++ txt " " ++ fmtZ m0 ++ newline ++
  line1 "POINTS " (m0 * m1) " float" ++ vectors m0 m1 x y.

(** examples/sgutils.py:48-69, 119-123: saveFlowVtk, with the velocities vx and vy. *)
Definition flow_file (m0 m1 : Z) (x y vx vy : Z -> Z -> T) : chars :=
  structured "flow" m0 m1 x y ++ line1 "CELL_DATA " ((m0 - 1) * (m1 - 1)) "" ++
  line "SCALARS velocity float 3" ++ line "LOOKUP_TABLE default" ++ vectors (m0 - 1) (m1 - 1) vx vy.

(** examples/sgutils.py:126-168: saveStreamlinesVtk, with the velocities vx and vy. *)
Definition stream_file (m0 m1 : Z) (x y psi vx vy : Z -> Z -> T) : chars :=
  structured "streamFunctionInterp" m0 m1 x y ++ line1 "POINT_DATA " (m0 * m1) "" ++
  line "SCALARS psi float" ++ line "LOOKUP_TABLE default" ++
  flat_map (fun ij => fmt (psi (fst ij) (snd ij)) ++ newline) (cells_of m0 m1) ++
  line1 "CELL_DATA " ((m0 - 1) * (m1 - 1)) "" ++
  line "SCALARS velocity float 3" ++ line "LOOKUP_TABLE default" ++ vectors (m0 - 1) (m1 - 1) vx vy.

(** examples/sgutils.py:20-46: saveLineVtk. *)
Definition line_file (n : Z) (x y data : Z -> T) : chars :=
  line "# vtk DataFile Version 2.0" ++ line "streamFunctionInterp" ++ line "ASCII" ++ line "DATASET POLYDATA" ++
  line1 "POINTS " n " float" ++
  flat_map (fun i => fmt (x i) ++ txt " " ++ fmt (y i) ++ txt " 0.0" ++ newline) (range n) ++
  line1 "LINES 1 " (n + 1) "" ++ fmtZ n ++ txt " " ++ flat_map (fun i => fmtZ i ++ txt " ") (range n) ++ newline ++
  line1 "CELL_DATA " (n - 1) "" ++ line "SCALARS integrated_flux float" ++ line "LOOKUP_TABLE default" ++
  flat_map (fun i => fmt (data i) ++ txt " ") (range (n - 1)) ++ newline.

(** scripts/cellFaceBasis.py:54-85: saveVtk; line 83 has no newline. *)
Definition basis_file (m0 m1 : Z) (x y : Z -> Z -> T) (bases : list (chars * ((Z -> Z -> T) * (Z -> Z -> T)))) : chars :=
  structured "bases" m0 m1 x y ++ line1 "CELL_DATA " ((m0 - 1) * (m1 - 1)) "" ++
  flat_map (fun b =>
      txt "SCALARS " ++ fst b ++ txt " float 3" ++ newline ++ line "LOOKUP_TABLE default" ++
      flat_map (fun ij => fmt (fst (snd b) (fst ij) (snd ij)) ++ txt " " ++ fmt (snd (snd b) (fst ij) (snd ij)) ++ txt " 0.0")
        (cells_of (m0 - 1) (m1 - 1))) bases.

End Files.
