(** Model of the programs in examples: streamFlow.py.in, polarFlow.py.in and polarFlowApprox.py.in.

    Not modelled: the evaluation of the text of the expressions (xline, yline and psi are functions,
    applied to every element of an array; an expression that does not use its variables gives a number in
    Python, which the program then cannot index), the printed messages and the files
    (the files are in M_PyUtils.v). *)
From Coq Require Import ZArith List Bool.
From Verif Require Import Base Num M_LinearSolve M_FindPoint M_FlowInterp M_Grids M_PyUtils.
Import ListNotations.

Section Examples.
Context {T : Type} {N : Num T}.
Local Open Scope num_scope.

(** a.ctypes.data of a new array: the elements row by row (numpy allocates results of outer, of
    operations and of zeros in this order). *)
Definition contiguous (a : arr T) : list T :=
  map (fun k => a_at a (k / a_n1 a)%Z (k mod a_n1 a)%Z) (range (a_n0 a * a_n1 a)).

(** a.sum(): numpy adds from the left up to eight elements and pairwise beyond; here from the left. *)
Definition numpy_sum (l : list T) : T := fold_left nadd l n0.

(** examples/streamFlow.py.in:32-89.  Result: the numbers printed as integrated flux and as exact; None:
    an exception.  [cosv]: the cosines of setDstGrid.  The return codes of the library tested by assert are
    always 0 for these calls. *)
Definition streamFlow (srt : (T -> T -> bool) -> list T -> list T) (g : gels T) (cosv : Z -> Z -> T)
  (m0 m1 : Z) (xmin ymin xmax ymax : T) (n : Z) (xline yline : T -> T) (psi : T -> T -> T) : exec (option (T * T)) :=
  let '(xx, yy) := createRectilinearGrid m0 m1 xmin ymin xmax ymax in
  let t i := linspace n0 n1 (n + 1) i in
  let dstX := map (fun i => xline (t i)) (range (n + 1)) in
  let dstY := map (fun i => yline (t i)) (range (n + 1)) in
  let! s1 := fl_setSrcGrid fl_new m0 m1 [contiguous xx; contiguous yy] in
  let! s2 := fl_setDstGrid cosv s1 (n + 1) [dstX; dstY] in
  let! s3 := fl_computeWeights srt g s2 in
  let p := mkArr m0 m1 (fun i j => psi (a_at xx i j) (a_at yy i j)) in
  match bop nsub (Some (hi0 p)) (Some (lo0 p)), bop nsub (Some (hi1 p)) (Some (lo1 p)) with
  | Some xflux, Some yflux =>
      let! out := fl_apply s3 (contiguous xflux) (contiguous yflux) (map (fun _ => n0) (range n)) in
      let psia := psi (xline n0) (yline n0) in
      let psib := psi (xline n1) (yline n1) in
      Ret (Some (numpy_sum out, psib - psia))
  | _, _ => Ret None
  end.

(** examples/polarFlow.py.in:27-74.  Result: the number printed as integrated flux. *)
Definition polarFlow {TT : Trig T} (srt : (T -> T -> bool) -> list T -> list T) (g : gels T) (cosv : Z -> Z -> T)
  (m0 m1 : Z) (radius : T) (n : Z) (xline yline : T -> T) : exec T :=
  let '(xx, yy) := createPolarGrid m0 m1 radius n0 in
  let t i := linspace n0 n1 (n + 1) i in
  let dstX := map (fun i => xline (t i)) (range (n + 1)) in
  let dstY := map (fun i => yline (t i)) (range (n + 1)) in
  let! s1 := fl_setSrcGrid fl_new m0 m1 [contiguous xx; contiguous yy] in
  let! s2 := fl_setDstGrid cosv s1 (n + 1) [dstX; dstY] in
  let! s3 := fl_computeWeights srt g s2 in
  let xflux := mkArr (m0 - 1) m1 (fun _ _ => n0) in
  let yflux := mkArr m0 (m1 - 1) (fun _ _ => n1 / nofZ (m1 - 1) * n1) in
  let! out := fl_apply s3 (contiguous xflux) (contiguous yflux) (map (fun _ => n0) (range n)) in
  Ret (numpy_sum out).

(** ** polarFlowApprox.py.in *)

(** examples/polarFlowApprox.py.in:33-41. *)
Definition guesses (m0 m1 : Z) : list (list T) :=
  let l0 := nofZ (m0 - 1) in let l1 := nofZ (m1 - 1) in
  let h0 := l0 / nofZ 2 in let h1 := l1 / nofZ 2 in
  [[h0; h1]; [h0; n0]; [l0; h1]; [h0; l1]; [n0; h1]; [n0; n0]; [l0; n0]; [l0; l1]; [n0; l1]].

(** examples/polarFlowApprox.py.in:33-57: the loop over the guesses, ended by a code 1.  [last]: the
    code and the object after the last search. *)
Fixpoint try_guesses (g : gels T) (target : list T) (gs : list (list T)) (last : Z * fp) : exec (Z * fp) :=
  match gs with
  | [] => Ret last
  | x :: gs' =>
      let! s := fp_reset (snd last) x target in
      let! r := fp_search g s in
      if (fst r =? 1)%Z then Ret r else try_guesses g target gs' r
  end.

(** examples/polarFlowApprox.py.in:16-84.  Result: the code of the last search (a message is printed
    unless it is 1) and the indices returned. *)
Definition findIndicesForPosition (g : gels T) (xx yy : arr T) (target : list T) (nitermax : Z) (tolpos : T) : exec (Z * list T) :=
  let m0 := a_n0 xx in let m1 := a_n1 xx in
  let! s := fp_setGrid (fp_new nitermax tolpos) [m0; m1] [0; 1]%Z [contiguous xx; contiguous yy] in
  let! r := try_guesses g target (guesses m0 m1) (0%Z, s) in
  Ret (fst r, fp_dIndices (snd r)).

(** a[i, j] in Python: an index from the end when negative, an exception (None) when out of range. *)
Definition np_at (a : arr T) (i j : Z) : option T :=
  let i' := if (i <? 0)%Z then (i + a_n0 a)%Z else i in
  let j' := if (j <? 0)%Z then (j + a_n1 a)%Z else j in
  if ((0 <=? i') && (i' <? a_n0 a) && (0 <=? j') && (j' <? a_n1 a))%Z%bool then Some (a_at a i' j') else None.

(** examples/polarFlowApprox.py.in:152-166, for one array.  None: an exception. *)
Definition interpolate (f : arr T) (u v : T) : option T :=
  match ntoZ (nfloor u), ntoZ (nfloor v) with
  | Some i, Some j =>
      let x := u - nofZ i in let y := v - nofZ j in
      let w00 := (n1 - x) * (n1 - y) in
      let w10 := x * (n1 - y) in
      let w11 := x * y in
      let w01 := (n1 - x) * y in
      match np_at f i j, np_at f (i + 1) j, np_at f (i + 1) (j + 1), np_at f i (j + 1) with
      | Some f00, Some f10, Some f11, Some f01 => Some (w00 * f00 + w10 * f10 + w11 * f11 + w01 * f01)
      | _, _, _, _ => None
      end
  | _, _ => None
  end.

(** examples/polarFlowApprox.py.in:143-176: one segment, from P to Q.  [vxx], [vyy]: the arrays of velocities.
    Result: the flux, the flux of the exact velocity; None: an exception. *)
Definition approxSegment {TT : Trig T} (g : gels T) (xx yy vxx vyy : arr T) (P Q : T * T) : exec (option (T * T)) :=
  let x := nhalf * (fst Q + fst P) in
  let y := nhalf * (snd Q + snd P) in
  let dx := fst Q - fst P in
  let dy := snd Q - snd P in
  let r2 := x * x + y * y in
  let! r := findIndicesForPosition g xx yy [x; y] 100 (lit 1 (10 ^ 12)) in
  match snd r with
  | [u; v] =>
      match interpolate vxx u v, interpolate vyy u v with
      | Some vx, Some vy =>
          let vxE := x / (nofZ 2 * mpi * r2) in
          let vyE := y / (nofZ 2 * mpi * r2) in
          Ret (Some (vx * dy - vy * dx, vxE * dy - vyE * dx))
      | _, _ => Ret None
      end
  | _ => Ret None
  end.

(** examples/polarFlowApprox.py.in:143: the loop over the segments. *)
Fixpoint approxSegments {TT : Trig T} (g : gels T) (xx yy vxx vyy : arr T) (ps : list (T * T)) : exec (option (list (T * T))) :=
  match ps with
  | P :: ((Q :: _) as rest) =>
      let! r := approxSegment g xx yy vxx vyy P Q in
      match r with
      | None => Ret None
      | Some f =>
          let! rs := approxSegments g xx yy vxx vyy rest in
          Ret (match rs with None => None | Some fs => Some (f :: fs) end)
      end
  | _ => Ret (Some [])
  end.

(** examples/polarFlowApprox.py.in:103-178.  Result: the two fluxes printed; None: an exception. *)
Definition polarFlowApprox {TT : Trig T} (g : gels T) (m0 m1 : Z) (radius : T) (n : Z) (xline yline : T -> T) : exec (option (T * T)) :=
  let '(xx, yy) := createPolarGrid m0 m1 radius (lit 5 100) in
  let t i := linspace n0 n1 (n + 1) i in
  let ps := map (fun i => (xline (t i), yline (t i))) (range (n + 1)) in
  let rr2 i j := a_at xx i j * a_at xx i j + a_at yy i j * a_at yy i j in
  let vxx := mkArr m0 m1 (fun i j => a_at xx i j / (nofZ 2 * mpi * rr2 i j)) in
  let vyy := mkArr m0 m1 (fun i j => a_at yy i j / (nofZ 2 * mpi * rr2 i j)) in
  let! r := approxSegments g xx yy vxx vyy ps in
  Ret (match r with
       | None => None
       | Some fs => Some (numpy_sum (map fst fs), numpy_sum (map snd fs))
       end).

End Examples.
