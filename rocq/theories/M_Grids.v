(** Model of utils/createGrids2D.cpp and cpp/SgTripolarGrid.h, cpp/SgTripolarGrid.cpp. *)
From Coq Require Import ZArith List Bool.
From Verif Require Import Base Num.
Import ListNotations.
Open Scope Z_scope.

(** The functions of <cmath> used here and the constant M_PI. *)
Class Trig (T : Type) : Type := {
  mpi : T;
  msin : T -> T;
  mcos : T -> T;
  mtan : T -> T;
  masin : T -> T;
  macos : T -> T;
  matan : T -> T;
  matan2 : T -> T -> T       (* atan2 (y, x) *)
}.

Section Grids.
Context {T : Type} {N : Num T} {G : Trig T}.
Local Open Scope num_scope.

(** The two arrays coords[0] and coords[1] of the caller. *)
Definition arrays : Type := (list T * list T)%type.
Definition store (c : arrays) (k : Z) (x y : T) : exec arrays :=
  let! a := vset (fst c) k x in let! b := vset (snd c) k y in Ret (a, b).

(** The loops over all nodes with a running index (utils/createGrids2D.cpp:34-41, 52-60, 100-122).
    A count is compared as size_t with the loop variable: a negative one is very large. *)
Definition fill (d0 d1 : Z) (f : Z -> Z -> T * T) (c : arrays) : exec arrays :=
  let! r := foldM (fun st i => foldM (fun (st : arrays * Z) j =>
      let! c := store (fst st) (snd st) (fst (f i j)) (snd (f i j)) in Ret (c, wrap64 (snd st + 1)%Z))
    (range (wrap64 d1)) st) (range (wrap64 d0)) (c, 0%Z) in
  Ret (fst r).

(** utils/createGrids2D.cpp:26-42. *)
Definition createRectangularGrid (d0 d1 : Z) (xmins xmaxs : T * T) (c : arrays) : exec arrays :=
  let! e0 := chk (d0 - 1)%Z in let! e1 := chk (d1 - 1)%Z in
  let dx := (fst xmaxs - fst xmins) / nofZ e0 in
  let dy := (snd xmaxs - snd xmins) / nofZ e1 in
  fill d0 d1 (fun i j => (fst xmins + dx * nofZ i, snd xmins + dy * nofZ j)) c.

(** utils/createGrids2D.cpp:44-62. *)
Definition createPolarGrid (d0 d1 : Z) (center : T * T) (radius : T) (c : arrays) : exec arrays :=
  let! e0 := chk (d0 - 1)%Z in let! e1 := chk (d1 - 1)%Z in
  let dr := radius / nofZ e0 in
  let dt := n2 * mpi / nofZ e1 in
  fill d0 d1 (fun i j =>
    let rho := fst center + dr * nofZ i in
    let the := snd center + dt * nofZ j in
    (rho * mcos the, rho * msin the)) c.

(** utils/createGrids2D.cpp:3-14. *)
Definition matrixDotMatrix (m1 m2 : list T) : exec (list T) :=
  mapM (fun ij => foldM (fun acc el =>
      let! a := vget m1 (fst ij * 3 + el)%Z in let! b := vget m2 (el * 3 + snd ij)%Z in
      Ret (acc + a * b)) (range 3) n0) (list_prod (range 3) (range 3)).

(** utils/createGrids2D.cpp:16-24. *)
Definition matrixDotVector (m v : list T) : exec (list T) :=
  mapM (fun i => foldM (fun acc el =>
      let! a := vget m (i * 3 + el)%Z in let! b := vget v el in
      Ret (acc + a * b)) (range 3) n0) (range 3).

(** utils/createGrids2D.cpp:68-91: the total rotation. *)
Definition rotation (delta_lat delta_lon : T) : exec (list T) :=
  let alpha := mpi * delta_lat / nofZ 180 in
  let beta := mpi * delta_lon / nofZ 180 in
  let ca := mcos alpha in let sa := msin alpha in
  let cb := mcos beta in let sb := msin beta in
  matrixDotMatrix [cb; sb; n0; - sb; cb; n0; n0; n0; n1] [ca; n0; sa; n0; n1; n0; - sa; n0; ca].

(** utils/createGrids2D.cpp:100-119: one node.  e0 and e1 are nj - 1 and ni - 1. *)
Definition rotated_node (m : list T) (e0 e1 j i : Z) : exec (T * T) :=
  let lat := - nofZ 90 + nofZ 180 * nofZ j / nofZ e0 in
  let the := mpi * lat / nofZ 180 in
  let lon := - nofZ 180 + nofZ 360 * nofZ i / nofZ e1 in
  let lam := mpi * lon / nofZ 180 in
  let rho := mcos the in
  let! xyz := matrixDotVector m [rho * mcos lam; rho * msin lam; msin the] in
  let! x := vget xyz 0 in let! y := vget xyz 1 in let! z := vget xyz 2 in
  Ret (nofZ 180 * masin z / mpi, nofZ 180 * matan2 y x / mpi).

(** utils/createGrids2D.cpp:64-124. *)
Definition createRotatedPoleGrid (d0 d1 : Z) (delta_lat delta_lon : T) (c : arrays) : exec arrays :=
  let! m := rotation delta_lat delta_lon in
  let! e0 := chk (d0 - 1)%Z in let! e1 := chk (d1 - 1)%Z in
  let! r := foldM (fun st j => foldM (fun (st : arrays * Z) i =>
      let! p := rotated_node m e0 e1 j i in
      let! c := store (fst st) (snd st) (fst p) (snd p) in Ret (c, wrap64 (snd st + 1)%Z))
    (range (wrap64 d1)) st) (range (wrap64 d0)) (c, 0%Z) in
  Ret (fst r).

(** ** Tripolar grid *)
(** cpp/SgTripolarGrid.h:12-26.  The member ntot is never written; coords are the addresses of the
    two vectors. *)
Record tripolar := mkTripolar {
  tp_dims : Z * Z;
  tp_cap : Z;
  tp_lats : list T;
  tp_lons : list T }.

(** cpp/SgTripolarGrid.h:33-42.  front() of an empty vector is undefined; a negative size ends in an
    exception, [Undef] here. *)
Definition tripolar_new (d0 d1 cap : Z) : exec tripolar :=
  let! n := chk (d0 * d1)%Z in
  if (n <=? 0)%Z then Undef OutOfBounds else
  Ret (mkTripolar (d0, d1) cap (repeat n0 (Z.to_nat n)) (repeat n0 (Z.to_nat n))).

(** for (j = a; j < b; ++j). *)
Definition from_to (a b : Z) : list Z := map (fun k => a + k)%Z (range (b - a)%Z).

(** 180./M_PI *)
Definition to_deg : T := nofZ 180 / mpi.

(** cpp/SgTripolarGrid.h:66-77: one node of the rows below the cap: (lon, lat).  The value in radian
    is stored and then multiplied in place; here the product is stored. *)
Definition tp_low (di dj : T) (j i : Z) : T * T :=
  let pc0 := - lit 5 10 * mpi in
  let elc0 := - mpi in
  ((elc0 + nofZ i * di) * to_deg, (pc0 + nofZ j * dj) * to_deg).

(** cpp/SgTripolarGrid.h:88-93, 103-108: a node of the cap from the angles pc and elc. *)
Definition tp_node (latPerim pc elc : T) : T * T :=
  let lon := n0 - matan2 (msin elc) (mtan pc) in
  let lat := lit 5 10 * mpi - n2 * matan (mtan (latPerim / n2) * mtan (lit 5 10 * macos (mcos elc * mcos pc))) in
  (lon * to_deg, lat * to_deg).

(** cpp/SgTripolarGrid.h:82-95: the first half of a row of the cap. *)
Definition tp_first (cap : Z) (latPerim di dj : T) (j i : Z) : T * T :=
  let pc0 := - (mpi / n2) in
  let elc0 := mpi / n2 in
  tp_node latPerim (pc0 + nofZ i * di) (elc0 - nofZ (j - cap)%Z * dj).

(** cpp/SgTripolarGrid.h:97-110: the second half.  n0' is dims[0]. *)
Definition tp_second (cap : Z) (latPerim di dj : T) (n0' j i : Z) : T * T :=
  let pc0 := - (mpi / n2) in
  let elc0 := - (mpi / n2) in
  tp_node latPerim (pc0 + nofZ (n0' - i - 1)%Z * di) (elc0 + (n1 - lit 1 (10 ^ 10)) * nofZ (j - cap)%Z * dj).

(** One of the three double loops.  Indices are computed in int: i + j*dims[0]. *)
Definition tp_rows (n : Z) (js is : list Z) (f : Z -> Z -> T * T) (s : arrays) : exec arrays :=
  foldM (fun s j => foldM (fun s i =>
      let! p := chk (j * n)%Z in let! k := chk (i + p)%Z in
      store s k (fst (f j i)) (snd (f j i))) is s) js s.

(** cpp/SgTripolarGrid.h:55-111.  The result: the dimensions given to the caller and the object; the
    coordinates given to the caller are the vectors lats and lons.  Differences of int that are
    covered by the checks on dims and on the index are not checked again. *)
Definition tripolar_getGrid (s : tripolar) : exec ((Z * Z) * tripolar) :=
  let n1' := fst (tp_dims s) in
  let n0' := snd (tp_dims s) in
  let cap := tp_cap s in
  let! e0 := chk (n0' - 1)%Z in let! e1 := chk (n1' - 1)%Z in
  let di := n2 * mpi / nofZ e0 in
  let dj := mpi / nofZ e1 in
  let! a := tp_rows n0' (range cap) (range n0') (tp_low di dj) (tp_lons s, tp_lats s) in
  let latPerim := mpi - nofZ cap * dj in
  let! q := chk (n1' - cap)%Z in let! e := chk (q - 1)%Z in
  let dj := (lit 5 10 * mpi) / nofZ e in
  let! b := tp_rows n0' (from_to cap n1') (range (Z.quot n0' 2)) (tp_first cap latPerim di dj) a in
  let! d := tp_rows n0' (from_to cap n1') (from_to (Z.quot n0' 2) n0') (tp_second cap latPerim di dj n0') b in
  Ret ((n0', n1'), mkTripolar (tp_dims s) cap (snd d) (fst d)).

End Grids.
Arguments tripolar : clear implicits.
Arguments arrays : clear implicits.
