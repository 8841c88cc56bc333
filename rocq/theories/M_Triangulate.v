(** Model of cpp/SgTriangulate.h (struct SgTriangulate_type).
    Flat coordinate arrays are lists of pairs; indices are [nat] ([size_t] without
    wrap-around: numbers of points are far below 2^63). *)
From Coq Require Import ZArith List Bool.
From Verif Require Import Base Num.
Import ListNotations.

(** std::set of index vectors of the same length: lexicographically sorted lists. *)
Fixpoint lexb (a b : list nat) : bool :=
  match a, b with
  | [], _ :: _ => true
  | x :: a', y :: b' => (x <? y)%nat || ((x =? y)%nat && lexb a' b')
  | _, _ => false
  end.
Fixpoint eqlb (a b : list nat) : bool :=
  match a, b with
  | [], [] => true
  | x :: a', y :: b' => (x =? y)%nat && eqlb a' b'
  | _, _ => false
  end.
(** std::set::insert. *)
Fixpoint set_insert (x : list nat) (s : list (list nat)) : list (list nat) :=
  match s with
  | [] => [x]
  | y :: s' => if lexb x y then x :: s else if eqlb x y then s else y :: set_insert x s'
  end.

Section Triangulate.
Context {T : Type} {N : Num T}.
Local Open Scope num_scope.

(** A point: the entries 2 i and 2 i + 1 of the array points, cpp/SgTriangulate.h:62-74. *)
Definition pt := (T * T)%type.
Definition pt0 : pt := (n0, n0).

(** cpp/SgTriangulate.h:62-74.  [tr_buf] is the memory block of the vector points: the
    [tr_size] points in use, then the old values left behind when the vector shrinks
    (libstdc++ and libc++ copy into the existing block).  [tr_junk] is the memory behind
    the block.  [tr_oob] records a read at or after [tr_size]. *)
Record tri := mkTri {
  tr_buf : list pt;
  tr_size : nat;
  tr_junk : nat -> pt;
  tr_edges : list (list nat);
  tr_tris : list (list nat);
  tr_oob : bool }.

(** cpp/SgTriangulate.h:79. *)
Definition tr_eps : T := lit 1 1000000000000.

(** points[i*2], points[i*2+1]. *)
Definition tr_pt (s : tri) (i : nat) : pt := nth i (tr_buf s) (tr_junk s i).

(** cpp/SgTriangulate.h:237-246, as a function of the three points. *)
Definition cross (p0 p1 p2 : pt) : T :=
  (fst p1 - fst p0) * (snd p2 - snd p0) - (snd p1 - snd p0) * (fst p2 - fst p0).

(** cpp/SgTriangulate.h:237-246. *)
Definition tr_area3 (s : tri) (i0 i1 i2 : nat) : T := cross (tr_pt s i0) (tr_pt s i1) (tr_pt s i2).

(** Bookkeeping of reads past the end of the vector points; not in the code. *)
Definition tr_out (s : tri) (is : list nat) : bool := existsb (fun i => (tr_size s <=? i)%nat) is.
Definition tr_flag (s : tri) (is : list nat) : tri :=
  mkTri (tr_buf s) (tr_size s) (tr_junk s) (tr_edges s) (tr_tris s) (tr_oob s || tr_out s is).

(** cpp/SgTriangulate.h:32-41. *)
Definition gravity (n : nat) (points : list pt) : pt :=
  fold_left (fun g p => (fst g + fst p / nofZ (Z.of_nat n), snd g + snd p / nofZ (Z.of_nat n)))
    (firstn n points) (n0, n0).

(** cpp/SgTriangulate.h:43-50. *)
Definition dist_center (g p : pt) : T :=
  let dx := fst p - fst g in let dy := snd p - snd g in
  n0 + dx * dx + dy * dy.

(** cpp/SgTriangulate.h:52-58. *)
Definition closer (g : pt) (points : list pt) (i j : nat) : bool :=
  dist_center g (nth i points pt0) <? dist_center g (nth j points pt0).

(** cpp/SgTriangulate.h:113-121. *)
Definition dist_sq (p q : pt) : T :=
  let dx := fst q - fst p in let dy := snd q - snd p in
  n0 + dx * dx + dy * dy.

(** cpp/SgTriangulate.h:139-151: [base] is the last point kept. *)
Fixpoint keep_distinct (base : pt) (ps : list pt) : list pt :=
  match ps with
  | [] => []
  | p :: ps' => if dist_sq base p >? tr_eps then p :: keep_distinct p ps' else keep_distinct base ps'
  end.

(** cpp/SgTriangulate.h:124-154. *)
Definition remove_degenerate (ps : list pt) : list pt :=
  match ps with [] => [] | p :: ps' => p :: keep_distinct p ps' end.

(** cpp/SgTriangulate.h:171-176. *)
Definition dot_at (pc pa pb : pt) : T :=
  n0 + (fst pa - fst pc) * (fst pb - fst pc) + (snd pa - snd pc) * (snd pb - snd pc).

(** cpp/SgTriangulate.h:156-183. *)
Definition tr_extrema (s : tri) (i0 i1 i2 : nat) : nat * nat :=
  let d c a b := dot_at (tr_pt s c) (tr_pt s a) (tr_pt s b) in
  if n1 >? tr_eps then
    if d i0 i1 i2 >? tr_eps then
      if d i1 i2 i0 >? tr_eps then (i0, i1)
      else (i2, i0)
    else (i1, i2)
  else (0%nat, 0%nat).

(** cpp/SgTriangulate.h:198-206: the loop, started with the area of its indices.
    [fuel] bounds the number of turns (the number of points is enough). *)
Fixpoint tr_firstLoop (fuel : nat) (s : tri) (i0 i1 i2 : nat) (area : T) : tri * (nat * nat * nat) * T :=
  match fuel with
  | O => (s, (i0, i1, i2), area)
  | S fuel' =>
      if (i2 <? tr_size s)%nat && (area <? tr_eps) then
        let e := tr_extrema s i0 i1 i2 in
        let s := tr_flag s [i0; i1; i2; fst e; snd e; S i2] in
        tr_firstLoop fuel' s (fst e) (snd e) (S i2) (nabs (tr_area3 s (fst e) (snd e) (S i2)))
      else (s, (i0, i1, i2), area)
  end.

(** cpp/SgTriangulate.h:185-235: the new object and the index after the one returned. *)
Definition tr_makeFirst (s : tri) : tri * nat :=
  if (tr_size s <? 3)%nat then (s, tr_size s)
  else
    let '(s, (i0, i1, i2), area) :=
      tr_firstLoop (S (tr_size s)) s 0 1 2 (nabs (tr_area3 s 0 1 2)) in
    if area <? tr_eps then (s, S i2)
    else
      (* cpp/SgTriangulate.h:248-257 *)
      let '(j1, j2) := if tr_area3 s i0 i1 i2 <? - tr_eps then (i2, i1) else (i1, i2) in
      (mkTri (tr_buf s) (tr_size s) (tr_junk s)
         (set_insert [j2; i0] (set_insert [j1; j2] (set_insert [i0; j1] (tr_edges s))))
         (set_insert [i0; j1; j2] (tr_tris s)) (tr_oob s), S i2).

(** edge[0] and edge[1], cpp/SgTriangulate.h:259-265. *)
Definition ends (e : list nat) : nat * nat := (nth 0 e 0%nat, nth 1 e 0%nat).

(** cpp/SgTriangulate.h:259-265. *)
Definition tr_visible (s : tri) (ip : nat) (e : list nat) : bool :=
  tr_area3 s ip (fst (ends e)) (snd (ends e)) <? - tr_eps.

(** cpp/SgTriangulate.h:278-321.  The temporary sets are the visible edges and their
    replacements. *)
Definition tr_addPoint (s : tri) (ip : nat) : tri :=
  let vis := filter (tr_visible s ip) (tr_edges s) in
  let tris := fold_left (fun t e => set_insert [fst (ends e); ip; snd (ends e)] t) vis (tr_tris s) in
  let rest := filter (fun e => negb (tr_visible s ip e)) (tr_edges s) in
  let add := flat_map (fun e => [[fst (ends e); ip]; [ip; snd (ends e)]]) vis in
  mkTri (tr_buf s) (tr_size s) (tr_junk s) (fold_left (fun es e => set_insert e es) add rest) tris
    (tr_oob s || match tr_edges s with [] => false | _ => tr_out s (ip :: concat (tr_edges s)) end).

(** cpp/SgTriangulate.h:76-112.  [srt] is std::sort. *)
Definition tr_new (srt : (nat -> nat -> bool) -> list nat -> list nat) (junk : nat -> pt)
  (n : nat) (points : list pt) : tri :=
  let inds := srt (closer (gravity n points) points) (seq 0 n) in
  let sorted := map (fun i => nth i points pt0) inds in
  let kept := remove_degenerate sorted in
  let s := mkTri (kept ++ skipn (length kept) sorted) (length kept) junk [] [] false in
  let '(s, start) := tr_makeFirst s in
  fold_left tr_addPoint (seq start (n - start)) s.

(** cpp/SgTriangulate.h:267-275. *)
Definition tr_hullArea (s : tri) : T :=
  fold_left (fun a t => a + tr_area3 s (nth 0 t 0%nat) (nth 1 t 0%nat) (nth 2 t 0%nat)) (tr_tris s) n0 * nhalf.

End Triangulate.
Arguments pt : clear implicits.

(** A concrete sort for runs: insertion sort. *)
Fixpoint ins (lt : nat -> nat -> bool) (x : nat) (l : list nat) : list nat :=
  match l with
  | [] => [x]
  | y :: l' => if lt y x then y :: ins lt x l' else x :: l
  end.
Definition isort (lt : nat -> nat -> bool) (l : list nat) : list nat := fold_right (ins lt) [] l.
