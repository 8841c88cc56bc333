(** Property theorems C01-C04: index iterators. *)
From Coq Require Import ZArith List.
From Verif Require Import Base M_BoxIterator M_SideIterator S_Box L_Box L_Side.
Import ListNotations.
Open Scope Z_scope.

(** C01. The box iterator enumerates the box exactly once. *)
Theorem C01_box_iterator_enumerates_once : forall beg en,
  length beg = length en ->
  (forall i, (i < length beg)%nat ->
     int_min <= nth i beg 0 < nth i en 0 /\ nth i en 0 <= int_max) ->
  volume beg en <= int_max ->
  exists b, box_new beg en = Ret b /\
    box_getNumberOfElements b = volume beg en /\
    (forall k, 0 <= k < volume beg en ->
       exists v, box_getElement b k = Ret v /\ in_box beg en v /\ box_getIndex b v = Ret k) /\
    (forall v, in_box beg en v ->
       exists k, 0 <= k < volume beg en /\ box_getIndex b v = Ret k /\ box_getElement b k = Ret v).
Proof. exact box_bijection. Qed.
Print Assumptions C01_box_iterator_enumerates_once.

Example C01_nonvacuous :
  let beg := [-2; 3; 0] in let en := [1; 5; 4] in
  volume beg en = 24 /\
  (exists b, box_new beg en = Ret b /\ box_getElement b 13 = Ret [-1; 4; 1] /\
             box_getIndex b [-1; 4; 1] = Ret 13).
Proof. split; [reflexivity|]. eexists. split; [vm_compute; reflexivity|]. split; vm_compute; reflexivity. Qed.

(** C02. Enumeration order is lexicographic. *)
Theorem C02_box_iterator_lexicographic : forall beg en,
  length beg = length en ->
  (forall i, (i < length beg)%nat ->
     int_min <= nth i beg 0 < nth i en 0 /\ nth i en 0 <= int_max) ->
  volume beg en <= int_max ->
  exists b, box_new beg en = Ret b /\
    forall k k' v v', 0 <= k < volume beg en -> 0 <= k' < volume beg en ->
      box_getElement b k = Ret v -> box_getElement b k' = Ret v' ->
      (k < k' <-> lex_lt v v').
Proof. exact box_lexicographic. Qed.
Print Assumptions C02_box_iterator_lexicographic.

Example C02_nonvacuous :
  exists b, box_new [-2; 3; 0] [1; 5; 4] = Ret b /\
    box_getElement b 3 = Ret [-2; 3; 3] /\ box_getElement b 4 = Ret [-2; 4; 0] /\
    lex_lt [-2; 3; 3] [-2; 4; 0].
Proof.
  eexists. split; [vm_compute; reflexivity|]. split; [vm_compute; reflexivity|].
  split; [vm_compute; reflexivity|]. apply lex_next, lex_here. reflexivity.
Qed.

(** C03, finding: a box with two inverted extents is empty but reports elements,
    and hands out index sets that are not in the box. *)
Theorem C03_inverted_box_refuted :
  exists beg en b v, length beg = length en /\
    (forall w, ~ in_box beg en w) /\
    box_new beg en = Ret b /\ box_getNumberOfElements b = 6 /\
    box_getElement b 3 = Ret v.
Proof.
  exists [2; 3], [0; 0]. eexists. eexists. split; [reflexivity|]. split.
  - intros w [_ H]. specialize (H 0%nat ltac:(repeat constructor)). simpl in H.
    destruct H as [H1 H2]. apply (Z.lt_irrefl 0).
    apply Z.lt_trans with 2; [reflexivity|]. apply Z.le_lt_trans with (nth 0 w 0); assumption.
  - split; [vm_compute; reflexivity|]. split; vm_compute; reflexivity.
Qed.
Print Assumptions C03_inverted_box_refuted.

(** C03, finding: asking for an element of a box with an empty extent divides by zero. *)
Theorem C03_empty_box_element_refuted :
  exists beg en b, box_new beg en = Ret b /\ box_getElement b 0 = Undef DivByZero.
Proof. exists [0; 0], [2; 0]. eexists. split; [vm_compute; reflexivity|]. vm_compute. reflexivity. Qed.
Print Assumptions C03_empty_box_element_refuted.

(** C03, what holds: if an extent is zero the count is zero.  Missing: boxes whose
    negative extents are even in number (see the refutation above). *)
Theorem C03_empty_box_count_partial : forall beg en b, length beg = length en ->
  (exists i, (i < length beg)%nat /\ nth i beg 0 = nth i en 0) ->
  box_new beg en = Ret b -> box_getNumberOfElements b = 0.
Proof. exact box_empty_count. Qed.
Print Assumptions C03_empty_box_count_partial.

Example C03_nonvacuous : exists b, box_new [0; 7; 1] [3; 7; 4] = Ret b.
Proof. eexists. vm_compute. reflexivity. Qed.

(** C04. The side iterator visits each of the 3^n sides once. *)
Theorem C04_side_iterator_enumerates_once : forall n : nat, (0 < n)%nat ->
  3 ^ Z.of_nat n < 2 ^ 64 ->
  exists s0, side_new n = Ret s0 /\
    side_getNumberOfElements s0 = 3 ^ Z.of_nat n /\
    (forall k, (k <= Z.to_nat (3 ^ Z.of_nat n))%nat ->
       forall j, (j < k)%nat ->
       nth j (fst (side_run k s0)) 9 = if Z.of_nat j + 1 <? 3 ^ Z.of_nat n then 0 else 1) /\
    (forall k, (k < Z.to_nat (3 ^ Z.of_nat n))%nat ->
       exists v, side_get (snd (side_run k s0)) = Ret v /\ length v = n /\
                 (forall x, In x v -> x = -1 \/ x = 0 \/ x = 1)) /\
    (forall v, length v = n -> (forall x, In x v -> x = -1 \/ x = 0 \/ x = 1) ->
       exists! k, (k < Z.to_nat (3 ^ Z.of_nat n))%nat /\ side_get (snd (side_run k s0)) = Ret v) /\
    (forall k, (k <= Z.to_nat (3 ^ Z.of_nat n))%nat -> side_reset (snd (side_run k s0)) = s0).
Proof. exact side_enumeration. Qed.
Print Assumptions C04_side_iterator_enumerates_once.

Example C04_nonvacuous :
  exists s0, side_new 2 = Ret s0 /\ fst (side_run 9 s0) = [0; 0; 0; 0; 0; 0; 0; 0; 1] /\
    side_get (snd (side_run 5 s0)) = Ret [0; 1].
Proof. eexists. split; [reflexivity|]. split; vm_compute; reflexivity. Qed.
