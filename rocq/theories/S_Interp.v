(** Specification vocabulary for interpolation weights. *)
From Coq Require Import ZArith List.
From Verif Require Import Base Num.
Import ListNotations.
Open Scope Z_scope.

(** ((0 + w_1 f_1) + w_2 f_2) + ..., undefined if a node number is not valid. *)
Definition weighted {T} {N : Num T} (iw : list (Z * T)) (field : list T) : exec T :=
  foldM (fun acc (kw : Z * T) => let! f := vget field (fst kw) in Ret (nadd acc (nmul (snd kw) f))) iw n0.

(** Weighted source coordinates are within tolpos of destination node k. *)
Definition located {T} {N : Num T} (coords : list (list T)) (tol : T) (dc : list T) (k : Z) (iw : list (Z * T)) : Prop :=
  exists x y px py, vget dc (k * 2) = Ret x /\ vget dc (k * 2 + 1) = Ret y /\
    weighted iw (nth 0 coords []) = Ret px /\ weighted iw (nth 1 coords []) = Ret py /\
    nlt (nsqrt (nadd (nadd n0 (nmul (nsub px x) (nsub px x))) (nmul (nsub py y) (nsub py y)))) tol = true.

From Coq Require Import Reals.
From Verif Require Import S_Grid.

(** Non negative weights of nodes among [size], with sum one. *)
Definition convex_weights (size : Z) (iw : list (Z * R)) : Prop :=
  (forall k w, In (k, w) iw -> 0 <= k < size /\ (0 <= w <= 1)%R) /\ lsum (map snd iw) = 1%R.
