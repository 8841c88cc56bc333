(** Specification vocabulary for polar grids with the centre: M sectors of angle 2 PI / M. *)
From Coq Require Import ZArith List Reals.
From Verif Require Import S_Geometry S_Quad S_Flow.
Open Scope R_scope.

(** Angle of a sector. *)
Definition sector_angle (M : Z) : R := 2 * PI / IZR M.

(** Node (i, j): at the distance radius i / K from the centre, in the direction j. *)
Definition disc_x (K M : Z) (radius : R) (i j : Z) : R := radius * IZR i / IZR K * cos (IZR j * sector_angle M).
Definition disc_y (K M : Z) (radius : R) (i j : Z) : R := radius * IZR i / IZR K * sin (IZR j * sector_angle M).

(** Number of turns at the angle th as seen on the regular polygon with M corners: on each side the
    distance from the corner, divided by the perimeter.  At the point of the side in the direction d
    from its first corner the distance is sin d / (sin d + sin (a - d)) sides. *)
Definition polygon_turns (M : Z) (th : R) : R :=
  let a := sector_angle M in
  let s := th / a in
  let j := IZR (Int_part s) in
  let d := th - j * a in
  (j + sin d / (sin d + sin (a - d))) / IZR M.

(** th t is an angle of the point at t of the segment A B, continuous in t; the segment stays at the
    distance rho from the centre. *)
Definition angle_along (rho : R) (A B : point) (th : R -> R) : Prop :=
  continuity th /\
  forall t, 0 <= t <= 1 -> exists r, rho <= r /\ on_seg A B t = (r * cos (th t), r * sin (th t)).
