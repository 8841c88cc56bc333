(** IEEE 754 binary64 (round to nearest even) as an instance of [Num], through the
    axiom-free operations of the standard library's SpecFloat.  Used for concrete
    runs with [vm_compute]. *)
From Coq Require Import ZArith Bool Floats.SpecFloat.
From Verif Require Import Base Num.
Open Scope Z_scope.

Definition fprec : Z := 53.
Definition femax : Z := 1024.

Definition F_ofZ (z : Z) : spec_float :=
  match z with
  | Z0 => S754_zero false
  | Zpos _ => binary_normalize fprec femax z 0 false
  | Zneg _ => binary_normalize fprec femax z 0 true
  end.

(** floor: exact on finite doubles, identity on zeros, infinities, NaN. *)
Definition F_floor (x : spec_float) : spec_float :=
  match x with
  | S754_finite s m e =>
      if 0 <=? e then x
      else let z := (if s then Zneg m else Zpos m) / 2 ^ (- e) in
           match z with
           | Z0 => S754_zero s
           | _ => F_ofZ z
           end
  | _ => x
  end.

Definition F_toZ (x : spec_float) : option Z :=
  match x with
  | S754_zero _ => Some 0
  | S754_finite s m e =>
      let a := if 0 <=? e then Zpos m * 2 ^ e else Zpos m / 2 ^ (- e) in
      Some (if s then - a else a)
  | _ => None
  end.

(** fmod: exact remainder with the sign of the first argument. *)
Definition F_fmod (x y : spec_float) : spec_float :=
  match x, y with
  | S754_nan, _ | _, S754_nan | S754_infinity _, _ | _, S754_zero _ => S754_nan
  | S754_zero _, _ => x
  | _, S754_infinity _ => x
  | S754_finite sx mx ex, S754_finite _ my ey =>
      let e := Z.min ex ey in
      let a := Zpos mx * 2 ^ (ex - e) in
      let b := Zpos my * 2 ^ (ey - e) in
      let r := a mod b in
      if r =? 0 then S754_zero sx
      else binary_normalize fprec femax (if sx then - r else r) e sx
  end.

#[global] Instance NumF : Num spec_float := {|
  nadd := SFadd fprec femax;
  nsub := SFsub fprec femax;
  nmul := SFmul fprec femax;
  ndiv := SFdiv fprec femax;
  nopp := SFopp;
  nabs := SFabs;
  nsqrt := SFsqrt fprec femax;
  nfloor := F_floor;
  nfmod := F_fmod;
  nlt := SFltb;
  nle := SFleb;
  neq := SFeqb;
  nofZ := F_ofZ;
  ntoZ := F_toZ |}.

(** Spot checks of the instance (tests, not theorems about sigrid). *)
Example F_third : lit (T := spec_float) 1 10 = S754_finite false 7205759403792794 (-56).
Proof. vm_compute. reflexivity. Qed.
Example F_floor_neg : F_floor (lit (-5) 2) = F_ofZ (-3).
Proof. vm_compute. reflexivity. Qed.
Example F_fmod_ex : F_fmod (lit (-11) 2) (F_ofZ 2) = lit (-3) 2.
Proof. vm_compute. reflexivity. Qed.
