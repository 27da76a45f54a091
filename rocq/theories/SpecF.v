(** * SpecF: what "correctly rounded" means, in terms of real numbers only *)
From Coq Require Import ZArith QArith List Bool.
From Coq Require Import Reals Qreals.
From Coq Require Import Floats.SpecFloat.
From Verif Require Import Base Float Rational SmartNum Ast Spec.
Open Scope R_scope.

(** the two builds of the program (as opposed to the observer mode [Strict]) *)
Definition real_build (m : mode) : Prop := m = Debug \/ m = Release.

(** neither NaN nor infinite *)
Definition f_finite (f : f64) : Prop :=
  match f with S754_zero _ | S754_finite _ _ _ => True | _ => False end.

(** the exact real value of a finite float *)
Definition fR (f : f64) : R := match f_val f with Some q => Q2R q | None => 0 end.

(** the last bit of the mantissa is 0 *)
Definition f_even (f : f64) : Prop :=
  match f with S754_finite _ mant _ => Z.even (Zpos mant) = true | _ => True end.

(** the IEEE-754 overflow threshold: the largest f64 plus half a unit in its last place *)
Definition overflow64 : R := IZR (2 ^ 1024 - 2 ^ 970).

(** [f] is the IEEE-754 round-to-nearest, ties-to-even binary64 result for the exact real
    result [r]: no f64 is closer to [r]; if another f64 is equally close, [f] is the even
    one; results beyond the threshold become the infinity of the right sign. *)
Definition rounds_to (r : R) (f : f64) : Prop :=
  is_f64 f /\
  (Rabs r < overflow64 ->
     f_finite f /\
     forall g, is_f64 g -> f_finite g ->
       Rabs (fR f - r) <= Rabs (fR g - r) /\
       (Rabs (fR f - r) = Rabs (fR g - r) -> fR f = fR g \/ f_even f)) /\
  (overflow64 <= r -> f = S754_infinity false) /\
  (r <= - overflow64 -> f = S754_infinity true).

(** the number is stored as an f64 *)
Definition f64_backed (x : snum) : Prop := exists f, nval x = Real f.
