(** * SpecWrap: fractions modulo 2^64 (specification for C86) *)
From Coq Require Import ZArith.
From Verif Require Import Base Float Rational SmartNum Spec.
Open Scope Z_scope.

(** the numerator of an exact number with its sign *)
Definition signed_num (x : snum) : Z := sn_sign x * num_of x.

(** S is the i64, U the u64 congruent to N modulo 2^64 *)
Definition i64_of (N S : Z) : Prop := - 2 ^ 63 <= S < 2 ^ 63 /\ exists k, S = N + k * 2 ^ 64.
Definition u64_of (N U : Z) : Prop := 0 <= U < 2 ^ 64 /\ exists k, U = N + k * 2 ^ 64.

(** z is the fraction S/D cancelled to lowest terms; 0/0 stays 0/0 *)
Definition lowest_form (z : snum) (S D : Z) : Prop :=
  (exists g, 0 < g /\ S = g * signed_num z /\ D = g * den_of z) /\
  (Z.gcd (num_of z) (den_of z) = 1 \/ (num_of z = 0 /\ den_of z = 0)).

(** the number is a fraction (not an integer, not a float) *)
Definition is_fraction (x : snum) : Prop := exists r, nval x = Rational r.
