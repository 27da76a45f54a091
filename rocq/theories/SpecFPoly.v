(** * SpecFPoly: positive polynomials with floating-point coefficients (C92) *)
From Coq Require Import ZArith List String Bool.
From Coq Require Import Reals.
From Verif Require Import Base Float Rational SmartNum Ast Spec SpecR SpecF SpecAcc.
Open Scope R_scope.

(** a number written by the user: a positive f64 between 2^-B and 2^B, an integer between 0
    and 2^B, pi or e *)
Inductive plain_num (B : nat) : snum -> Prop :=
| pn_f64 f : is_f64 f -> f_finite f -> / 2 ^ B <= fR f <= 2 ^ B -> plain_num B (sn_of_f64 f)
| pn_int z : (0 <= z <= 2 ^ Z.of_nat B)%Z -> in_i64 z = true -> plain_num B (sn_of_i64 z)
| pn_pi : plain_num B sn_pi
| pn_e : plain_num B sn_e.

(** [fpoly B e d l c h]: [e] is built with + and * from such numbers and variables;
    [d]: the largest number of leaves multiplied together;
    [l]: the largest number of sums along such products;
    [c]: the most roundings one simplification can pile up (three for each operation: one
         for each operand that is an integer or a constant, one for the result);
    [h]: the most roundings one differentiation adds. *)
Inductive fpoly (B : nat) : expr -> nat -> nat -> nat -> nat -> Prop :=
| fp_num n : plain_num B n -> fpoly B (e_num n) 1 0 0 0
| fp_var y : fpoly B (e_var y) 1 0 0 0
| fp_add a b d l c h d' l' c' h' : fpoly B a d l c h -> fpoly B b d' l' c' h' ->
    fpoly B (e_add a b) (max d d') (S (max l l')) (3 + max c c') (max h h')
| fp_mul a b d l c h d' l' c' h' : fpoly B a d l c h -> fpoly B b d' l' c' h' ->
    fpoly B (e_mul a b) (d + d') (l + l') (3 + (c + c')) (3 + max h h').

(** all variables have values >= 0 *)
Definition nonneg (rho : string -> R) : Prop := forall y, 0 <= rho y.

(** [v'] is [v] up to [k] roundings to the nearest f64 *)
Definition rounded (k : nat) (v v' : R) : Prop :=
  exists t, v' = v * t /\ (1 - ulp_half) ^ k <= t <= / (1 - ulp_half) ^ k.
