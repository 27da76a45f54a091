(** * SpecQuot: quotients and logarithms of integer expressions (C90) *)
From Coq Require Import ZArith List String Bool.
From Coq Require Import Reals.
From Verif Require Import Base Float Rational SmartNum Ast Spec SpecInt.

(** an integer expression (C66: i64 literals and variables under + - * negation, sin, cos), the
    quotient of two of them, or the logarithm of one *)
Inductive int_quotient : expr -> Prop :=
| iq_int p : trig_poly p -> int_quotient p
| iq_div p q : trig_poly p -> trig_poly q -> int_quotient (e_div p q)
| iq_ln p : trig_poly p -> int_quotient (e_ln p).

(** 1/(1-x) and ln(1+x) *)
Definition geometric (x : string) : expr := e_div (e_of_i64 1) (e_sub (e_of_i64 1) (e_var x)).
Definition log_series (x : string) : expr := e_ln (e_add (e_of_i64 1) (e_var x)).

(** coefficient number k of ln(1+x): 0, 1, -1/2, 1/3, ... *)
Definition ln_coef (k : nat) : R :=
  match k with O => 0 | S j => ((-1) ^ j / INR (S j))%R end.
