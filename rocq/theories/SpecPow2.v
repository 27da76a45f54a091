(** * SpecPow2: integer expressions with exponentials and integer powers (C100) *)
From Coq Require Import ZArith List String Bool.
From Coq Require Import Reals.
From Verif Require Import Base Float Rational SmartNum Ast Spec SpecR.

(** i64 literals and variables under + - * negation, sin, cos, exp and powers whose exponent is an
    i64 literal (of any sign) *)
Inductive pow_poly : expr -> Prop :=
| pp_num z : in_i64 z = true -> pow_poly (e_of_i64 z)
| pp_var x : pow_poly (e_var x)
| pp_neg a : pow_poly a -> pow_poly (e_neg a)
| pp_sin a : pow_poly a -> pow_poly (e_sin a)
| pp_cos a : pow_poly a -> pow_poly (e_cos a)
| pp_exp a : pow_poly a -> pow_poly (e_exp a)
| pp_add a b : pow_poly a -> pow_poly b -> pow_poly (e_add a b)
| pp_sub a b : pow_poly a -> pow_poly b -> pow_poly (e_sub a b)
| pp_mul a b : pow_poly a -> pow_poly b -> pow_poly (e_mul a b)
| pp_pow a z : pow_poly a -> in_i64 z = true -> pow_poly (e_pow a (e_of_i64 z)).

(** one of these, the quotient of two, or the logarithm of one *)
Inductive pow_quotient : expr -> Prop :=
| pq_poly p : pow_poly p -> pow_quotient p
| pq_div p q : pow_poly p -> pow_poly q -> pow_quotient (e_div p q)
| pq_ln p : pow_poly p -> pow_quotient (e_ln p).

(** at [rho] no exponent of exp has the value 1 and every power base has a value other than 0 and 1
    (num_aggregate simplifies 0^n to 1 and 1^n to n, C21) *)
Definition exponents_fine (rho : string -> R) (e : expr) : Prop :=
  forall u, subterm (e_exp u) e -> eval rho u <> Some 1%R.
Definition bases_fine (rho : string -> R) (e : expr) : Prop :=
  forall u b, subterm (e_pow u b) e -> exists v, eval rho u = Some v /\ v <> 0%R /\ v <> 1%R.
