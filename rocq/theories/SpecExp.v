(** * SpecExp: integer expressions with exponentials (C91) *)
From Coq Require Import ZArith List String Bool.
From Coq Require Import Reals.
From Verif Require Import Base Float Rational SmartNum Ast Spec SpecR.

(** i64 literals and variables under + - * negation, sin, cos and exp *)
Inductive exp_poly : expr -> Prop :=
| xp_num z : in_i64 z = true -> exp_poly (e_of_i64 z)
| xp_var x : exp_poly (e_var x)
| xp_neg a : exp_poly a -> exp_poly (e_neg a)
| xp_sin a : exp_poly a -> exp_poly (e_sin a)
| xp_cos a : exp_poly a -> exp_poly (e_cos a)
| xp_exp a : exp_poly a -> exp_poly (e_exp a)
| xp_add a b : exp_poly a -> exp_poly b -> exp_poly (e_add a b)
| xp_sub a b : exp_poly a -> exp_poly b -> exp_poly (e_sub a b)
| xp_mul a b : exp_poly a -> exp_poly b -> exp_poly (e_mul a b).

(** one of these, the quotient of two, or the logarithm of one *)
Inductive exp_quotient : expr -> Prop :=
| xq_poly p : exp_poly p -> exp_quotient p
| xq_div p q : exp_poly p -> exp_poly q -> exp_quotient (e_div p q)
| xq_ln p : exp_poly p -> exp_quotient (e_ln p).

(** no exponent in [e] has the value 1 at [rho] (exp(1) is the number e, which the library
    stores as a rounded float) *)
Definition no_exponent_one (rho : string -> R) (e : expr) : Prop :=
  forall u, subterm (e_exp u) e -> eval rho u <> Some 1%R.

(** exp(-x*x) and exp(x)/(1-x) *)
Definition gauss (x : string) : expr := e_exp (e_neg (e_mul (e_var x) (e_var x))).
Definition exp_geometric (x : string) : expr := e_div (e_exp (e_var x)) (e_sub (e_of_i64 1) (e_var x)).
