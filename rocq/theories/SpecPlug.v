(** * SpecPlug: quotients of sums and products *)
From Coq Require Import ZArith List String Bool.
From Verif Require Import Base Float Rational SmartNum Ast Spec.

(** expressions built from numbers and variables with +, * and / *)
Inductive rational_expr : expr -> Prop :=
| re_num n : num_ok n -> rational_expr (e_num n)
| re_var y : rational_expr (e_var y)
| re_add a b : rational_expr a -> rational_expr b -> rational_expr (e_add a b)
| re_mul a b : rational_expr a -> rational_expr b -> rational_expr (e_mul a b)
| re_div a b : rational_expr a -> rational_expr b -> rational_expr (e_div a b).
