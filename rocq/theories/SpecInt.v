(** * SpecInt: expressions with integer literals *)
From Coq Require Import ZArith List String Bool.
From Verif Require Import Base Float Rational SmartNum Ast Compute.
Import ListNotations.
Open Scope Z_scope.

(** [u] does not simplify to a number *)
Definition not_constant (u : expr) : Prop :=
  forall z, num_aggregate Debug u = Ok z -> is_num z = false.

(** expressions with i64 literals (no fractions, no f64, no pi or e) in which denominators,
    power bases and the arguments of exp and ln do not simplify to numbers *)
Inductive int_expr : expr -> Prop :=
| ie_num z : in_i64 z = true -> int_expr (e_of_i64 z)
| ie_var x : int_expr (e_var x)
| ie_neg a : int_expr a -> int_expr (e_neg a)
| ie_sin a : int_expr a -> int_expr (e_sin a)
| ie_cos a : int_expr a -> int_expr (e_cos a)
| ie_exp a : int_expr a -> not_constant a -> int_expr (e_exp a)
| ie_ln a : int_expr a -> not_constant a -> int_expr (e_ln a)
| ie_add a b : int_expr a -> int_expr b -> int_expr (e_add a b)
| ie_sub a b : int_expr a -> int_expr b -> int_expr (e_sub a b)
| ie_mul a b : int_expr a -> int_expr b -> int_expr (e_mul a b)
| ie_div a b : int_expr a -> int_expr b -> not_constant b -> int_expr (e_div a b)
| ie_pow a b : int_expr a -> not_constant a -> int_expr b -> int_expr (e_pow a b).

(** i64 literals and variables under + - * negation, sin and cos *)
Inductive trig_poly : expr -> Prop :=
| tp_num z : in_i64 z = true -> trig_poly (e_of_i64 z)
| tp_var x : trig_poly (e_var x)
| tp_neg a : trig_poly a -> trig_poly (e_neg a)
| tp_sin a : trig_poly a -> trig_poly (e_sin a)
| tp_cos a : trig_poly a -> trig_poly (e_cos a)
| tp_add a b : trig_poly a -> trig_poly b -> trig_poly (e_add a b)
| tp_sub a b : trig_poly a -> trig_poly b -> trig_poly (e_sub a b)
| tp_mul a b : trig_poly a -> trig_poly b -> trig_poly (e_mul a b).
