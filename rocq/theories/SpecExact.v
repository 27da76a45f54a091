(** * SpecExact: numbers that are not floats (no algorithms) *)
From Coq Require Import ZArith List String Bool.
From Verif Require Import Base Float Rational SmartNum Ast Compute Spec.

(** the number is stored as an integer or a fraction *)
Definition not_float (n : snum) : Prop := match nval n with Real _ => False | _ => True end.
(** the number is stored as an integer *)
Definition integer_num (n : snum) : Prop := match nval n with Integer _ => True | _ => False end.
(** every number in [e] is stored as an integer or a fraction *)
Definition exact_literals (e : expr) : Prop :=
  forall n c, subterm (Expr (Operand (Num n)) c) e -> not_float n.

(** numbers built by the API from integers and fractions *)
Inductive exact_api (m : mode) : snum -> Prop :=
| Ex_i64 z : in_i64 z = true -> exact_api m (sn_of_i64 z)
| Ex_u64 z x : in_u64 z = true -> sn_of_u64 m z = Ok x -> exact_api m x
| Ex_rational s n d x : in_i64 s = true -> in_u64 n = true -> in_u64 d = true ->
    sn_new_rational m s n d = Ok (Some x) -> exact_api m x
| Ex_zero : exact_api m sn_zero
| Ex_one : exact_api m sn_one
| Ex_neg x z : exact_api m x -> sn_neg m x = Ok z -> exact_api m z
| Ex_add x y z : exact_api m x -> exact_api m y -> sn_add m x y = Ok z -> exact_api m z
| Ex_sub x y z : exact_api m x -> exact_api m y -> sn_sub m x y = Ok z -> exact_api m z
| Ex_mul x y z : exact_api m x -> exact_api m y -> sn_mul m x y = Ok z -> exact_api m z
| Ex_div x y z : exact_api m x -> exact_api m y -> sn_div m x y = Ok z -> exact_api m z.
