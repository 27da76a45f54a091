(** * SpecNaN: floats and NaN inside closed arithmetic (specification for C95) *)
From Coq Require Import ZArith List String Bool.
From Coq Require Import Floats.SpecFloat.
From Verif Require Import Base Float Rational SmartNum Ast Compute Spec.

(** the number is stored as f64; it is the f64 NaN *)
Definition is_float (n : snum) : Prop := exists f, nval n = Real f.
Definition is_nan (n : snum) : Prop := nval n = Real S754_nan.

(** the part simplifies to something that is not the exact zero *)
Definition nonzero_part (m : mode) (e : expr) : Prop :=
  exists z, num_aggregate m e = Ok z /\ is_zero z = false.

(** a literal with property [P] occurs in [e], and no factor or dividend on the way up is an
    exact zero (which would wipe it out: 0 * x = 0 and 0 / x = 0) *)
Inductive exposed (m : mode) (P : snum -> Prop) : expr -> Prop :=
| x_here n : P n -> exposed m P (e_num n)
| x_neg a : exposed m P a -> exposed m P (e_neg a)
| x_add_l a b : exposed m P a -> exposed m P (e_add a b)
| x_add_r a b : exposed m P b -> exposed m P (e_add a b)
| x_sub_l a b : exposed m P a -> exposed m P (e_sub a b)
| x_sub_r a b : exposed m P b -> exposed m P (e_sub a b)
| x_mul_l a b : exposed m P a -> nonzero_part m b -> exposed m P (e_mul a b)
| x_mul_r a b : nonzero_part m a -> exposed m P b -> exposed m P (e_mul a b)
| x_div_l a b : exposed m P a -> exposed m P (e_div a b)
| x_div_r a b : nonzero_part m a -> exposed m P b -> exposed m P (e_div a b).
