(** * SpecAcc: closed floating-point expressions, counting roundings *)
From Coq Require Import ZArith List Bool.
From Coq Require Import Reals.
From Verif Require Import Base Float Rational SmartNum Ast Spec SpecR SpecF.
Open Scope R_scope.

(** half a unit in the last place of 1.0: the relative error of one f64 operation *)
Definition ulp_half : R := / 2 ^ 53.

(** [float_expr e k]: [e] is built with +, * and / from positive f64 literals and the
    constants pi and e, and at most [k] roundings pile up on the way to any result: one for
    each stored constant and one for each operation (sums: the worse operand) *)
Inductive float_expr : expr -> nat -> Prop :=
| fx_lit f : is_f64 f -> f_finite f -> 0 < fR f -> float_expr (e_num (sn_of_f64 f)) 0
| fx_pi : float_expr (e_num sn_pi) 1
| fx_e : float_expr (e_num sn_e) 1
| fx_add a b i j : float_expr a i -> float_expr b j -> float_expr (e_add a b) (S (max i j))
| fx_mul a b i j : float_expr a i -> float_expr b j -> float_expr (e_mul a b) (S (i + j))
| fx_div a b i j : float_expr a i -> float_expr b j -> float_expr (e_div a b) (S (i + j)).

(** the exact values of the expression and of all its parts are far from over- and underflow *)
Definition moderate (e : expr) : Prop :=
  forall rho s v, subterm s e -> eval rho s = Some v -> / 2 ^ 1000 <= v <= 2 ^ 1000.

(** [sum_expr e k A]: [e] is built with +, - and negation from finite f64 literals of any
    sign; [k] roundings pile up at most; [A] is the sum of the literals' absolute values *)
Inductive sum_expr : expr -> nat -> R -> Prop :=
| sx_lit f : is_f64 f -> f_finite f -> sum_expr (e_num (sn_of_f64 f)) 0 (Rabs (fR f))
| sx_neg a i A : sum_expr a i A -> sum_expr (e_neg a) i A
| sx_add a b i j A B : sum_expr a i A -> sum_expr b j B -> sum_expr (e_add a b) (S (max i j)) (A + B)
| sx_sub a b i j A B : sum_expr a i A -> sum_expr b j B -> sum_expr (e_sub a b) (S (max i j)) (A + B).
