(** * SpecHeight: closed arithmetic of integers and fractions (specification for C83) *)
From Coq Require Import ZArith QArith List String.
From Verif Require Import Base Float Rational SmartNum Ast Spec.
Import ListNotations.
Open Scope Z_scope.

(** literals are integers or fractions with a nonzero denominator *)
Inductive exact_arith : expr -> Prop :=
| ea_num m n q : api_number m n -> exact_Q n = Some q -> exact_arith (e_num n)
| ea_neg a : exact_arith a -> exact_arith (e_neg a)
| ea_add a b : exact_arith a -> exact_arith b -> exact_arith (e_add a b)
| ea_sub a b : exact_arith a -> exact_arith b -> exact_arith (e_sub a b)
| ea_mul a b : exact_arith a -> exact_arith b -> exact_arith (e_mul a b)
| ea_div a b : exact_arith a -> exact_arith b -> exact_arith (e_div a b).

(** the larger of numerator (without sign) and denominator *)
Definition height_num (n : snum) : Z := Z.max 1 (Z.max (num_of n) (den_of n)).

(** bound for the height of the result: twice the product for + and -, the product for * and / *)
Fixpoint height (e : expr) : Z :=
  match e with
  | Expr (Operand (Num n)) _ => height_num n
  | Expr (Operator _) [a] => height a
  | Expr (Operator op) [a; b] =>
      match descriptor op with
      | OAdd | OSub => 2 * (height a * height b)
      | _ => height a * height b
      end
  | _ => 1
  end.
