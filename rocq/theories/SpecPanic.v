(** * SpecPanic: a size for integer polynomials (specification for C82) *)
From Coq Require Import ZArith List String.
From Verif Require Import Base Float Rational SmartNum Ast.
Import ListNotations.
Open Scope Z_scope.

(** the sum of the absolute values of the coefficients one gets by multiplying out, where a
    literal 0 counts as 1 *)
Fixpoint weight (e : expr) : Z :=
  match e with
  | Expr (Operand (Num n)) _ => match sn_to_i64 n with Some z => Z.max 1 (Z.abs z) | None => 1 end
  | Expr (Operand (Var _)) _ => 1
  | Expr (Operator _) [a] => weight a
  | Expr (Operator op) [a; b] => match descriptor op with OMul => weight a * weight b | _ => weight a + weight b end
  | _ => 1
  end.

(** the largest number of factors (literals or variables) in one product after multiplying out *)
Fixpoint factors (e : expr) : Z :=
  match e with
  | Expr (Operator _) [a] => factors a
  | Expr (Operator op) [a; b] => match descriptor op with OMul => factors a + factors b | _ => Z.max (factors a) (factors b) end
  | _ => 1
  end.
