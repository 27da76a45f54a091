(** * SpecTree: vocabulary of the statements about expression trees (no algorithms) *)
From Coq Require Import ZArith List String Bool.
From Verif Require Import Base Float Rational SmartNum Ast Compute Limit Spec.
Import ListNotations.
Open Scope Z_scope.
Open Scope res_scope.

(** the four arithmetic operators and negation *)
Definition arith (t : optype) : bool :=
  match t with ONeg | OAdd | OSub | OMul | ODiv => true | _ => false end.

(** no arithmetic node of [z] has only numbers as operands *)
Definition folded (z : expr) : Prop :=
  forall op c, subterm (Expr (Operator op) c) z -> arith (descriptor op) = true ->
    forallb is_num c = false.

(** expressions built from numbers only, with + - * / and negation *)
Inductive closed_arith : expr -> Prop :=
| ca_num n : num_ok n -> closed_arith (e_num n)
| ca_neg a : closed_arith a -> closed_arith (e_neg a)
| ca_add a b : closed_arith a -> closed_arith b -> closed_arith (e_add a b)
| ca_sub a b : closed_arith a -> closed_arith b -> closed_arith (e_sub a b)
| ca_mul a b : closed_arith a -> closed_arith b -> closed_arith (e_mul a b)
| ca_div a b : closed_arith a -> closed_arith b -> closed_arith (e_div a b).

(** calling [num_aggregate] [k] times in a row *)
Fixpoint agg_iter (m : mode) (k : nat) (e : expr) : res expr :=
  match k with O => Ok e | S k' => let* z := num_aggregate m e in agg_iter m k' z end.

(** calling [derivative] with the same variable [k] times in a row *)
Fixpoint deriv_n (m : mode) (x : string) (k : nat) (e : expr) : res expr :=
  match k with O => Ok e | S k' => let* d := deriv m x e in deriv_n m x k' d end.

(** k! as an integer *)
Definition factZ (k : nat) : Z := Z.of_nat (fact k).

(** number of occurrences of the variable [x] *)
Fixpoint count_var (x : string) (e : expr) : nat :=
  match e with
  | Expr r c =>
      ((match r with Operand (Var y) => if String.eqb y x then 1 else 0 | _ => 0 end)
       + list_sum (map (count_var x) c))%nat
  end.

(** [e] reaches, through sums, products and quotients only, an operator that [limit]
    has no working rule for *)
Inductive limit_blocked : expr -> Prop :=
| lb_here op c : In (descriptor op) [ONeg; OSub; OExp; OLn; OPow] ->
    limit_blocked (Expr (Operator op) c)
| lb_left op a b : In (descriptor op) [OAdd; OMul; ODiv] -> limit_blocked a ->
    limit_blocked (Expr (Operator op) [a; b])
| lb_right op a b : In (descriptor op) [OAdd; OMul; ODiv] -> limit_blocked b ->
    limit_blocked (Expr (Operator op) [a; b]).

(** the expression is a variable *)
Definition is_variable (e : expr) : Prop := exists x c, e = Expr (Operand (Var x)) c.
