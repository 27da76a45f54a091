(** * SpecPasses: how often an operator occurs in a tree *)
From Coq Require Import List Bool Arith.
From Verif Require Import Ast.

(** number of nodes of [e] with operator [t] *)
Fixpoint count_op (t : optype) (e : expr) : nat :=
  match e with
  | Expr r c =>
      (match r with Operator op => if optype_eqb (descriptor op) t then 1 else 0 | _ => 0 end)
      + list_sum (map (count_op t) c)
  end.
