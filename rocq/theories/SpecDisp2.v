(** * SpecDisp2: expressions whose printed text determines the value (C43) *)
From Coq Require Import ZArith List String Bool.
From Verif Require Import Base Float Rational SmartNum Ast Display Spec SpecTree SpecDisp.
Open Scope Z_scope.

(** as [readable], but the right operand of + and * may bind as tightly as the operator:
    x + (y + z) and x + (y - z) and x * (y * z) are allowed, x - (y - z) and x / (y ^ z) are not *)
Inductive regroupable : expr -> Prop :=
| Rg_num n : plain_number n -> regroupable (e_num n)
| Rg_var x : plain_name x -> regroupable (e_var x)
| Rg_un t a : arity t = 1%nat -> regroupable a -> regroupable (mk1 t a)
| Rg_bin t a b : arity t = 2%nat -> regroupable a -> regroupable b ->
    (forall op c, b = Expr (Operator op) c -> binds (descriptor op) = binds t -> t = OAdd \/ t = OMul) ->
    regroupable (mk2 t a b).
