(** * SpecPlug2: expressions whose limit is found by plugging in the point (C89) *)
From Coq Require Import ZArith List String Bool.
From Verif Require Import Base Float Rational SmartNum Ast Compute Limit Spec.

(** [pluggable m x to e]: built from numbers and variables with
    - sums and products;
    - quotients whose denominator does not simplify to a literal 0 at the point;
    - cosines of anything without a subtraction;
    - sines of anything without a subtraction - if the point is a literal 0, only where the
      argument simplifies to a literal 0. *)
Inductive pluggable (m : mode) (x : string) (to : expr) : expr -> Prop :=
| pl_num n : num_ok n -> pluggable m x to (e_num n)
| pl_var y : pluggable m x to (e_var y)
| pl_add a b : pluggable m x to a -> pluggable m x to b -> pluggable m x to (e_add a b)
| pl_mul a b : pluggable m x to a -> pluggable m x to b -> pluggable m x to (e_mul a b)
| pl_div a b : pluggable m x to a -> pluggable m x to b ->
    (forall z, num_aggregate m (subst x to b) = Ok z -> is_zero z = false) -> pluggable m x to (e_div a b)
| pl_cos u : wf u -> ~ has_op OSub u -> pluggable m x to (e_cos u)
| pl_sin u : wf u -> ~ has_op OSub u ->
    (is_zero to = true -> exists z, num_aggregate m (subst x to u) = Ok z /\ is_zero z = true) ->
    pluggable m x to (e_sin u).

(** a literal 0 *)
Definition literal_zero (z : expr) : Prop := exists n, z = e_num n /\ num_ok n /\ sn_is_zero n = true.
(** a limit answer that says "the limit is the expression z": z itself, or, if z is 0,
    Infinitesimal or a literal 0 *)
Definition answers (l : lexpr) (z : expr) : Prop :=
  l = Normal z \/ (is_zero z = true /\ (l = Infinitesimal \/ exists y, l = Normal y /\ literal_zero y)).
