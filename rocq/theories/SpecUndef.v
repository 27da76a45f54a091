(** * SpecUndef: when simplification keeps undefinedness (C22)

    Vocabulary only; [defined rho e] (SpecR) says that [e] has a value at [rho].  [eval rho e = None] says that [e] has no value at [rho] (division by
    zero, logarithm of a number <= 0, undefined power, a literal n/0, NaN or infinity). *)
From Coq Require Import ZArith QArith List String Bool.
From Coq Require Import Reals Qreals.
From Verif Require Import Base Float Rational SmartNum Ast Compute Spec SpecTree SpecR.
Import ListNotations.
Open Scope R_scope.

(** [num_aggregate] turns [e] into [z] *)
Definition becomes (e z : expr) : Prop := num_aggregate Strict e = Ok z.
(** [num_aggregate] turns [e] into the number 0, into some number *)
Definition becomes_0 (e : expr) : Prop := exists z, becomes e z /\ is_zero z = true.
Definition becomes_number (e : expr) : Prop := exists n, becomes e (e_num n).

(** The four places where a rule of num_aggregate drops an operand without looking at it:
    0 * b, b * 0, 0 / b and exp(ln u); and n / b with b a number, where b may be the
    fraction k/0 whose reciprocal is 0.  At each of them the dropped operand has a value
    (nonzero, for the divisor of a zero). *)
Definition keeps_domain (rho : string -> R) (e : expr) : Prop :=
  (forall a b, subterm (e_mul a b) e ->
     (becomes_0 a -> defined rho b) /\ (becomes_0 b -> defined rho a)) /\
  (forall a b, subterm (e_div a b) e ->
     (becomes_0 a -> exists w, eval rho b = Some w /\ w <> 0) /\
     (becomes_number b -> defined rho b)) /\
  (forall a u, subterm (e_exp a) e -> becomes a (e_ln u) -> defined rho a).

(** no division, no logarithm, no power *)
Definition total (e : expr) : Prop := ~ has_op ODiv e /\ ~ has_op OLn e /\ ~ has_op OPow e.

(** [formula x e r]: [r] is the textbook formula for the derivative of the operator at the root
    of [e], filled in with the derivatives that the program returns for the operands, before it
    is simplified. *)
Inductive formula (x : string) : expr -> expr -> Prop :=
| fo_neg u u' : deriv Strict x u = Ok u' -> formula x (e_neg u) (e_neg u')
| fo_sin u u' : deriv Strict x u = Ok u' -> formula x (e_sin u) (e_mul (e_cos u) u')
| fo_cos u u' : deriv Strict x u = Ok u' -> formula x (e_cos u) (e_mul (e_neg (e_sin u)) u')
| fo_exp u u' : deriv Strict x u = Ok u' -> formula x (e_exp u) (e_mul u' (e_exp u))
| fo_ln u u' : deriv Strict x u = Ok u' -> formula x (e_ln u) (e_div u' u)
| fo_add u v u' v' : deriv Strict x u = Ok u' -> deriv Strict x v = Ok v' -> formula x (e_add u v) (e_add u' v')
| fo_sub u v u' v' : deriv Strict x u = Ok u' -> deriv Strict x v = Ok v' -> formula x (e_sub u v) (e_sub u' v')
| fo_mul u v u' v' : deriv Strict x u = Ok u' -> deriv Strict x v = Ok v' ->
    formula x (e_mul u v) (e_add (e_mul u' v) (e_mul u v'))
| fo_div u v u' v' : deriv Strict x u = Ok u' -> deriv Strict x v = Ok v' ->
    formula x (e_div u v) (e_div (e_sub (e_mul u' v) (e_mul u v')) (e_mul v v))
| fo_pow u v u' v' : deriv Strict x u = Ok u' -> deriv Strict x v = Ok v' ->
    formula x (e_pow u v) (e_mul (e_pow u v) (e_add (e_mul v' (e_ln u)) (e_div (e_mul v u') u))).

(** Simplifying the formulas on the way to the derivative of [e] drops no undefined operand. *)
Definition derivation_keeps_domain (rho : string -> R) (x : string) (e : expr) : Prop :=
  forall s r, subterm s e -> formula x s r -> avoids_bad_rules r /\ keeps_domain rho r.
