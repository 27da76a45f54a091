(** * SpecLimInt: when a quotient of integer expressions is regular at a point (C101) *)
From Coq Require Import ZArith List String Bool.
From Coq Require Import Reals.
From Verif Require Import Base Float Rational SmartNum Ast Compute Limit Spec SpecTree SpecR SpecLim.
Open Scope R_scope.

(** The quotients asked for while the limit of [p/q] is worked out are [p/q] itself and the
    quotients of derivatives, up to the one that answers.  Required of each of them ([l/r]):
    the denominator does not vanish near the point, except perhaps at the point itself;
    hidden zeros (answers [Normal w] where [w] has the value 0 without being a literal 0) are
    not divided by; and, if the point is a literal 0, arguments of the sines whose limits are
    asked for vanish there (the rule for sines answers 0 whatever the argument: C40). *)
Record quotient_regular (rho : string -> R) (x : string) (to : expr) (a : R) (ord : Z) (p q : expr) : Prop := {
  qr_den : forall l r, asks x to ord (e_div p q) (e_div l r) -> near a (fun t => evalx rho x r t <> 0);
  qr_hidden : forall l r u v, asks x to ord (e_div p q) (e_div l r) ->
    answers x to ord l u -> answers x to ord r v -> safe_div rho u v;
  qr_sin0 : forall u, is_zero to = true -> asks x to ord (e_div p q) (e_sin u) -> eval (upd rho x a) u = Some 0
}.
