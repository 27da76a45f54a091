(** * SpecBigO: what "up to O((x - a)^n)" means (C69) *)
From Coq Require Import ZArith List String Reals.
From Verif Require Import Base Float SmartNum Ast Spec SpecTree SpecR.
Open Scope R_scope.

(** the polynomial with coefficients [c] in (y - a) *)
Definition polynomial (c : nat -> R) (n : nat) (a y : R) : R := sum_f_R0 (fun k => c k * (y - a) ^ k) n.
(** [e], as a function of [x], is [p] up to O((x - a)^n) near [a] *)
Definition big_O (rho : string -> R) (x : string) (e : expr) (a : R) (p : R -> R) (n : nat) : Prop :=
  exists C eps, 0 < eps /\ forall y, Rabs (y - a) < eps ->
    exists v, eval (upd rho x y) e = Some v /\ Rabs (v - p y) <= C * Rabs (y - a) ^ n.

