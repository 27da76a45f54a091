(** * SpecLH: polynomials with positive coefficients, and the lowest term of a function at 0
    (specification for C80) *)
From Coq Require Import ZArith List String.
From Coq Require Import Reals.
From Coquelicot Require Import Coquelicot.
From Verif Require Import Base Float Rational SmartNum Ast Spec SpecR SpecLim.

(** built with + and * from the variable [x] and positive i64 literals *)
Inductive pos_poly (x : string) : expr -> Prop :=
| pp_var : pos_poly x (e_var x)
| pp_lit z : (0 < z)%Z -> in_i64 z = true -> pos_poly x (e_of_i64 z)
| pp_add a b : pos_poly x a -> pos_poly x b -> pos_poly x (e_add a b)
| pp_mul a b : pos_poly x a -> pos_poly x b -> pos_poly x (e_mul a b).

(** near 0 the expression behaves like c * x^k with c > 0: its value divided by x^k tends to c *)
Definition lowest (x : string) (e : expr) (k : nat) (c : R) : Prop :=
  (0 < c)%R /\ forall rho, filterlim (fun t => evalx rho x e t / t ^ k)%R (near 0) (locally c).
