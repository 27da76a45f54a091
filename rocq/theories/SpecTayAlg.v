(** * SpecTayAlg: coefficients of Taylor expansions as real numbers (C73) *)
From Coq Require Import ZArith List String Reals.
From Verif Require Import Base Ast Compute SpecR.
Open Scope R_scope.

(** the k-th coefficient of the expansion [t] has the value [u] *)
Definition coef_is (rho : string -> R) (t : expansion) (k : nat) (u : R) : Prop :=
  exists c, nth_error (ex_coef t) k = Some c /\ eval rho c = Some u.
(** the k-th coefficient of the product of two power series *)
Definition cauchy (u v : nat -> R) (k : nat) : R := sum_f_R0 (fun j => u j * v (k - j)%nat) k.
