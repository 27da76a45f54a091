(** * SpecMulti: functions of several variables, functions that agree near a point *)
From Coq Require Import List String Reals.
From Verif Require Import Base Ast SpecR.
Open Scope R_scope.

(** the sum of [f x] over the list of variables [xs] *)
Definition sumR (f : string -> R) (xs : list string) : R := fold_right (fun x acc => f x + acc) 0 xs.

(** [a] and [b] have the same value (or both none) whenever [x] is close to [t0] *)
Definition same_near (rho : string -> R) (x : string) (t0 : R) (a b : expr) : Prop :=
  exists eps, 0 < eps /\ forall t, Rabs (t - t0) < eps -> eval (upd rho x t) a = eval (upd rho x t) b.
