(** * SpecStd: the standard series and simplified parts (specification for C78, C79) *)
From Coq Require Import ZArith QArith List String.
From Verif Require Import Base Float Rational SmartNum Ast Spec.
Open Scope Z_scope.

(** numerator of the k-th Maclaurin coefficient of exp, sin and cos: the coefficient is
    [exp_num k / k!] etc. *)
Definition exp_num (k : nat) : Z := 1.
Definition sin_num (k : nat) : Z :=
  match (k mod 4)%nat with 1%nat => 1 | 3%nat => -1 | _ => 0 end.
Definition cos_num (k : nat) : Z :=
  match (k mod 4)%nat with 0%nat => 1 | 2%nat => -1 | _ => 0 end.

(** the coefficient list [l] starts as the Maclaurin series with numerators [num] *)
Definition coefficient_is (l : list expr) (k : nat) (q : Q) : Prop :=
  exists c p, nth_error l k = Some (e_num c) /\ exact_Q c = Some p /\ (p == q)%Q.
Definition coefficient_undefined (l : list expr) (k : nat) : Prop :=
  exists c, nth_error l k = Some (e_num c) /\ undefined_fraction c.
