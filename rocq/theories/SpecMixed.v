(** * SpecMixed: closed arithmetic on integers, fractions and floats, counting roundings (C88) *)
From Coq Require Import ZArith List Bool.
From Coq Require Import Reals.
From Verif Require Import Base Float Rational SmartNum Ast Spec SpecR SpecF SpecAcc SpecHeight.
Open Scope R_scope.

(** both operands are defined and have the same sign / opposite signs *)
Definition same_sign (a b : expr) : Prop :=
  forall rho v w, eval rho a = Some v -> eval rho b = Some w -> 0 < v * w.
Definition opposite_sign (a b : expr) : Prop :=
  forall rho v w, eval rho a = Some v -> eval rho b = Some w -> v * w < 0.

(** an exact part: arithmetic on integers and fractions, not 0, with a height bound below 2^63
    (the condition of C83) *)
Definition exact_part (e : expr) : Prop :=
  exact_arith e /\ (height e < 2 ^ 63)%Z /\ forall rho, exists v, eval rho e = Some v /\ v <> 0.

(** [mixed fl e k]: [e] is built with +, -, *, / and negation from integers, fractions, finite
    nonzero f64 literals and the constants pi and e; sums are of numbers of the same sign,
    differences of numbers of opposite signs (no cancellation).  [fl] says whether a float
    takes part.  At most [k] roundings pile up: one for each stored constant, three for an
    exact part (its numerator, its denominator, their quotient) and one for each operation. *)
Inductive mixed : bool -> expr -> nat -> Prop :=
| mx_exact e : exact_part e -> mixed false e 3
| mx_lit f : is_f64 f -> f_finite f -> fR f <> 0 -> mixed true (e_num (sn_of_f64 f)) 0
| mx_pi : mixed true (e_num sn_pi) 1
| mx_e : mixed true (e_num sn_e) 1
| mx_neg a i : mixed true a i -> mixed true (e_neg a) i
| mx_add x y a b i j : mixed x a i -> mixed y b j -> x || y = true -> same_sign a b -> mixed true (e_add a b) (S (max i j))
| mx_sub x y a b i j : mixed x a i -> mixed y b j -> x || y = true -> opposite_sign a b -> mixed true (e_sub a b) (S (max i j))
| mx_mul x y a b i j : mixed x a i -> mixed y b j -> x || y = true -> mixed true (e_mul a b) (S (i + j))
| mx_div x y a b i j : mixed x a i -> mixed y b j -> x || y = true -> mixed true (e_div a b) (S (i + j)).

(** the exact values of the expression and of all its parts are far from over- and underflow *)
Definition moderate_abs (e : expr) : Prop :=
  forall rho s v, subterm s e -> eval rho s = Some v -> / 2 ^ 1000 <= Rabs v <= 2 ^ 1000.
