(** * SpecLHSin: positive expressions with sines and cosines (specification for C85) *)
From Coq Require Import ZArith List String.
From Coq Require Import Reals.
From Verif Require Import Base Float Rational SmartNum Ast Spec SpecR.

(** 0 at x = 0, whatever the other variables are *)
Definition vanishes (x : string) (e : expr) : Prop := forall rho, eval (upd rho x 0%R) e = Some 0%R.

(** built with + and * from the variable [x], positive i64 literals, sines of such expressions
    that vanish at 0 and, if [cosines], cosines of such expressions that vanish at 0 *)
Inductive pos_trig (x : string) (cosines : bool) : expr -> Prop :=
| pt_var : pos_trig x cosines (e_var x)
| pt_lit z : (0 < z)%Z -> in_i64 z = true -> pos_trig x cosines (e_of_i64 z)
| pt_add a b : pos_trig x cosines a -> pos_trig x cosines b -> pos_trig x cosines (e_add a b)
| pt_mul a b : pos_trig x cosines a -> pos_trig x cosines b -> pos_trig x cosines (e_mul a b)
| pt_sin a : pos_trig x cosines a -> vanishes x a -> pos_trig x cosines (e_sin a)
| pt_cos a : cosines = true -> pos_trig x cosines a -> vanishes x a -> pos_trig x cosines (e_cos a).
