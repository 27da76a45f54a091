(** * SpecLim2: expressions whose limit always exists *)
From Coq Require Import ZArith List String Bool.
From Verif Require Import Base Float Rational SmartNum Ast Compute Limit Spec.

(** sums and products of numbers, variables, sines and cosines (of anything), possibly
    divided by nonzero numbers or by variables other than [x] *)
Inductive entire (x : string) : expr -> Prop :=
| en_num n : num_ok n -> entire x (e_num n)
| en_var y : entire x (e_var y)
| en_add a b : entire x a -> entire x b -> entire x (e_add a b)
| en_mul a b : entire x a -> entire x b -> entire x (e_mul a b)
| en_sin a : wf a -> entire x (e_sin a)
| en_cos a : wf a -> entire x (e_cos a)
| en_div_num a n : entire x a -> num_ok n -> sn_is_zero n = false -> entire x (e_div a (e_num n))
| en_div_var a y : entire x a -> y <> x -> entire x (e_div a (e_var y)).
