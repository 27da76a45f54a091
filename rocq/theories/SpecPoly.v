(** * SpecPoly: polynomial expressions *)
From Coq Require Import List String.
From Verif Require Import Base Ast Spec.

(** [e] is written as a polynomial in [x] of degree at most [d]: built by + - * and negation
    from [x] and from parts that do not contain [x] (numbers, other variables, or anything
    else), possibly divided by parts that do not contain [x] *)
Inductive poly (x : string) : nat -> expr -> Prop :=
| p_free d e : ~ occurs x e -> poly x d e
| p_var d : (1 <= d)%nat -> poly x d (e_var x)
| p_neg d a : poly x d a -> poly x d (e_neg a)
| p_add d a b : poly x d a -> poly x d b -> poly x d (e_add a b)
| p_sub d a b : poly x d a -> poly x d b -> poly x d (e_sub a b)
| p_mul d da db a b : poly x da a -> poly x db b -> (da + db <= d)%nat -> poly x d (e_mul a b)
| p_div d a b : poly x d a -> ~ occurs x b -> poly x d (e_div a b).
