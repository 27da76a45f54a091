(** * SpecFrac: expressions over integers and fractions (specification for C84) *)
From Coq Require Import ZArith QArith Qreals Reals List String.
From Verif Require Import Base Float Rational SmartNum Ast Compute Spec SpecR SpecHeight.
Import ListNotations.
Open Scope Z_scope.

(** literals are integers or fractions with numerator and denominator below 2^31, under
    + - * / negation, sin, cos and ln, with variables ([num_ok] holds of all numbers the API
    can build, C07) *)
Inductive frac_expr : expr -> Prop :=
| fe_num n q : num_ok n -> exact_Q n = Some q -> height_num n < 2 ^ 31 -> frac_expr (e_num n)
| fe_var x : frac_expr (e_var x)
| fe_neg a : frac_expr a -> frac_expr (e_neg a)
| fe_sin a : frac_expr a -> frac_expr (e_sin a)
| fe_cos a : frac_expr a -> frac_expr (e_cos a)
| fe_ln a : frac_expr a -> frac_expr (e_ln a)
| fe_add a b : frac_expr a -> frac_expr b -> frac_expr (e_add a b)
| fe_sub a b : frac_expr a -> frac_expr b -> frac_expr (e_sub a b)
| fe_mul a b : frac_expr a -> frac_expr b -> frac_expr (e_mul a b)
| fe_div a b : frac_expr a -> frac_expr b -> frac_expr (e_div a b).

(** for all assignments in [dom], the value of [s] is the fraction [q] (where it has one) *)
Definition constant_on (dom : (string -> R) -> Prop) (s : expr) (q : Q) : Prop :=
  forall rho w, dom rho -> eval rho s = Some w -> w = Q2R q.

(** [q] can be written with numerator and denominator below 2^31 *)
Definition small_fraction (q : Q) : Prop :=
  exists p d, Z.abs p < 2 ^ 31 /\ 0 < d < 2 ^ 31 /\ (q == inject_Z p / inject_Z d)%Q.

(** the derivative by [x] by the textbook rules, nothing simplified *)
Fixpoint textbook (x : string) (e : expr) : expr :=
  match e with
  | Expr (Operand (Var y)) _ => if String.eqb x y then e_one else e_zero
  | Expr (Operator op) [a] =>
      match descriptor op with
      | ONeg => e_neg (textbook x a)
      | OSin => e_mul (e_cos a) (textbook x a)
      | OCos => e_mul (e_neg (e_sin a)) (textbook x a)
      | OLn => e_div (textbook x a) a
      | _ => e_zero
      end
  | Expr (Operator op) [a; b] =>
      match descriptor op with
      | OAdd => e_add (textbook x a) (textbook x b)
      | OSub => e_sub (textbook x a) (textbook x b)
      | OMul => e_add (e_mul (textbook x a) b) (e_mul a (textbook x b))
      | ODiv => e_div (e_sub (e_mul (textbook x a) b) (e_mul a (textbook x b))) (e_mul b b)
      | _ => e_zero
      end
  | _ => e_zero
  end.
Fixpoint textbook_n (x : string) (k : nat) (e : expr) : expr :=
  match k with O => e | S k' => textbook_n x k' (textbook x e) end.

(** all parts of [e] whose value is a constant fraction (as long as the variables stay in
    [dom]) are small *)
Definition small_constants (dom : (string -> R) -> Prop) (e : expr) : Prop :=
  forall s q, subterm s e -> constant_on dom s q -> small_fraction q.

(** the assignments at which the expansion point [at_] has a value and [e] is defined there *)
Definition point_dom (x : string) (at_ e : expr) : (string -> R) -> Prop :=
  fun rho => exists a, eval rho at_ = Some a /\ defined (upd rho x a) e.

(** the constant parts of the textbook derivatives up to order n+1, and of the textbook Taylor
    coefficients up to order n, are small fractions *)
Definition small_series (x : string) (at_ : expr) (n : nat) (e : expr) : Prop :=
  (forall k, (1 <= k <= S n)%nat -> small_constants (fun rho => defined rho e) (textbook_n x k e)) /\
  (forall k, (k <= n)%nat -> small_constants (point_dom x at_ e)
     (e_div (subst x at_ (textbook_n x k e)) (e_of_i64 (Z.of_nat (fact k))))).
