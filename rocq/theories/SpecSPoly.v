(** * SpecSPoly: polynomials with floating-point coefficients of any sign (C93) *)
From Coq Require Import ZArith List String Bool.
From Coq Require Import Reals.
From Verif Require Import Base Float Rational SmartNum Ast Spec SpecR SpecF SpecAcc.
Import ListNotations.
Open Scope R_scope.

(** a number written by the user: an f64 that is zero or of size between 2^-B and 2^B, an
    integer of size at most 2^B, pi or e *)
Inductive signed_num (B : nat) : snum -> Prop :=
| sg_f64 f : is_f64 f -> f_finite f -> fR f = 0 \/ / 2 ^ B <= Rabs (fR f) <= 2 ^ B -> signed_num B (sn_of_f64 f)
| sg_int z : (Z.abs z <= 2 ^ Z.of_nat B)%Z -> in_i64 z = true -> signed_num B (sn_of_i64 z)
| sg_pi : signed_num B sn_pi
| sg_e : signed_num B sn_e.

(** [spoly B e d l c h]: [e] is built with +, -, * and negation from such numbers and variables;
    [d]: the largest number of leaves multiplied together;
    [l]: the largest number of sums and differences along such products;
    [c]: the most roundings one simplification can pile up (three for each binary operation:
         one for each operand that is an integer or a constant, one for the result; one for
         a negation);
    [h]: the most roundings one differentiation adds. *)
Inductive spoly (B : nat) : expr -> nat -> nat -> nat -> nat -> Prop :=
| sp_num n : signed_num B n -> spoly B (e_num n) 1 0 0 0
| sp_var y : spoly B (e_var y) 1 0 0 0
| sp_neg a d l c h : spoly B a d l c h -> spoly B (e_neg a) d l (1 + c) h
| sp_add a b d l c h d' l' c' h' : spoly B a d l c h -> spoly B b d' l' c' h' ->
    spoly B (e_add a b) (max d d') (S (max l l')) (3 + max c c') (max h h')
| sp_sub a b d l c h d' l' c' h' : spoly B a d l c h -> spoly B b d' l' c' h' ->
    spoly B (e_sub a b) (max d d') (S (max l l')) (3 + max c c') (max h h')
| sp_mul a b d l c h d' l' c' h' : spoly B a d l c h -> spoly B b d' l' c' h' ->
    spoly B (e_mul a b) (d + d') (l + l') (3 + (c + c')) (3 + max h h').

(** the size of an expression without cancellation: every number is replaced by its absolute
    value, every difference by a sum and every negation is dropped *)
Fixpoint absval (rho : string -> R) (e : expr) : R :=
  match e with
  | Expr (Operand (Num n)) _ => match num_R n with Some v => Rabs v | None => 0 end
  | Expr (Operand (Var y)) _ => rho y
  | Expr (Operator op) c =>
      match map (absval rho) c with
      | [a] => match descriptor op with ONeg => a | _ => 0 end
      | [a; b] => match descriptor op with OAdd | OSub => a + b | OMul => a * b | _ => 0 end
      | _ => 0
      end
  end.
(** as a function of [x] *)
Definition absvalx (rho : string -> R) (x : string) (e : expr) (t : R) : R :=
  absval (fun y => if String.eqb y x then t else rho y) e.
Definition absr (rho : string -> R) (y : string) : R := Rabs (rho y).

(** [v'] is [v] up to [k] roundings to the nearest f64, relative to the size [M] *)
Definition within (k : nat) (v v' M : R) : Prop :=
  Rabs (v' - v) <= (/ (1 - ulp_half) ^ k - 1) * M.
