(** * SpecF2: the IEEE-754 rules for NaN, infinities and division by zero *)
From Coq Require Import ZArith Bool.
From Coq Require Import Floats.SpecFloat.
From Verif Require Import Base Float.

Notation NaN := S754_nan.
Notation inf := S754_infinity.      (* inf false = +infinity, inf true = -infinity *)
Notation zero := S754_zero.         (* zero false = +0.0, zero true = -0.0 *)

(** Each table gives the result when IEEE-754 prescribes it without rounding; [None] when both
    operands are finite (and the divisor is not 0), where the result is the rounded exact one.
    [true] is the negative sign; [xorb] the rule of signs. *)
Definition special_add (a b : f64) : option f64 :=
  match a, b with
  | NaN, _ | _, NaN => Some NaN
  | inf s, inf t => Some (if Bool.eqb s t then inf s else NaN)
  | inf s, _ => Some (inf s)
  | _, inf t => Some (inf t)
  | _, _ => None
  end.
Definition special_sub (a b : f64) : option f64 :=
  match a, b with
  | NaN, _ | _, NaN => Some NaN
  | inf s, inf t => Some (if Bool.eqb s t then NaN else inf s)
  | inf s, _ => Some (inf s)
  | _, inf t => Some (inf (negb t))
  | _, _ => None
  end.
Definition special_mul (a b : f64) : option f64 :=
  match a, b with
  | NaN, _ | _, NaN => Some NaN
  | inf s, inf t | inf s, S754_finite t _ _ | S754_finite s _ _, inf t => Some (inf (xorb s t))
  | inf _, zero _ | zero _, inf _ => Some NaN
  | _, _ => None
  end.
Definition special_div (a b : f64) : option f64 :=
  match a, b with
  | NaN, _ | _, NaN => Some NaN
  | inf _, inf _ | zero _, zero _ => Some NaN
  | inf s, zero t | inf s, S754_finite t _ _ => Some (inf (xorb s t))
  | zero s, inf t | S754_finite s _ _, inf t => Some (zero (xorb s t))
  | S754_finite s _ _, zero t => Some (inf (xorb s t))
  | _, _ => None
  end.
