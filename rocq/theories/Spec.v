(** * Spec: the specification side, independent of the algorithms (no real numbers yet) *)
From Coq Require Import ZArith QArith List String Bool.
From Coq Require Import Floats.SpecFloat.
From Verif Require Import Base Float Rational SmartNum Ast.
Import ListNotations.
Open Scope Z_scope.

(** ** Fractions *)

(** any Rust value of type RationalNum: fields within their machine types *)
Definition rat_typed (x : rat) : Prop :=
  in_i64 (rsign x) = true /\ in_u64 (rnum x) = true /\ in_u64 (rden x) = true.

(** a valid fraction: sign 1 or -1 (or 0 for the zero fraction, as addition and subtraction
    produce it), nonzero denominator, machine ranges *)
Definition rat_valid (x : rat) : Prop :=
  (rsign x = 1 \/ rsign x = -1 \/ (rsign x = 0 /\ rnum x = 0)) /\
  0 <= rnum x < two64 /\ 0 < rden x < two64.

(** the rational number denoted by a fraction (meaningful for a positive denominator) *)
Definition ratQ (x : rat) : Q := (rsign x * rnum x) # Z.to_pos (rden x).

(** lowest terms *)
Definition lowest_terms (x : rat) : Prop := Z.gcd (rnum x) (rden x) = 1.

(** ** Floating-point data *)

(** the values of Rust's [f64] (IEEE-754 binary64), given by sign, integer mantissa and
    exponent (value = +- mant * 2^exp): normal numbers have a 53-bit mantissa and exponents
    -1074..971, subnormal numbers a shorter mantissa and exponent -1074 *)
Definition is_f64 (f : spec_float) : Prop :=
  match f with
  | S754_finite _ mant e =>
      (2 ^ 52 <= Zpos mant < 2 ^ 53 /\ -1074 <= e <= 971) \/ (Zpos mant < 2 ^ 52 /\ e = -1074)
  | _ => True
  end.

(** the values of Rust's [f32] (IEEE-754 binary32) *)
Definition is_f32 (f : spec_float) : Prop :=
  match f with
  | S754_finite _ mant e =>
      (2 ^ 23 <= Zpos mant < 2 ^ 24 /\ -149 <= e <= 104) \/ (Zpos mant < 2 ^ 23 /\ e = -149)
  | _ => True
  end.

(** ** Numbers *)

(** exact rational value of a stored value; [None] for a zero denominator, NaN, infinities *)
Definition val_Q (v : val) : option Q :=
  match v with
  | Integer z => Some (inject_Z z)
  | Rational r => if rden r =? 0 then None else Some (ratQ r)
  | Real f => f_val f
  end.

(** exact value of an integer or rational number; f64-backed numbers have none *)
Definition exact_Q (x : snum) : option Q :=
  match nval x with Real _ => None | v => val_Q v end.

(** equality of optional rationals *)
Definition oQeq (a b : option Q) : Prop :=
  match a, b with
  | Some p, Some q => (p == q)%Q
  | None, None => True
  | _, _ => False
  end.

(** every number a user can obtain: conversions, constructors, constants, and closure under
    the arithmetic operators, in build [m] *)
Inductive api_number (m : mode) : snum -> Prop :=
| An_i64 z : in_i64 z = true -> api_number m (sn_of_i64 z)
| An_u64 z x : in_u64 z = true -> sn_of_u64 m z = Ok x -> api_number m x
| An_f64 f : is_f64 f -> api_number m (sn_of_f64 f)
| An_f32 f : is_f32 f -> api_number m (sn_of_f32 f)
| An_rational s n d x : in_i64 s = true -> in_u64 n = true -> in_u64 d = true ->
    sn_new_rational m s n d = Ok (Some x) -> api_number m x
| An_zero : api_number m sn_zero
| An_one : api_number m sn_one
| An_pi : api_number m sn_pi
| An_e : api_number m sn_e
| An_neg x z : api_number m x -> sn_neg m x = Ok z -> api_number m z
| An_add x y z : api_number m x -> api_number m y -> sn_add m x y = Ok z -> api_number m z
| An_sub x y z : api_number m x -> api_number m y -> sn_sub m x y = Ok z -> api_number m z
| An_mul x y z : api_number m x -> api_number m y -> sn_mul m x y = Ok z -> api_number m z
| An_div x y z : api_number m x -> api_number m y -> sn_div m x y = Ok z -> api_number m z.

(** invariant of stored values: machine ranges; a fraction has sign 1 or -1, or is 0 with
    sign 0; inside a number, sign 0 only occurs in the undefined fraction 0/0 *)
Definition rat_inv (r : rat) : Prop :=
  (rsign r = 1 \/ rsign r = -1 \/ (rsign r = 0 /\ rnum r = 0)) /\
  0 <= rnum r < two64 /\ 0 <= rden r < two64.
Definition val_inv (v : val) : Prop :=
  match v with
  | Integer z => in_i64 z = true
  | Rational r => rat_inv r /\ (rsign r = 0 -> rden r = 0)
  | Real _ => True
  end.

(** well-formed numbers: the tag tells the truth *)
Definition num_ok (x : snum) : Prop :=
  val_inv (nval x) /\
  match ntag x with
  | TZero => val_is_zero (nval x) = true
  | TOne => val_is_one (nval x) = true
  | TPi => nval x = Real f_PI
  | TE => nval x = Real f_E
  | TNothing => val_is_zero (nval x) = false /\ val_is_one (nval x) = false
  end.

(** integer or rational numbers (not f64) *)
Definition exact_num (x : snum) : Prop := forall f, nval x <> Real f.
(** a fraction with denominator 0, as x/0 produces *)
Definition undefined_fraction (x : snum) : Prop :=
  exists r, nval x = Rational r /\ rden r = 0.
(** the number is i64::MIN *)
Definition int_min (x : snum) : Prop := nval x = Integer (- two63).
(** absolute numerator and denominator of an exact number *)
Definition num_of (x : snum) : Z := match nval x with Integer i => Z.abs i | Rational r => rnum r | Real _ => 0 end.
Definition den_of (x : snum) : Z := match nval x with Rational r => rden r | _ => 1 end.

(** ** Expressions *)

Definition arity (t : optype) : nat :=
  match t with
  | ONeg | OSin | OCos | OExp | OLn => 1
  | OAdd | OSub | OMul | ODiv | OPow => 2
  end.

(** well-formed expressions: every operator node is one of the library's operators with the
    right number of children, operands are leaves, numbers are well-formed *)
Inductive wf : expr -> Prop :=
| wf_num n : num_ok n -> wf (Expr (Operand (Num n)) [])
| wf_var x : wf (Expr (Operand (Var x)) [])
| wf_op t c : List.length c = arity t -> Forall wf c -> wf (Expr (Operator (gen_op t)) c).

(** everything a user can build with the public builders, in build [m] *)
Inductive api_expr (m : mode) : expr -> Prop :=
| Ae_var x : api_expr m (e_var x)
| Ae_num n : api_number m n -> api_expr m (e_num n)
| Ae_neg a : api_expr m a -> api_expr m (e_neg a)
| Ae_add a b : api_expr m a -> api_expr m b -> api_expr m (e_add a b)
| Ae_sub a b : api_expr m a -> api_expr m b -> api_expr m (e_sub a b)
| Ae_mul a b : api_expr m a -> api_expr m b -> api_expr m (e_mul a b)
| Ae_div a b : api_expr m a -> api_expr m b -> api_expr m (e_div a b)
| Ae_sin a : api_expr m a -> api_expr m (e_sin a)
| Ae_cos a : api_expr m a -> api_expr m (e_cos a)
| Ae_exp a : api_expr m a -> api_expr m (e_exp a)
| Ae_ln a : api_expr m a -> api_expr m (e_ln a)
| Ae_pow a b : api_expr m a -> api_expr m b -> api_expr m (e_pow a b).

(** number of nodes *)
Fixpoint size (e : expr) : nat :=
  match e with Expr _ c => S (list_sum (map size c)) end.

(** sub-expressions (including the expression itself) *)
Inductive subterm : expr -> expr -> Prop :=
| sub_refl e : subterm e e
| sub_child e r c c' : In c' c -> subterm e c' -> subterm e (Expr r c).

(** the variable [x] occurs in [e] *)
Definition occurs (x : string) (e : expr) : Prop :=
  exists c, subterm (Expr (Operand (Var x)) c) e.

(** the operator [t] occurs in [e] *)
Definition has_op (t : optype) (e : expr) : Prop :=
  exists op c, descriptor op = t /\ subterm (Expr (Operator op) c) e.
