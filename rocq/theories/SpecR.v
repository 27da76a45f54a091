(** * SpecR: the mathematical meaning of numbers and expressions (real numbers) *)
From Coq Require Import ZArith QArith List String Bool.
From Coq Require Import Reals Qreals.
From Verif Require Import Base Float Rational SmartNum Ast Compute Spec SpecTree.
Import ListNotations.
Open Scope R_scope.

(** the real number a number stands for: the named constants pi and e stand for the true
    constants, everything else for its exact value; NaN, infinities and n/0 have none *)
Definition num_R (x : snum) : option R :=
  match ntag x with
  | TPi => Some PI
  | TE => Some (exp 1)
  | _ => option_map Q2R (val_Q (nval x))
  end.

(** real powers a^b: any exponent for a positive base, integer exponents for a negative
    base, non-negative exponents for base 0 (0^0 = 1) *)
Definition powR (a b : R) : option R :=
  if Rlt_dec 0 a then Some (Rpower a b)
  else if Req_EM_T a 0 then
    (if Rlt_dec 0 b then Some 0 else if Req_EM_T b 0 then Some 1 else None)
  else if Req_EM_T b (IZR (Int_part b)) then Some (powerRZ a (Int_part b)) else None.

(** meaning of the operators, [None] = undefined *)
Definition ev1 (t : optype) (a : R) : option R :=
  match t with
  | ONeg => Some (- a)
  | OSin => Some (sin a)
  | OCos => Some (cos a)
  | OExp => Some (exp a)
  | OLn => if Rlt_dec 0 a then Some (ln a) else None
  | _ => None
  end.

Definition ev2 (t : optype) (a b : R) : option R :=
  match t with
  | OAdd => Some (a + b)
  | OSub => Some (a - b)
  | OMul => Some (a * b)
  | ODiv => if Req_EM_T b 0 then None else Some (a / b)
  | OPow => powR a b
  | _ => None
  end.

Definition ev_op (t : optype) (l : list (option R)) : option R :=
  match l with
  | [Some a] => ev1 t a
  | [Some a; Some b] => ev2 t a b
  | _ => None
  end.

(** value of an expression under an assignment of the variables *)
Fixpoint eval (rho : string -> R) (e : expr) : option R :=
  match e with
  | Expr r c =>
      match r with
      | Operand (Num n) => num_R n
      | Operand (Var x) => Some (rho x)
      | Operator op => ev_op (descriptor op) (map (eval rho) c)
      end
  end.

(** the assignment [rho] with [x] set to [v] *)
Definition upd (rho : string -> R) (x : string) (v : R) : string -> R :=
  fun y => if String.eqb y x then v else rho y.

(** the function t |-> value of [e] with [x] = t (0 where undefined) *)
Definition evalx (rho : string -> R) (x : string) (e : expr) (t : R) : R :=
  match eval (upd rho x t) e with Some v => v | None => 0 end.

(** the literal constant pi occurs in [e] *)
Definition has_pi (e : expr) : Prop :=
  exists n c, sn_is_pi n = true /\ subterm (Expr (Operand (Num n)) c) e.

(** The rules of num_aggregate for powers and cos(pi) are wrong (C21), so soundness is
    stated for expressions on which they do not fire: no power base simplifies to 0, 1 or
    a logarithm, no cosine argument simplifies to pi. *)
Definition avoids_bad_rules (e : expr) : Prop :=
  (forall a b a', subterm (e_pow a b) e -> num_aggregate Strict a = Ok a' ->
     is_zero a' = false /\ is_one a' = false /\ (forall c, a' <> e_ln c)) /\
  (forall a a', subterm (e_cos a) e -> num_aggregate Strict a = Ok a' -> is_pi a' = false).

(** Regularity of [e] at the point [rho], for differentiation with respect to [x]:
    - every power base has a nonzero value, is positive unless the exponent does not contain
      [x], and is a variable or else free of logarithms and different from 1 (so that the
      wrong power rules of num_aggregate do not fire);
    - no literal pi inside the argument of a sine or cosine. *)
Definition regular (rho : string -> R) (x : string) (e : expr) : Prop :=
  (forall a b, subterm (e_pow a b) e ->
     exists v, eval rho a = Some v /\ v <> 0 /\ (0 < v \/ ~ occurs x b) /\
       ((exists y, a = e_var y) \/ (~ has_op OLn a /\ v <> 1))) /\
  (forall a, subterm (e_sin a) e \/ subterm (e_cos a) e -> ~ has_pi a).

(** [e] has a value at [rho] *)
Definition defined (rho : string -> R) (e : expr) : Prop := exists v, eval rho e = Some v.

(** Guard for Taylor expansion of [e] in [x] at the point [at_] of value [a]: as [regular],
    but the variable [x] itself is a power base only at points other than 1 (it is replaced
    by [at_], on which the wrong power rules could fire), and the point contains no
    logarithm and no literal pi. *)
Definition taylor_regular (rho : string -> R) (x : string) (at_ : expr) (a : R) (e : expr) : Prop :=
  (forall u b, subterm (e_pow u b) e ->
     exists v, eval (upd rho x a) u = Some v /\ v <> 0 /\ (0 < v \/ ~ occurs x b) /\
       ((exists y, y <> x /\ u = e_var y) \/ (~ has_op OLn u /\ v <> 1))) /\
  (forall u, subterm (e_sin u) e \/ subterm (e_cos u) e -> ~ has_pi u) /\
  ~ has_op OLn at_ /\ ~ has_pi at_ /\ regular rho x at_.
