(** * Display: the [Display] / [to_string] implementations *)
From Coq Require Import ZArith QArith List String Ascii Bool.
From Coq Require Import Decimal DecimalString Floats.SpecFloat.
From Verif Require Import Base Float Rational SmartNum Ast Compute Limit.
Import ListNotations.
Open Scope Z_scope.
Open Scope string_scope.
Open Scope res_scope.

(** decimal rendering of an [i64]/[u64] by [format!("{}", v)] *)
Definition string_of_Z (z : Z) : string := NilZero.string_of_int (Z.to_int z).

(** [format!("{:.3}", v)] for [f64]: sign bit, then the exact value rounded to three
    decimals (ties to even), as core::fmt does; "NaN", "inf", "-inf". *)
Definition round_half_even (n d : Z) : Z :=
  let q := n / d in
  let r := n mod d in
  match 2 * r ?= d with
  | Lt => q
  | Gt => q + 1
  | Eq => if Z.even q then q else q + 1
  end.

Definition digit (z : Z) : string := string_of_Z z.

Definition fixed3 (k : Z) : string :=
  string_of_Z (k / 1000) ++ "." ++ digit (k / 100 mod 10) ++ digit (k / 10 mod 10)
    ++ digit (k mod 10).

Definition thousandths (mant : positive) (e : Z) : Z :=
  match e with
  | Zneg p => round_half_even (Zpos mant * 1000) (Z.pow_pos 2 p)
  | _ => Zpos mant * 2 ^ e * 1000
  end.

Definition f_to_string (f : f64) : string :=
  match f with
  | S754_nan => "NaN"
  | S754_infinity s => if s then "-inf" else "inf"
  | S754_zero s => (if s then "-" else "") ++ fixed3 0
  | S754_finite s m e => (if s then "-" else "") ++ fixed3 (thousandths m e)
  end.

(** rational.rs:18-23 *)
Definition rat_to_string (r : rat) : string :=
  (if (rsign r =? 1)%Z then "" else "-") ++ string_of_Z (rnum r) ++ "/" ++ string_of_Z (rden r).

(** val_holder.rs:21-30 *)
Definition val_to_string (v : val) : string :=
  match v with
  | Integer z => string_of_Z z
  | Rational r => rat_to_string r
  | Real f => f_to_string f
  end.

(** special_const.rs:12-23: panics on [Nothing] *)
Definition tag_to_string (t : const_type) : res string :=
  match t with
  | TZero => Ok "0"
  | TOne => Ok "1"
  | TPi => Ok "pi"
  | TE => Ok "e"
  | TNothing => Panic
  end.

(** mod.rs:128-136 *)
Definition sn_to_string (x : snum) : res string :=
  if negb (tag_eqb (ntag x) TNothing) then tag_to_string (ntag x)
  else Ok (val_to_string (nval x)).

(** operand.rs:67-72, 116-120 *)
Definition od_to_string (o : operand) : res string :=
  match o with Num n => sn_to_string n | Var v => Ok v end.

(** tree.rs:79-102 [to_string_raw] *)
Fixpoint to_string_raw (upper : Z) (e : expr) : res string :=
  match e with
  | Expr r c =>
      match r with
      | Operand o => od_to_string o
      | Operator op =>
          let* me :=
            match map (to_string_raw (priority op)) c with
            | [a; b] =>
                let* x := a in
                let* y := b in
                Ok (x ++ " " ++ symbol op ++ " " ++ y)
            | a :: _ => let* x := a in Ok (symbol op ++ x)
            | [] => Panic
            end in
          if (priority op <? upper)%Z then Ok ("(" ++ me ++ ")") else Ok me
      end
  end.

(** tree.rs:156-160 *)
Definition e_to_string (e : expr) : res string := to_string_raw 0 e.

(** limit_expression.rs:27-36 *)
Definition l_to_string (l : lexpr) : res string :=
  match l with
  | Infinitesimal => Ok "0"
  | Infinity => Ok "infinity"
  | BoundedFluctuation => Ok "~"
  | Normal r => e_to_string r
  end.

(** partial_expansion.rs:25-32: the loop over the coefficients, [idx] counting from 0 *)
Fixpoint terms_to_string (b : expr) (idx : Z) (cs : list expr) : res string :=
  match cs with
  | [] => Ok ""
  | c :: cs' =>
      if is_zero c then terms_to_string b (idx + 1) cs'
      else
        let* t := e_to_string c in
        let* p := e_to_string (e_pow b (e_of_i64 idx)) in
        let* rest := terms_to_string b (idx + 1) cs' in
        Ok (t ++ " * " ++ p ++ " + " ++ rest)
  end.

(** partial_expansion.rs:21-36 ([pow(self.order + 1)] converts a u64 through [as i64]) *)
Definition expansion_to_string (m : mode) (t : expansion) : res string :=
  let* b := num_aggregate m (e_sub (ex_of t) (ex_at t)) in
  let* body := terms_to_string b 0 (ex_coef t) in
  let* o1 := u64_add m (ex_order t) 1 in
  let* oe := e_of_u64 m o1 in
  let* o := e_to_string (e_pow b oe) in
  Ok (body ++ "O(" ++ o ++ ")").

(** operand.rs:19-23 [Display for Variable]; operator.rs:34-38 [Display for AstOperator] *)
Definition variable_to_string (name : string) : string := name.
Definition operator_to_string (op : operator) : string := symbol op.

(** derivative/mod.rs:31-38 [Display for DerivativeError] *)
Definition derivative_error_to_string (err : derivative_error) : res string :=
  match err with
  | DerivativeError src => let* s := e_to_string src in Ok (s ++ " cannot be used as a variable")
  end.

(** partial_expansion.rs:49-56 [Display for TaylorExpansionError] *)
Definition taylor_error_to_string (err : taylor_error) : res string :=
  let* s := e_to_string (te_expr err) in
  Ok ("Cannot expand " ++ s ++ " due to " ++ te_reason err).

(** substitute/mod.rs:19-23 [Display for SubstituteError] *)
Definition substitute_error_to_string (_ : substitute_error) : string := "Cannot perform substitution".
