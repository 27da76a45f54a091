(** * Debug: the derived [Debug] implementations, i.e. what [format!("{:?}", v)] prints

    [#[derive(Debug)]] prints [Name { field: value, ... }] for a struct with named fields (just
    [Name] when it has none), [Variant(value)] or [Variant] for an enum, [[a, b]] for a [Vec] or
    a [VecDeque].  The text of an [f64] (the shortest decimal that reads back as the same
    number, "inf", "-inf" or "NaN") is left as a parameter [ff]. *)
From Coq Require Import ZArith NArith List String Ascii Bool.
From Verif Require Import Base Float Rational SmartNum Ast Compute Limit Display.
Import ListNotations.
Open Scope string_scope.

(** the digit of [\u{..}] *)
Definition hex_digit (n : N) : string :=
  String (ascii_of_N (if (n <? 10)%N then n + 48 else n + 87)) "".

(** core::fmt: [Debug for str] on one ASCII character (a string literal's single quote is not
    escaped).  Simplification: bytes of a non-ASCII character are copied; Rust does so for the
    printable ones only, so the theorems speak of ASCII names. *)
Definition escape (c : ascii) : string :=
  let n := N_of_ascii c in
  if (n =? 0)%N then "\0"
  else if (n =? 9)%N then "\t"
  else if (n =? 10)%N then "\n"
  else if (n =? 13)%N then "\r"
  else if (n =? 34)%N then String (ascii_of_N 92) (String (ascii_of_N 34) "")
  else if (n =? 92)%N then "\\"
  else if ((n <? 32) || (n =? 127))%N then
    "\u{" ++ (if (n <? 16)%N then "" else hex_digit (n / 16)) ++ hex_digit (n mod 16) ++ "}"
  else String c "".
Fixpoint escape_all (s : string) : string :=
  match s with
  | EmptyString => ""
  | String c s' => escape c ++ escape_all s'
  end.
Definition dquote : string := String (ascii_of_N 34) "".
Definition str_debug (s : string) : string := dquote ++ escape_all s ++ dquote.

(** [Vec] and [VecDeque] *)
Fixpoint commas (l : list string) : string :=
  match l with
  | [] => ""
  | [a] => a
  | a :: l' => a ++ ", " ++ commas l'
  end.
Definition vec_debug (l : list string) : string := "[" ++ commas l ++ "]".

Section Debug.
Variable ff : f64 -> string.

(** rational.rs:6-11 *)
Definition rat_debug (r : rat) : string :=
  "RationalNum { sign: " ++ string_of_Z (rsign r) ++ ", nominator: " ++ string_of_Z (rnum r)
    ++ ", denominator: " ++ string_of_Z (rden r) ++ " }".
(** val_holder.rs:10-15 *)
Definition val_debug (v : val) : string :=
  match v with
  | Integer z => "Integer(" ++ string_of_Z z ++ ")"
  | Rational r => "Rational(" ++ rat_debug r ++ ")"
  | Real f => "Real(" ++ ff f ++ ")"
  end.
(** special_const.rs:3-10 *)
Definition tag_debug (t : const_type) : string :=
  match t with
  | TZero => "Zero" | TOne => "One" | TPi => "Pi" | TE => "E" | TNothing => "Nothing"
  end.
(** smart_num/mod.rs:20-24 *)
Definition sn_debug (x : snum) : string :=
  "SmartNum { value: " ++ val_debug (nval x) ++ ", tag: " ++ tag_debug (ntag x) ++ " }".
(** operator.rs:5-17 *)
Definition optype_debug (t : optype) : string :=
  match t with
  | ONeg => "Neg" | OAdd => "Add" | OSub => "Sub" | OMul => "Mul" | ODiv => "Div"
  | OSin => "Sin" | OCos => "Cos" | OExp => "Exp" | OLn => "Ln" | OPow => "Pow"
  end.
(** operator.rs:19-24 *)
Definition op_debug (o : operator) : string :=
  "AstOperator { symbol: " ++ str_debug (symbol o) ++ ", priority: " ++ string_of_Z (priority o)
    ++ ", descriptor: " ++ optype_debug (descriptor o) ++ " }".
(** operand.rs:6-9 *)
Definition var_debug (name : string) : string := "Variable { name: " ++ str_debug name ++ " }".
(** operand.rs:25-29 *)
Definition od_debug (o : operand) : string :=
  match o with
  | Num n => "Num(" ++ sn_debug n ++ ")"
  | Var v => "Variable(" ++ var_debug v ++ ")"
  end.
(** tree.rs:13-17 *)
Definition node_debug (n : node) : string :=
  match n with
  | Operator op => "Operator(" ++ op_debug op ++ ")"
  | Operand o => "Operand(" ++ od_debug o ++ ")"
  end.
(** tree.rs:28-32 *)
Fixpoint e_debug (e : expr) : string :=
  match e with
  | Expr r c =>
      "Expression { root: " ++ node_debug r ++ ", child: " ++ vec_debug (map e_debug c) ++ " }"
  end.

(** limit_expression.rs:16-22 *)
Definition l_debug (l : lexpr) : string :=
  match l with
  | Infinitesimal => "Infinitesimal"
  | Infinity => "Infinity"
  | BoundedFluctuation => "BoundedFluctuation"
  | Normal e => "Normal(" ++ e_debug e ++ ")"
  end.
(** limit_expression.rs:24-25 *)
Definition no_limit_debug (x : no_limit) : string := "NoValidLimitFound".
(** partial_expansion.rs:12-19 *)
Definition exp_debug (p : expansion) : string :=
  "PartialExpansion { order: " ++ string_of_Z (ex_order p) ++ ", of: " ++ e_debug (ex_of p)
    ++ ", at: " ++ e_debug (ex_at p) ++ ", coefficient: "
    ++ vec_debug (map e_debug (ex_coef p)) ++ ", residual: " ++ e_debug (ex_residual p) ++ " }".
(** partial_expansion.rs:43-47 *)
Definition taylor_error_debug (x : taylor_error) : string :=
  "TaylorExpansionError { err_expr: " ++ e_debug (te_expr x) ++ ", reason: "
    ++ str_debug (te_reason x) ++ " }".
(** derivative/mod.rs:27-30 *)
Definition deriv_error_debug (x : derivative_error) : string :=
  match x with DerivativeError e => "DerivativeError { err_src: " ++ e_debug e ++ " }" end.
(** substitute/mod.rs:16-17, operand.rs:49-50 ([struct X {}]) *)
Definition subst_error_debug : string := "SubstituteError".
Definition not_number_error_debug : string := "OperandIsNotNumberError".
(** core: [#[derive(Debug)] enum Result] *)
Definition result_debug {A E} (da : A -> string) (de : E -> string) (r : result A E) : string :=
  match r with
  | ROk a => "Ok(" ++ da a ++ ")"
  | RErr e => "Err(" ++ de e ++ ")"
  end.
End Debug.
