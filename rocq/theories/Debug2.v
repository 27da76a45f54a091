(** * Debug2: the derived [Debug] implementations in their [{:#?}] form

    One field or element per line, each followed by a comma, everything inside indented by four
    more blanks (core::fmt's PadAdapter: four blanks at the beginning of every line written
    inside).  No text inside contains a line break ([str_debug] escapes it), so the model passes
    the depth [n] down instead of rewriting texts.  Integers, strings, floats and bare variants
    look as in the [{:?}] form; empty vectors are [[]]. *)
From Coq Require Import ZArith List String Ascii Bool.
From Verif Require Import Base Float Rational SmartNum Ast Compute Limit Display Debug.
Import ListNotations.
Open Scope string_scope.

(** a line break, then the indentation at depth [n] *)
Fixpoint blanks (n : nat) : string := match n with O => "" | S n => "    " ++ blanks n end.
Definition line (n : nat) : string := String (ascii_of_nat 10) (blanks n).
(** core::fmt::builders: DebugStruct, DebugTuple, DebugList *)
Definition field_p (n : nat) (name v : string) : string := line (S n) ++ name ++ ": " ++ v ++ ",".
Definition tuple_p (n : nat) (name v : string) : string :=
  name ++ "(" ++ line (S n) ++ v ++ "," ++ line n ++ ")".
Fixpoint items_p (n : nat) (l : list string) : string :=
  match l with [] => "" | a :: l => line (S n) ++ a ++ "," ++ items_p n l end.
Definition vec_p (n : nat) (l : list string) : string :=
  match l with [] => "[]" | _ => "[" ++ items_p n l ++ line n ++ "]" end.

Section Debug2.
Variable ff : f64 -> string.

(** rational.rs:6-11 *)
Definition rat_p (n : nat) (r : rat) : string :=
  "RationalNum {" ++ field_p n "sign" (string_of_Z (rsign r)) ++ field_p n "nominator" (string_of_Z (rnum r))
    ++ field_p n "denominator" (string_of_Z (rden r)) ++ line n ++ "}".
(** val_holder.rs:10-15 *)
Definition val_p (n : nat) (v : val) : string :=
  match v with
  | Integer z => tuple_p n "Integer" (string_of_Z z)
  | Rational r => tuple_p n "Rational" (rat_p (S n) r)
  | Real f => tuple_p n "Real" (ff f)
  end.
(** smart_num/mod.rs:20-24 *)
Definition sn_p (n : nat) (x : snum) : string :=
  "SmartNum {" ++ field_p n "value" (val_p (S n) (nval x)) ++ field_p n "tag" (tag_debug (ntag x)) ++ line n ++ "}".
(** operator.rs:19-24 *)
Definition op_p (n : nat) (o : operator) : string :=
  "AstOperator {" ++ field_p n "symbol" (str_debug (symbol o)) ++ field_p n "priority" (string_of_Z (priority o))
    ++ field_p n "descriptor" (optype_debug (descriptor o)) ++ line n ++ "}".
(** operand.rs:6-9 *)
Definition var_p (n : nat) (name : string) : string := "Variable {" ++ field_p n "name" (str_debug name) ++ line n ++ "}".
(** operand.rs:25-29 *)
Definition od_p (n : nat) (o : operand) : string :=
  match o with
  | Num x => tuple_p n "Num" (sn_p (S n) x)
  | Var v => tuple_p n "Variable" (var_p (S n) v)
  end.
(** tree.rs:13-17 *)
Definition node_p (n : nat) (x : node) : string :=
  match x with
  | Operator op => tuple_p n "Operator" (op_p (S n) op)
  | Operand o => tuple_p n "Operand" (od_p (S n) o)
  end.
(** tree.rs:28-32 *)
Fixpoint e_p (n : nat) (e : expr) : string :=
  match e with
  | Expr r c =>
      "Expression {" ++ field_p n "root" (node_p (S n) r) ++ field_p n "child" (vec_p (S n) (map (e_p (S (S n))) c))
        ++ line n ++ "}"
  end.
(** limit_expression.rs:16-22 *)
Definition l_p (n : nat) (l : lexpr) : string :=
  match l with
  | Infinitesimal => "Infinitesimal"
  | Infinity => "Infinity"
  | BoundedFluctuation => "BoundedFluctuation"
  | Normal e => tuple_p n "Normal" (e_p (S n) e)
  end.
(** limit_expression.rs:24-25 *)
Definition no_limit_p (n : nat) (x : no_limit) : string := no_limit_debug x.
(** partial_expansion.rs:12-19 *)
Definition exp_p (n : nat) (p : expansion) : string :=
  "PartialExpansion {" ++ field_p n "order" (string_of_Z (ex_order p)) ++ field_p n "of" (e_p (S n) (ex_of p))
    ++ field_p n "at" (e_p (S n) (ex_at p)) ++ field_p n "coefficient" (vec_p (S n) (map (e_p (S (S n))) (ex_coef p)))
    ++ field_p n "residual" (e_p (S n) (ex_residual p)) ++ line n ++ "}".
(** partial_expansion.rs:43-47 *)
Definition taylor_error_p (n : nat) (x : taylor_error) : string :=
  "TaylorExpansionError {" ++ field_p n "err_expr" (e_p (S n) (te_expr x)) ++ field_p n "reason" (str_debug (te_reason x))
    ++ line n ++ "}".
(** derivative/mod.rs:27-30 *)
Definition deriv_error_p (n : nat) (x : derivative_error) : string :=
  match x with DerivativeError e => "DerivativeError {" ++ field_p n "err_src" (e_p (S n) e) ++ line n ++ "}" end.
(** core: [#[derive(Debug)] enum Result] *)
Definition result_p {A E} (da : nat -> A -> string) (de : nat -> E -> string) (n : nat) (r : result A E) : string :=
  match r with
  | ROk a => tuple_p n "Ok" (da (S n) a)
  | RErr e => tuple_p n "Err" (de (S n) e)
  end.
End Debug2.
