(** * Ast: src/ast/** and src/math_op/** *)
From Coq Require Import ZArith List String Bool.
From Verif Require Import Base Float Rational SmartNum.
Import ListNotations.
Open Scope Z_scope.
Open Scope res_scope.

(** ast/op/operator.rs:5-17 *)
Inductive optype := ONeg | OAdd | OSub | OMul | ODiv | OSin | OCos | OExp | OLn | OPow.

(** ast/op/operator.rs:19-24 [struct AstOperator] *)
Record operator := mkOp { symbol : string; priority : Z; descriptor : optype }.

(** ast/op/operand.rs:6-9, 25-29 [Variable], [AstOperand] *)
Inductive operand := Num (n : snum) | Var (name : string).

(** ast/tree.rs:13-17 [AstNode] *)
Inductive node := Operator (op : operator) | Operand (o : operand).

(** ast/tree.rs:28-32 [struct Expression] (public fields: any shape of tree can be built) *)
Inductive expr := Expr (root : node) (child : list expr).

Definition root (e : expr) : node := let (r, _) := e in r.
Definition child (e : expr) : list expr := let (_, c) := e in c.

(** math_op/*.rs [gen_op_*]: neg.rs:8-14, add.rs:8-14, sub.rs:8-14, mul.rs:8-14, div.rs:8-14,
    sin.rs:8-14, cos.rs:8-14, exp.rs:8-14, ln.rs:8-14, pow.rs:10-16 *)
Definition gen_op (t : optype) : operator :=
  match t with
  | ONeg => mkOp "-" 1 ONeg
  | OAdd => mkOp "+" 2 OAdd
  | OSub => mkOp "-" 2 OSub
  | OMul => mkOp "*" 3 OMul
  | ODiv => mkOp "/" 4 ODiv
  | OSin => mkOp "sin" 5 OSin
  | OCos => mkOp "cos" 5 OCos
  | OExp => mkOp "exp" 5 OExp
  | OLn => mkOp "ln" 5 OLn
  | OPow => mkOp "^" 4 OPow
  end.

Definition mk1 (t : optype) (a : expr) : expr := Expr (Operator (gen_op t)) [a].
Definition mk2 (t : optype) (a b : expr) : expr := Expr (Operator (gen_op t)) [a; b].

(** math_op/neg.rs:16-25 *)
Definition e_neg (a : expr) : expr := mk1 ONeg a.
(** math_op/add.rs:16-25 *)
Definition e_add (a b : expr) : expr := mk2 OAdd a b.
(** math_op/sub.rs:16-25 *)
Definition e_sub (a b : expr) : expr := mk2 OSub a b.
(** math_op/mul.rs:16-25 *)
Definition e_mul (a b : expr) : expr := mk2 OMul a b.
(** math_op/div.rs:16-25 *)
Definition e_div (a b : expr) : expr := mk2 ODiv a b.
(** math_op/sin.rs:21-46 (by value, by reference and the free function agree) *)
Definition e_sin (a : expr) : expr := mk1 OSin a.
(** math_op/cos.rs:21-46 *)
Definition e_cos (a : expr) : expr := mk1 OCos a.
(** math_op/exp.rs:21-34 *)
Definition e_exp (a : expr) : expr := mk1 OExp a.
(** math_op/ln.rs:21-34 *)
Definition e_ln (a : expr) : expr := mk1 OLn a.
(** math_op/pow.rs:23-36 *)
Definition e_pow (a r : expr) : expr := mk2 OPow a r.

(** ast/tree.rs:214-224 [From<T: Into<SmartNum>>] *)
Definition e_num (n : snum) : expr := Expr (Operand (Num n)) [].
Definition e_of_i64 (z : Z) : expr := e_num (sn_of_i64 z).
Definition e_of_u64 (m : mode) (z : Z) : res expr := let* n := sn_of_u64 m z in Ok (e_num n).
(** ast/tree.rs:104-109 [new_variable], 244-248 [From<Variable>] *)
Definition e_var (name : string) : expr := Expr (Operand (Var name)) [].
(** ast/tree.rs:118-120, 129-131, 140-142, 151-153 *)
Definition e_one : expr := e_of_i64 1.
Definition e_zero : expr := e_of_i64 0.
Definition e_pi : expr := e_num sn_pi.
Definition e_e : expr := e_num sn_e.

(** ast/op/operand.rs:80-113 *)
Definition od_is_num (o : operand) : bool := match o with Num _ => true | Var _ => false end.
Definition od_is_one (o : operand) : bool := match o with Num n => sn_is_one n | Var _ => false end.
Definition od_is_zero (o : operand) : bool := match o with Num n => sn_is_zero n | Var _ => false end.
Definition od_is_pi (o : operand) : bool := match o with Num n => sn_is_pi n | Var _ => false end.
Definition od_is_e (o : operand) : bool := match o with Num n => sn_is_e n | Var _ => false end.

(** ast/tree.rs:52-71, 111-149 *)
Definition lift_od (p : operand -> bool) (e : expr) : bool :=
  match root e with Operator _ => false | Operand o => p o end.
Definition is_operator (e : expr) : bool := match root e with Operator _ => true | _ => false end.
Definition is_operand (e : expr) : bool := match root e with Operator _ => false | _ => true end.
Definition is_num : expr -> bool := lift_od od_is_num.
Definition is_one : expr -> bool := lift_od od_is_one.
Definition is_zero : expr -> bool := lift_od od_is_zero.
Definition is_pi : expr -> bool := lift_od od_is_pi.
Definition is_e : expr -> bool := lift_od od_is_e.

(** ast/tree.rs:162-184 and operand.rs:122-140 [to_smart_num]; the error carries no data
    we use, so [Result] becomes [option]. *)
Definition to_smart_num (e : expr) : option snum :=
  match root e with Operand (Num n) => Some n | _ => None end.
(** [.to_smart_num().unwrap()] *)
Definition to_smart_num_unwrap (e : expr) : res snum :=
  match to_smart_num e with Some n => Ok n | None => Panic end.

(** ast/tree.rs:186-212 [to_rational] *)
Definition e_to_rational (m : mode) (e : expr) : res (option rat) :=
  match root e with Operand (Num n) => sn_to_rational m n | _ => Ok None end.

(** ast/tree.rs:226-242 [From<Expression> for Option<Variable>], operand.rs:31-47 *)
Definition to_variable (e : expr) : option string :=
  match root e with Operand (Var v) => Some v | _ => None end.

(** ast/tree.rs:73-77 [near]: [Err] when either side is not a number *)
Definition e_near (m : mode) (a b : expr) (eps : f64) : res (option bool) :=
  match to_smart_num a, to_smart_num b with
  | Some x, Some y =>
      let* d := sn_sub m x y in
      let* f := sn_to_f64 m d in
      Ok (Some (f_ltb (f_abs f) eps))
  | _, _ => Ok None
  end.

(** derived [PartialEq] of OperatorType (ast/op/operator.rs:5) *)
Definition optype_eqb (a b : optype) : bool :=
  match a, b with
  | ONeg, ONeg | OAdd, OAdd | OSub, OSub | OMul, OMul | ODiv, ODiv
  | OSin, OSin | OCos, OCos | OExp, OExp | OLn, OLn | OPow, OPow => true
  | _, _ => false
  end.
(** ast/op/operator.rs:26-30 [PartialEq for AstOperator]: compares the descriptor only *)
Definition op_eqb (a b : operator) : bool := optype_eqb (descriptor a) (descriptor b).
