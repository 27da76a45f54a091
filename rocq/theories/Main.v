(** * Main: src/main.rs, and the error values of [to_smart_num] and [near] *)
From Coq Require Import ZArith List String Bool.
From Verif Require Import Base Float Rational SmartNum Ast Compute Limit Display.
Import ListNotations.
Open Scope Z_scope.
Open Scope string_scope.
Open Scope res_scope.

(** ast/op/operand.rs:49-64 [OperandIsNotNumberError] and the one static value of it *)
Inductive operand_error := OperandIsNotNumberError.
(** operand.rs:52-56 *)
Definition operand_error_to_string (_ : operand_error) : string := "operand is not a number!".
(** operand.rs:58-62 [source] *)
Definition operand_error_source (_ : operand_error) : option operand_error := None.

(** ast/tree.rs:34-37 [ExprIsNotNumError]; the trait object can only hold the static error above *)
Inductive not_num_error := ExprIsNotNumError (source_ : option operand_error).
(** tree.rs:39-43 *)
Definition not_num_to_string (_ : not_num_error) : string := "This expression is not a number!".
(** tree.rs:45-49 [source] *)
Definition not_num_source (e : not_num_error) : option operand_error :=
  let (s) := e in s.

(** operand.rs:122-140 [to_smart_num] of an operand, with its error *)
Definition od_to_smart_num_r (o : operand) : result snum operand_error :=
  match o with Num n => ROk n | Var _ => RErr OperandIsNotNumberError end.
(** tree.rs:162-184 [to_smart_num] with its error (Ast.to_smart_num drops the error) *)
Definition to_smart_num_r (e : expr) : result snum not_num_error :=
  match root e with
  | Operator _ => RErr (ExprIsNotNumError None)
  | Operand o =>
      match od_to_smart_num_r o with
      | ROk n => ROk n
      | RErr err => RErr (ExprIsNotNumError (Some err))
      end
  end.
(** tree.rs:73-77 [near] with its error ([?] twice, left operand first) *)
Definition near_r (m : mode) (a b : expr) (eps : f64) : res (result bool not_num_error) :=
  match to_smart_num_r a with
  | RErr err => Ok (RErr err)
  | ROk x =>
      match to_smart_num_r b with
      | RErr err => Ok (RErr err)
      | ROk y =>
          let* d := sn_sub m x y in
          let* f := sn_to_f64 m d in
          Ok (ROk (f_ltb (f_abs f) eps))
      end
  end.

(** val_holder.rs:95-101 [SmartNumVal::zero], [one] *)
Definition val_zero : val := Integer 0.
Definition val_one : val := Integer 1.

(** main.rs:14-20, 25-31: one [println!] of a block; [unwrap] panics on [Err] *)
Definition demo_line (m : mode) (f x at_ : expr) (order : Z) : res string :=
  let* name := e_to_string f in
  let* r := taylor_expansion m f x at_ order in
  let* t := match r with ROk t => Ok t | RErr _ => Panic end in
  let* body := expansion_to_string m t in
  Ok ("Taylor expansion of " ++ name ++ ": " ++ body).

(** main.rs:10-33: the lines written to standard output *)
Definition main (m : mode) : res (list string) :=
  let* l1 := demo_line m (e_exp (e_var "x")) (e_var "x") e_zero 5 in
  let* l2 := demo_line m (e_ln (e_var "x")) (e_var "x") e_one 5 in
  Ok ["Hello, world!"; l1; l2].

(** ast/op/operator.rs:5-17: the derived [Ord], [PartialOrd] of [OperatorType] compare the
    positions of the variants in the declaration *)
Definition optype_index (t : optype) : nat :=
  match t with
  | ONeg => 0 | OAdd => 1 | OSub => 2 | OMul => 3 | ODiv => 4
  | OSin => 5 | OCos => 6 | OExp => 7 | OLn => 8 | OPow => 9
  end.
(** [cmp] *)
Definition optype_cmp (a b : optype) : comparison := Nat.compare (optype_index a) (optype_index b).
(** [<], [<=] *)
Definition optype_ltb (a b : optype) : bool := match optype_cmp a b with Lt => true | _ => false end.
Definition optype_leb (a b : optype) : bool := match optype_cmp a b with Gt => false | _ => true end.
