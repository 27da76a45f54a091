(** * Direct: a second, statement-by-statement transcription of src/compute/** and of every
    call form of the API

    [Compute.v] and [Limit.v] take short cuts: a rule there receives the children already mapped
    through the recursive call, and [Err] arms that look unreachable are left out.  Here every
    body is written as it stands in /repo: children are popped from the [Vec] one at a time and
    the recursive call is made where the source makes it, every [?], [ok_or] and [map_err] is
    kept, and each trait impl (by value, by reference, by variable) has its own definition.
    The Rust recursion is not structural on lists popped from the back, so these functions
    carry a recursion budget [fuel] (= maximal depth) and report [Fuel] when it runs out. *)
From Coq Require Import ZArith List String Bool.
From Coq Require Import Floats.SpecFloat.
From Verif Require Import Base Float Rational SmartNum Ast Compute Limit Main.
Import ListNotations.
Open Scope Z_scope.
Open Scope res_scope.

(** ** num_aggregate, as written *)
Section Aggregate.
Variable m : mode.
(** the recursive method call [.num_aggregate()] *)
Variable agg : expr -> res expr.

(** num_aggregate/rules/neg.rs:6-19 *)
Definition d_neg_eval (c : list expr) : res expr :=
  let* (s, _) := pop_unwrap c in
  let* sub := agg s in
  if is_num sub then
    let* n := to_smart_num_unwrap sub in
    let* v := sn_neg m n in
    Ok (e_num v)
  else
    match root sub with
    | Operator op =>
        match descriptor op with
        | ONeg => let* (x, _) := pop_unwrap (child sub) in Ok x
        | _ => Ok (e_neg sub)
        end
    | Operand _ => Ok (e_neg sub)
    end.

(** num_aggregate/rules/add.rs:5-17 *)
Definition d_add_eval (c : list expr) : res expr :=
  let* (r0, c1) := pop_unwrap c in
  let* r := agg r0 in
  let* (l0, _) := pop_unwrap c1 in
  let* l := agg l0 in
  if is_num l && is_num r then
    let* x := to_smart_num_unwrap l in
    let* y := to_smart_num_unwrap r in
    let* v := sn_add m x y in
    Ok (e_num v)
  else if is_zero l then Ok r
  else if is_zero r then Ok l
  else Ok (e_add l r).

(** num_aggregate/rules/sub.rs:5-17 *)
Definition d_sub_eval (c : list expr) : res expr :=
  let* (r0, c1) := pop_unwrap c in
  let* r := agg r0 in
  let* (l0, _) := pop_unwrap c1 in
  let* l := agg l0 in
  if is_num l && is_num r then
    let* x := to_smart_num_unwrap l in
    let* y := to_smart_num_unwrap r in
    let* v := sn_sub m x y in
    Ok (e_num v)
  else if is_zero l then Ok (e_neg r)
  else if is_zero r then Ok l
  else Ok (e_sub l r).

(** num_aggregate/rules/mul.rs:5-19 *)
Definition d_mul_eval (c : list expr) : res expr :=
  let* (r0, c1) := pop_unwrap c in
  let* r := agg r0 in
  let* (l0, _) := pop_unwrap c1 in
  let* l := agg l0 in
  if is_num l && is_num r then
    let* x := to_smart_num_unwrap l in
    let* y := to_smart_num_unwrap r in
    let* v := sn_mul m x y in
    Ok (e_num v)
  else if is_zero l || is_zero r then Ok (e_of_i64 0)
  else if is_one l then Ok r
  else if is_one r then Ok l
  else Ok (e_mul l r).

(** num_aggregate/rules/div.rs:5-15 *)
Definition d_div_eval (c : list expr) : res expr :=
  let* (r0, c1) := pop_unwrap c in
  let* r := agg r0 in
  let* (l0, _) := pop_unwrap c1 in
  let* l := agg l0 in
  if is_num l && is_num r then
    let* x := to_smart_num_unwrap l in
    let* y := to_smart_num_unwrap r in
    let* v := sn_div m x y in
    Ok (e_num v)
  else if is_zero l then Ok (e_of_i64 0)
  else Ok (e_div l r).

(** num_aggregate/rules/sin.rs:5-19 *)
Definition d_sin_eval (c : list expr) : res expr :=
  let* (s, _) := pop_unwrap c in
  let* sub := agg s in
  match root sub with
  | Operand o => if od_is_zero o || od_is_pi o then Ok (e_of_i64 0) else Ok (e_sin sub)
  | Operator _ => Ok (e_sin sub)
  end.

(** num_aggregate/rules/cos.rs:5-19 *)
Definition d_cos_eval (c : list expr) : res expr :=
  let* (s, _) := pop_unwrap c in
  let* sub := agg s in
  match root sub with
  | Operand o => if od_is_zero o || od_is_pi o then Ok (e_of_i64 1) else Ok (e_cos sub)
  | Operator _ => Ok (e_cos sub)
  end.

(** num_aggregate/rules/exp.rs:7-27 *)
Definition d_exp_eval (c : list expr) : res expr :=
  let* (s, _) := pop_unwrap c in
  let* sub := agg s in
  match root sub with
  | Operand (Var _) => Ok (e_exp sub)
  | Operand (Num v) =>
      if sn_is_zero v then Ok (e_of_i64 1)
      else if sn_is_one v then Ok e_e
      else Ok (e_exp sub)
  | Operator op =>
      match descriptor op with
      | OLn => let* (x, _) := pop_unwrap (child sub) in Ok x
      | _ => Ok (e_exp sub)
      end
  end.

(** num_aggregate/rules/ln.rs:7-27 *)
Definition d_ln_eval (c : list expr) : res expr :=
  let* (s, _) := pop_unwrap c in
  let* sub := agg s in
  match root sub with
  | Operand (Var _) => Ok (e_ln sub)
  | Operand (Num v) =>
      if sn_is_e v then Ok e_one
      else if sn_is_one v then Ok e_zero
      else Ok (e_ln sub)
  | Operator op =>
      match descriptor op with
      | OExp => let* (x, _) := pop_unwrap (child sub) in Ok x
      | _ => Ok (e_ln sub)
      end
  end.

(** num_aggregate/rules/pow.rs:7-28 *)
Definition d_pow_eval (c : list expr) : res expr :=
  let* (r0, c1) := pop_unwrap c in
  let* r := agg r0 in
  let* (s, _) := pop_unwrap c1 in
  let* sub := agg s in
  match root sub with
  | Operand (Var _) => Ok (e_pow sub r)
  | Operand (Num v) =>
      if sn_is_zero v then Ok (e_of_i64 1)
      else if sn_is_one v then Ok r
      else Ok (e_pow sub r)
  | Operator op =>
      match descriptor op with
      | OLn => let* (x, _) := pop_unwrap (child sub) in Ok x
      | _ => Ok (e_pow sub r)
      end
  end.
End Aggregate.

(** num_aggregate/mod.rs:22-40 *)
Fixpoint d_aggregate (fuel : nat) (m : mode) (e : expr) : res expr :=
  match fuel with
  | O => Fuel
  | S f =>
      match root e with
      | Operand _ => Ok e
      | Operator op =>
          match descriptor op with
          | ONeg => d_neg_eval m (d_aggregate f m) (child e)
          | OAdd => d_add_eval m (d_aggregate f m) (child e)
          | OSub => d_sub_eval m (d_aggregate f m) (child e)
          | OMul => d_mul_eval m (d_aggregate f m) (child e)
          | ODiv => d_div_eval m (d_aggregate f m) (child e)
          | OSin => d_sin_eval (d_aggregate f m) (child e)
          | OCos => d_cos_eval (d_aggregate f m) (child e)
          | OExp => d_exp_eval (d_aggregate f m) (child e)
          | OLn => d_ln_eval (d_aggregate f m) (child e)
          | OPow => d_pow_eval (d_aggregate f m) (child e)
          end
      end
  end.

(** ** substitute, as written *)

(** substitute/mod.rs:42-46: the [for] loop over the children; [sub] is the recursive call *)
Fixpoint d_sub_loop (sub : expr -> res (result expr substitute_error)) (cs c : list expr)
  : res (result (list expr) substitute_error) :=
  match cs with
  | [] => Ok (ROk c)
  | x :: cs' =>
      let? y := sub x in
      d_sub_loop sub cs' (c ++ [y])
  end.

(** [Option::ok_or] followed by [?] *)
Definition ok_or {A E} (o : option A) (e : E) : res (result A E) :=
  match o with Some a => Ok (ROk a) | None => Ok (RErr e) end.

(** substitute/mod.rs:25-53 [Substitute<&Variable, &Expression>]; line 29 is the blanket
    conversion [From<T> for Option<T>], which is [Some] *)
Fixpoint d_subst_var (fuel : nat) (e : expr) (u : string) (v : expr)
  : res (result expr substitute_error) :=
  match fuel with
  | O => Fuel
  | S f =>
      let? src := ok_or (Some u) SubstituteError in
      match root e with
      | Operand (Num _) => Ok (ROk e)
      | Operand (Var w) => if String.eqb w src then Ok (ROk v) else Ok (ROk e)
      | Operator _ =>
          let? c := d_sub_loop (fun x => d_subst_var f x src v) (child e) [] in
          Ok (ROk (Expr (root e) c))
      end
  end.

(** ast/op/operand.rs:31-38 [From<&AstOperand> for Option<&Variable>] *)
Definition od_to_variable_ref (o : operand) : option string :=
  match o with Num _ => None | Var v => Some v end.
(** ast/op/operand.rs:40-47 [From<AstOperand> for Option<Variable>] *)
Definition od_to_variable_val (o : operand) : option string :=
  match o with Num _ => None | Var v => Some v end.
(** ast/tree.rs:226-233 [From<&Expression> for Option<&Variable>] *)
Definition to_variable_ref (e : expr) : option string :=
  match root e with Operator _ => None | Operand o => od_to_variable_ref o end.
(** ast/tree.rs:235-242 [From<Expression> for Option<Variable>] *)
Definition to_variable_val (e : expr) : option string :=
  match root e with Operator _ => None | Operand o => od_to_variable_val o end.

(** substitute/mod.rs:55-62 [Substitute<Expression, Expression>] *)
Definition d_subst_val (fuel : nat) (e u v : expr) : res (result expr substitute_error) :=
  let? u_ := ok_or (to_variable_val u) SubstituteError in
  d_subst_var fuel e u_ v.
(** substitute/mod.rs:64-71 [Substitute<&Expression, &Expression>] *)
Definition d_subst_ref (fuel : nat) (e u v : expr) : res (result expr substitute_error) :=
  let? u_ := ok_or (to_variable_ref u) SubstituteError in
  d_subst_var fuel e u_ v.

(** ** derivative, as written *)
Section Derivative.
Notation dres := (res (result expr derivative_error)).
(** the recursive method call [.derivative(to)] *)
Variable der : expr -> dres.

(** derivative/rules/neg.rs:6-12 *)
Definition d_neg_deriv (c : list expr) : dres :=
  let* (s, _) := pop_unwrap c in
  let? sub := der s in
  Ok (ROk (e_neg sub)).
(** derivative/rules/add.rs:6-13 *)
Definition d_add_deriv (c : list expr) : dres :=
  let* (r0, c1) := pop_unwrap c in
  let? r := der r0 in
  let* (l0, _) := pop_unwrap c1 in
  let? l := der l0 in
  Ok (ROk (e_add l r)).
(** derivative/rules/sub.rs:6-13 *)
Definition d_sub_deriv (c : list expr) : dres :=
  let* (r0, c1) := pop_unwrap c in
  let? r := der r0 in
  let* (l0, _) := pop_unwrap c1 in
  let? l := der l0 in
  Ok (ROk (e_sub l r)).
(** derivative/rules/mul.rs:6-16 *)
Definition d_mul_deriv (c : list expr) : dres :=
  let* (v, c1) := pop_unwrap c in
  let* (u, _) := pop_unwrap c1 in
  let? v_d := der v in
  let? u_d := der u in
  Ok (ROk (e_add (e_mul u_d v) (e_mul u v_d))).
(** derivative/rules/div.rs:6-16 *)
Definition d_div_deriv (c : list expr) : dres :=
  let* (v, c1) := pop_unwrap c in
  let* (u, _) := pop_unwrap c1 in
  let? v_d := der v in
  let? u_d := der u in
  Ok (ROk (e_div (e_sub (e_mul u_d v) (e_mul u v_d)) (e_mul v v))).
(** derivative/rules/sin.rs:7-14 *)
Definition d_sin_deriv (c : list expr) : dres :=
  let* (sub, _) := pop_unwrap c in
  let? d := der sub in
  Ok (ROk (e_mul (e_cos sub) d)).
(** derivative/rules/cos.rs:7-14 *)
Definition d_cos_deriv (c : list expr) : dres :=
  let* (sub, _) := pop_unwrap c in
  let? d := der sub in
  Ok (ROk (e_mul (e_neg (e_sin sub)) d)).
(** derivative/rules/exp.rs:7-14 *)
Definition d_exp_deriv (c : list expr) : dres :=
  let* (u, _) := pop_unwrap c in
  let? d := der u in
  Ok (ROk (e_mul d (e_exp u))).
(** derivative/rules/ln.rs:6-13 *)
Definition d_ln_deriv (c : list expr) : dres :=
  let* (u, _) := pop_unwrap c in
  let? d := der u in
  Ok (ROk (e_div d u)).
(** derivative/rules/pow.rs:7-19 *)
Definition d_pow_deriv (c : list expr) : dres :=
  let* (r, c1) := pop_unwrap c in
  let* (u, _) := pop_unwrap c1 in
  let? r_d := der r in
  let? u_d := der u in
  let ln_u := e_ln u in
  let u_pow_r := e_pow u r in
  Ok (ROk (e_mul u_pow_r (e_add (e_mul r_d ln_u) (e_div (e_mul r u_d) u)))).
End Derivative.

(** derivative/mod.rs:41-78 [Derivative<&Variable>] (the final [num_aggregate] of the result is
    the transcription above with any sufficient budget, i.e. [num_aggregate], c94_aggregate) *)
Fixpoint d_deriv_var (fuel : nat) (m : mode) (e : expr) (to_ : string)
  : res (result expr derivative_error) :=
  match fuel with
  | O => Fuel
  | S f =>
      let? to := ok_or (Some to_) (DerivativeError (e_var to_)) in
      let? result :=
        match root e with
        | Operand (Num _) => Ok (ROk (e_of_i64 0))
        | Operand (Var another) =>
            if String.eqb to another then Ok (ROk (e_of_i64 1)) else Ok (ROk (e_of_i64 0))
        | Operator op =>
            let der := fun x => d_deriv_var f m x to in
            match descriptor op with
            | ONeg => d_neg_deriv der (child e)
            | OAdd => d_add_deriv der (child e)
            | OSub => d_sub_deriv der (child e)
            | OMul => d_mul_deriv der (child e)
            | ODiv => d_div_deriv der (child e)
            | OSin => d_sin_deriv der (child e)
            | OCos => d_cos_deriv der (child e)
            | OExp => d_exp_deriv der (child e)
            | OLn => d_ln_deriv der (child e)
            | OPow => d_pow_deriv der (child e)
            end
        end in
      let* z := num_aggregate m result in
      Ok (ROk z)
  end.

(** derivative/mod.rs:80-89 [Derivative<&Expression>] *)
Definition d_deriv_ref (fuel : nat) (m : mode) (e to : expr) : res (result expr derivative_error) :=
  let? variable := ok_or (to_variable_ref to) (DerivativeError to) in
  d_deriv_var fuel m e variable.
(** derivative/mod.rs:91-100 [Derivative<Expression>] *)
Definition d_deriv_val (fuel : nat) (m : mode) (e to : expr) : res (result expr derivative_error) :=
  let? variable := ok_or (to_variable_ref to) (DerivativeError to) in
  d_deriv_var fuel m e variable.

(** ** taylor_expansion, as written *)

(** [Result::map_err] *)
Definition map_err {A E F} (f : E -> F) (r : res (result A E)) : res (result A F) :=
  let* x := r in
  match x with ROk a => Ok (ROk a) | RErr e => Ok (RErr (f e)) end.

(** partial_expansion.rs:66-83; [fuel] is the budget of each inner [substitute]/[derivative] *)
Fixpoint d_taylor_loop (fuel : nat) (m : mode) (of_ : string) (at_ err_expr : expr) (n : nat)
    (k : Z) (factorial : snum) (residual : expr) (coefficient : list expr)
  : res (result (list expr * expr) taylor_error) :=
  match n with
  | O => Ok (ROk (coefficient, residual))
  | S n' =>
      let* kn := sn_of_u64 m (Z.max k 1) in
      let* factorial' := sn_mul m factorial kn in
      let? s := map_err (fun _ => mkTaylorError err_expr "substitute failure")
                  (d_subst_var fuel residual of_ at_) in
      let* a := num_aggregate m s in
      let cur := e_div a (e_num factorial') in
      let* c := num_aggregate m cur in
      let? residual' := map_err (fun _ => mkTaylorError err_expr "derivative failure")
                          (d_deriv_var fuel m residual of_) in
      d_taylor_loop fuel m of_ at_ err_expr n' (k + 1) factorial' residual' (coefficient ++ [c])
  end.

(** partial_expansion.rs:58-92 [TaylorExpansion<&Variable, &Expression>] *)
Definition d_taylor_var (fuel : nat) (m : mode) (e : expr) (of_ : string) (at_ : expr) (order : Z)
  : res (result expansion taylor_error) :=
  let? (coef, residual) :=
    d_taylor_loop fuel m of_ at_ e (Z.to_nat (order + 1)) 0 (sn_of_i64 1) e [] in
  Ok (ROk (mkExpansion order (e_var of_) at_ coef residual)).

(** partial_expansion.rs:94-109 [TaylorExpansion<Expression, Expression>] *)
Definition d_taylor_val (fuel : nat) (m : mode) (e of_ at_ : expr) (order : Z)
  : res (result expansion taylor_error) :=
  match to_variable_val of_ with
  | None => Ok (RErr (mkTaylorError of_ "not a variable"))
  | Some x => d_taylor_var fuel m e x at_ order
  end.

(** ** limit, as written (the rules that carry an [Err] short cut in Limit.v) *)

(** limit/rules/div.rs:29-39; [fuel] is the budget of the derivatives *)
Fixpoint d_div_loop (fuel : nat) (m : mode) (x : string) (lim : expr -> res lres) (n : nat)
    (l r : expr) : res lres :=
  match n with
  | O => Ok (RErr NoValidLimitFound)
  | S n' =>
      let? a := lim l in
      let? b := lim r in
      match l_div a b with
      | ROk z => Ok (ROk z)
      | RErr _ =>
          let? l' := map_err (fun _ => NoValidLimitFound) (d_deriv_var fuel m l x) in
          let? r' := map_err (fun _ => NoValidLimitFound) (d_deriv_var fuel m r x) in
          d_div_loop fuel m x lim n' l' r'
      end
  end.

(** limit/rules/sin.rs:24-33, cos.rs:21-30 *)
Definition d_subst_limit (fuel : nat) (m : mode) (x : string) (to e : expr) : res lres :=
  let? ex := map_err (fun _ => NoValidLimitFound) (d_subst_var fuel e x to) in
  let* z := num_aggregate m ex in
  Ok (ROk (if is_zero z then Infinitesimal else Normal z)).

(** limit/rules/div.rs:20-40 *)
Definition d_div_limit (fuel : nat) (m : mode) (x : string) (order_try : Z)
    (lim : expr -> res lres) (e : expr) : res lres :=
  let* (r, rest) := pop_unwrap (child e) in
  let* (l, _) := pop_unwrap rest in
  d_div_loop fuel m x lim (Z.to_nat (order_try + 1)) l r.

(** limit/rules/sin.rs:20-35, cos.rs:20-31 *)
Definition d_sin_limit (fuel : nat) (m : mode) (x : string) (to e : expr) : res lres :=
  if is_zero to then Ok (ROk Infinitesimal) else d_subst_limit fuel m x to e.
Definition d_cos_limit (fuel : nat) (m : mode) (x : string) (to e : expr) : res lres :=
  d_subst_limit fuel m x to e.

(** limit/mod.rs:28-73 [LimitTry<&Variable, Expression>]; [depth] bounds the recursion of
    [limit] itself, [fuel] that of the calls it makes to [derivative] and [substitute].
    Lines 60-71 are kept: the flag is computed first and the arm marked "Unreachable" returns
    [Err].  (The neg, add, sub and mul rules of Limit.v are already literal.) *)
Fixpoint d_limit_var (depth fuel : nat) (m : mode) (x : string) (to : expr) (order_try : Z)
    (e : expr) : res lres :=
  match depth with
  | O => Fuel
  | S d =>
      let lim := d_limit_var d fuel m x to order_try in
      let? z :=
        match root e with
        | Operand (Num n) => Ok (ROk (Normal (Expr (Operand (Num n)) [])))
        | Operand (Var v) =>
            if String.eqb v x then
              if is_zero to then Ok (ROk Infinitesimal) else Ok (ROk (Normal to))
            else Ok (ROk (Normal (e_var v)))
        | Operator op =>
            match descriptor op with
            | ONeg => let* l := neg_limit_expr_rule e in Ok (ROk l)
            | OAdd => add_limit_expr_rule lim e
            | OSub => sub_limit_expr_rule lim e
            | OMul => mul_limit_expr_rule lim e
            | ODiv => d_div_limit fuel m x order_try lim e
            | OSin => d_sin_limit fuel m x to e
            | OCos => d_cos_limit fuel m x to e
            | OExp | OLn | OPow => Panic
            end
        end in
      let flag := match z with Normal _ => true | _ => false end in
      if flag then
        match z with
        | Normal ex => let* ex' := num_aggregate m ex in Ok (ROk (Normal ex'))
        | _ => Ok (RErr NoValidLimitFound)
        end
      else Ok (ROk z)
  end.

(** limit/mod.rs:75-83 [LimitTry<Expression, Expression>] *)
Definition d_limit_val (depth fuel : nat) (m : mode) (e of_ to : expr) (order_try : Z) : res lres :=
  let* of := match to_variable_val of_ with Some v => Ok v | None => Panic end in
  d_limit_var depth fuel m of to order_try e.

(** ** numbers from every primitive type, and conversions into an expression *)

(** the integer types with a [From] impl for SmartNumVal *)
Inductive int_ty := TU8 | TI8 | TU16 | TI16 | TU32 | TI32 | TI64 | TU64.

(** val_holder.rs:140-144, 158-199: one impl per type.  [i64::from] (std) widens without
    changing the value; [v as i64] for [u64] is the cast of Base.v *)
Definition val_from_int (m : mode) (t : int_ty) (v : Z) : res val :=
  match t with
  | TI64 => Ok (Integer v)                                   (* 140-144 *)
  | TU8 => let i64_from := v in Ok (Integer i64_from)        (* 159-163 *)
  | TI8 => let i64_from := v in Ok (Integer i64_from)        (* 165-169 *)
  | TU16 => let i64_from := v in Ok (Integer i64_from)       (* 171-175 *)
  | TI16 => let i64_from := v in Ok (Integer i64_from)       (* 177-181 *)
  | TU32 => let i64_from := v in Ok (Integer i64_from)       (* 183-187 *)
  | TI32 => let i64_from := v in Ok (Integer i64_from)       (* 189-193 *)
  | TU64 => let* z := cast_i64 m v in Ok (Integer z)         (* 195-199 *)
  end.

(** the argument types [T: Into<Expression>] accepts *)
Inductive into_expr :=
| FromInt (t : int_ty) (v : Z)
| FromF64 (f : f64)
| FromF32 (f : spec_float)
| FromNum (n : snum)
| FromVariable (name : string)
| FromOperand (o : operand)
| FromExpr (e : expr).

(** mod.rs:150-165, then operand.rs:142-149, tree.rs:19-26, tree.rs:214-224: a number goes
    through SmartNum, AstOperand and AstNode; tree.rs:244-248 [From<Variable>]; tree.rs:250-257
    [From<AstOperand>]; an [Expression] converts to itself (std) *)
Definition into_expression (m : mode) (x : into_expr) : res expr :=
  match x with
  | FromInt t v => let* w := val_from_int m t v in Ok (Expr (Operand (Num (sn_of_val w))) [])
  | FromF64 f => Ok (Expr (Operand (Num (sn_of_val (Real f)))) [])
  | FromF32 f => Ok (Expr (Operand (Num (sn_of_val (Real (f_of_f32 f))))) [])
  | FromNum n => Ok (Expr (Operand (Num n)) [])
  | FromVariable name => Ok (e_var name)
  | FromOperand o => Ok (Expr (Operand o) [])
  | FromExpr e => Ok e
  end.

(** math_op/sin.rs:21-30 [Sin for Expression], 32-41 [Sin for &Expression] *)
Definition sin_val (e : expr) : expr := Expr (Operator (mkOp "sin" 5 OSin)) [e].
Definition sin_ref (e : expr) : expr := let copy := e in Expr (Operator (mkOp "sin" 5 OSin)) [copy].
(** math_op/sin.rs:43-46 *)
Definition sin_fn (m : mode) (x : into_expr) : res expr :=
  let* ex := into_expression m x in Ok (sin_val ex).
(** math_op/cos.rs:21-30, 32-41 *)
Definition cos_val (e : expr) : expr := Expr (Operator (mkOp "cos" 5 OCos)) [e].
Definition cos_ref (e : expr) : expr := let copy := e in Expr (Operator (mkOp "cos" 5 OCos)) [copy].
(** math_op/cos.rs:43-46 *)
Definition cos_fn (m : mode) (x : into_expr) : res expr :=
  let* ex := into_expression m x in Ok (cos_val ex).
(** math_op/exp.rs:21-34, the method and the function *)
Definition exp_val (e : expr) : expr := Expr (Operator (mkOp "exp" 5 OExp)) [e].
Definition exp_fn (e : expr) : expr := exp_val e.
(** math_op/ln.rs:21-34 *)
Definition ln_val (e : expr) : expr := Expr (Operator (mkOp "ln" 5 OLn)) [e].
Definition ln_fn (e : expr) : expr := ln_val e.
(** math_op/pow.rs:23-36 *)
Definition pow_into (m : mode) (e : expr) (r : into_expr) : res expr :=
  let* a := into_expression m r in Ok (Expr (Operator (mkOp "^" 4 OPow)) [e; a]).

(** ** conversions back to numbers, by value and by reference *)

(** operand.rs:122-130, 132-140 *)
Definition od_to_smart_num_val (o : operand) : result snum operand_error :=
  match o with Num n => ROk n | _ => RErr OperandIsNotNumberError end.
Definition od_to_smart_num_ref (o : operand) : result snum operand_error :=
  match o with Num n => ROk n | _ => RErr OperandIsNotNumberError end.
(** tree.rs:162-172 *)
Definition to_smart_num_val (e : expr) : result snum not_num_error :=
  match root e with
  | Operator _ => RErr (ExprIsNotNumError None)
  | Operand o =>
      match od_to_smart_num_val o with
      | ROk n => ROk n
      | RErr x => RErr (ExprIsNotNumError (Some x))
      end
  end.
(** tree.rs:174-184 *)
Definition to_smart_num_ref (e : expr) : result snum not_num_error :=
  match root e with
  | Operator _ => RErr (ExprIsNotNumError None)
  | Operand o =>
      match od_to_smart_num_ref o with
      | ROk n => ROk n
      | RErr x => RErr (ExprIsNotNumError (Some x))
      end
  end.
(** smart_num/mod.rs:120-126: by reference clones and calls the other *)
Definition sn_to_rational_ref (m : mode) (x : snum) : res (option rat) := sn_to_rational m x.
(** tree.rs:186-198 *)
Definition e_to_rational_val (m : mode) (e : expr) : res (option rat) :=
  match root e with
  | Operator _ => Ok None
  | Operand o => match o with Num v => sn_to_rational m v | Var _ => Ok None end
  end.
(** tree.rs:200-212 *)
Definition e_to_rational_ref (m : mode) (e : expr) : res (option rat) :=
  match root e with
  | Operator _ => Ok None
  | Operand o => match o with Num v => sn_to_rational_ref m v | Var _ => Ok None end
  end.
(** val_holder.rs:307-317 [Neg for &SmartNumVal], 319-325 [Neg for SmartNumVal] *)
Definition val_neg_ref (m : mode) (a : val) : res val :=
  match a with
  | Integer v => let* z := i64_neg m v in Ok (Integer z)
  | Rational v => let* r := rat_neg m v in Ok (Rational r)
  | Real v => Ok (Real (f_neg v))
  end.
Definition val_neg_val (m : mode) (a : val) : res val := val_neg_ref m a.
(** val_holder.rs:104-108, 110-114 [is_close] *)
Definition val_is_close_val (m : mode) (a b : val) (eps : f64) : res bool :=
  let* x := val_to_f64 m a in
  let* y := val_to_f64 m b in
  let* d := m_sub m x y in
  Ok (f_ltb (f_abs d) eps).
Definition val_is_close_ref (m : mode) (a b : val) (eps : f64) : res bool :=
  let* x := val_to_f64 m a in
  let* y := val_to_f64 m b in
  let* d := m_sub m x y in
  Ok (f_ltb (f_abs d) eps).
(** smart_num/mod.rs:138-142, 144-148 *)
Definition sn_is_close_val (m : mode) (a b : snum) (eps : f64) : res bool :=
  val_is_close_val m (nval a) (nval b) eps.
Definition sn_is_close_ref (m : mode) (a b : snum) (eps : f64) : res bool :=
  val_is_close_ref m (nval a) (nval b) eps.
