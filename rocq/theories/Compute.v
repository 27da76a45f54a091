(** * Compute: src/compute/{num_aggregate,derivative,substitute,taylor_expansion}

    The Rust functions consume a [Vec<Expression>] from the back with [child.pop().unwrap()].
    A rule here receives the list of children already mapped through the recursive call
    (as [res] data, so a result that Rust would not compute is simply never inspected) and
    pops it in the same order. *)
From Coq Require Import ZArith List String Bool.
From Verif Require Import Base Float Rational SmartNum Ast.
Import ListNotations.
Open Scope Z_scope.
Open Scope res_scope.

(** ** num_aggregate *)

(** num_aggregate/rules/neg.rs:6-19 *)
Definition neg_eval_rule (m : mode) (rs : list (res expr)) : res expr :=
  let* (r0, _) := pop_unwrap rs in
  let* sub := r0 in
  if is_num sub then
    let* n := to_smart_num_unwrap sub in
    let* v := sn_neg m n in
    Ok (e_num v)
  else
    match root sub with
    | Operator op =>
        match descriptor op with
        | ONeg => let* (c, _) := pop_unwrap (child sub) in Ok c
        | _ => Ok (e_neg sub)
        end
    | Operand _ => Ok (e_neg sub)
    end.

(** the two pops shared by the binary rules: [r] first, then [l] *)
Definition pop2 {A} (rs : list A) : res (A * A) :=
  let* (r, rest) := pop_unwrap rs in
  let* (l, _) := pop_unwrap rest in
  Ok (l, r).

(** evaluation order of the binary rules: [r] is aggregated before [l] *)
Definition eval2 (rs : list (res expr)) : res (expr * expr) :=
  let* (r0, rest) := pop_unwrap rs in
  let* r := r0 in
  let* (l0, _) := pop_unwrap rest in
  let* l := l0 in
  Ok (l, r).

(** num_aggregate/rules/add.rs:5-17 *)
Definition add_eval_rule (m : mode) (rs : list (res expr)) : res expr :=
  let* (l, r) := eval2 rs in
  if is_num l && is_num r then
    let* x := to_smart_num_unwrap l in
    let* y := to_smart_num_unwrap r in
    let* v := sn_add m x y in
    Ok (e_num v)
  else if is_zero l then Ok r
  else if is_zero r then Ok l
  else Ok (e_add l r).

(** num_aggregate/rules/sub.rs:5-17 *)
Definition sub_eval_rule (m : mode) (rs : list (res expr)) : res expr :=
  let* (l, r) := eval2 rs in
  if is_num l && is_num r then
    let* x := to_smart_num_unwrap l in
    let* y := to_smart_num_unwrap r in
    let* v := sn_sub m x y in
    Ok (e_num v)
  else if is_zero l then Ok (e_neg r)
  else if is_zero r then Ok l
  else Ok (e_sub l r).

(** num_aggregate/rules/mul.rs:5-19 *)
Definition mul_eval_rule (m : mode) (rs : list (res expr)) : res expr :=
  let* (l, r) := eval2 rs in
  if is_num l && is_num r then
    let* x := to_smart_num_unwrap l in
    let* y := to_smart_num_unwrap r in
    let* v := sn_mul m x y in
    Ok (e_num v)
  else if is_zero l || is_zero r then Ok (e_of_i64 0)
  else if is_one l then Ok r
  else if is_one r then Ok l
  else Ok (e_mul l r).

(** num_aggregate/rules/div.rs:5-15 *)
Definition div_eval_rule (m : mode) (rs : list (res expr)) : res expr :=
  let* (l, r) := eval2 rs in
  if is_num l && is_num r then
    let* x := to_smart_num_unwrap l in
    let* y := to_smart_num_unwrap r in
    let* v := sn_div m x y in
    Ok (e_num v)
  else if is_zero l then Ok (e_of_i64 0)
  else Ok (e_div l r).

(** num_aggregate/rules/sin.rs:5-19 *)
Definition sin_eval_rule (rs : list (res expr)) : res expr :=
  let* (r0, _) := pop_unwrap rs in
  let* sub := r0 in
  match root sub with
  | Operand o => if od_is_zero o || od_is_pi o then Ok (e_of_i64 0) else Ok (e_sin sub)
  | Operator _ => Ok (e_sin sub)
  end.

(** num_aggregate/rules/cos.rs:5-19 *)
Definition cos_eval_rule (rs : list (res expr)) : res expr :=
  let* (r0, _) := pop_unwrap rs in
  let* sub := r0 in
  match root sub with
  | Operand o => if od_is_zero o || od_is_pi o then Ok (e_of_i64 1) else Ok (e_cos sub)
  | Operator _ => Ok (e_cos sub)
  end.

(** num_aggregate/rules/exp.rs:7-27 *)
Definition exp_eval_rule (rs : list (res expr)) : res expr :=
  let* (r0, _) := pop_unwrap rs in
  let* sub := r0 in
  match root sub with
  | Operand (Var _) => Ok (e_exp sub)
  | Operand (Num v) =>
      if sn_is_zero v then Ok (e_of_i64 1)
      else if sn_is_one v then Ok e_e
      else Ok (e_exp sub)
  | Operator op =>
      match descriptor op with
      | OLn => let* (c, _) := pop_unwrap (child sub) in Ok c
      | _ => Ok (e_exp sub)
      end
  end.

(** num_aggregate/rules/ln.rs:7-27 *)
Definition ln_eval_rule (rs : list (res expr)) : res expr :=
  let* (r0, _) := pop_unwrap rs in
  let* sub := r0 in
  match root sub with
  | Operand (Var _) => Ok (e_ln sub)
  | Operand (Num v) =>
      if sn_is_e v then Ok e_one
      else if sn_is_one v then Ok e_zero
      else Ok (e_ln sub)
  | Operator op =>
      match descriptor op with
      | OExp => let* (c, _) := pop_unwrap (child sub) in Ok c
      | _ => Ok (e_ln sub)
      end
  end.

(** num_aggregate/rules/pow.rs:7-28 *)
Definition pow_eval_rule (rs : list (res expr)) : res expr :=
  let* (sub, r) := eval2 rs in
  match root sub with
  | Operand (Var _) => Ok (e_pow sub r)
  | Operand (Num v) =>
      if sn_is_zero v then Ok (e_of_i64 1)
      else if sn_is_one v then Ok r
      else Ok (e_pow sub r)
  | Operator op =>
      match descriptor op with
      | OLn => let* (c, _) := pop_unwrap (child sub) in Ok c
      | _ => Ok (e_pow sub r)
      end
  end.

(** num_aggregate/mod.rs:26-37: the dispatch *)
Definition eval_rule (m : mode) (t : optype) (rs : list (res expr)) : res expr :=
  match t with
  | ONeg => neg_eval_rule m rs
  | OAdd => add_eval_rule m rs
  | OSub => sub_eval_rule m rs
  | OMul => mul_eval_rule m rs
  | ODiv => div_eval_rule m rs
  | OSin => sin_eval_rule rs
  | OCos => cos_eval_rule rs
  | OExp => exp_eval_rule rs
  | OLn => ln_eval_rule rs
  | OPow => pow_eval_rule rs
  end.

(** num_aggregate/mod.rs:22-40 [num_aggregate] *)
Fixpoint num_aggregate (m : mode) (e : expr) : res expr :=
  match e with
  | Expr r c =>
      match r with
      | Operand _ => Ok e
      | Operator op => eval_rule m (descriptor op) (map (num_aggregate m) c)
      end
  end.

(** ** substitute *)

(** substitute/mod.rs:25-53: [substitute] with [&Variable]; line 29 converts [&Variable] to
    [Option<&Variable>], which is always [Some], so this impl never returns [Err]. *)
Fixpoint subst (u : string) (v : expr) (e : expr) : expr :=
  match e with
  | Expr r c =>
      match r with
      | Operand (Num _) => e
      | Operand (Var w) => if String.eqb w u then v else e
      | Operator _ => Expr r (map (subst u v) c)
      end
  end.

(** substitute/mod.rs:16-17 *)
Inductive substitute_error := SubstituteError.

(** substitute/mod.rs:55-71: [substitute] with [Expression] arguments (by value and by
    reference): [Err] unless the first argument is a variable *)
Definition substitute (e u v : expr) : result expr substitute_error :=
  match to_variable u with
  | Some x => ROk (subst x v e)
  | None => RErr SubstituteError
  end.

(** ** derivative *)

(** A derivative rule sees each child together with its derivative. *)
Definition dchild := (expr * res expr)%type.

(** derivative/rules/neg.rs:6-12 *)
Definition neg_derivative_rule (cs : list dchild) : res expr :=
  let* ((_, du), _) := pop_unwrap cs in
  let* sub := du in
  Ok (e_neg sub).

(** derivative/rules/add.rs:6-13 *)
Definition add_derivative_rule (cs : list dchild) : res expr :=
  let* ((_, dr), rest) := pop_unwrap cs in
  let* r := dr in
  let* ((_, dl), _) := pop_unwrap rest in
  let* l := dl in
  Ok (e_add l r).

(** derivative/rules/sub.rs:6-13 *)
Definition sub_derivative_rule (cs : list dchild) : res expr :=
  let* ((_, dr), rest) := pop_unwrap cs in
  let* r := dr in
  let* ((_, dl), _) := pop_unwrap rest in
  let* l := dl in
  Ok (e_sub l r).

(** derivative/rules/mul.rs:6-16: u'v + uv' *)
Definition mul_derivative_rule (cs : list dchild) : res expr :=
  let* ((u, du), (v, dv)) := pop2 cs in
  let* v_d := dv in
  let* u_d := du in
  Ok (e_add (e_mul u_d v) (e_mul u v_d)).

(** derivative/rules/div.rs:6-16: (u'v - uv')/(v*v) *)
Definition div_derivative_rule (cs : list dchild) : res expr :=
  let* ((u, du), (v, dv)) := pop2 cs in
  let* v_d := dv in
  let* u_d := du in
  Ok (e_div (e_sub (e_mul u_d v) (e_mul u v_d)) (e_mul v v)).

(** derivative/rules/sin.rs:7-14: cos(u)*u' *)
Definition sin_derivative_rule (cs : list dchild) : res expr :=
  let* ((u, du), _) := pop_unwrap cs in
  let* u_d := du in
  Ok (e_mul (e_cos u) u_d).

(** derivative/rules/cos.rs:7-14: (-sin(u))*u' *)
Definition cos_derivative_rule (cs : list dchild) : res expr :=
  let* ((u, du), _) := pop_unwrap cs in
  let* u_d := du in
  Ok (e_mul (e_neg (e_sin u)) u_d).

(** derivative/rules/exp.rs:7-14: u'*exp(u) *)
Definition exp_derivative_rule (cs : list dchild) : res expr :=
  let* ((u, du), _) := pop_unwrap cs in
  let* u_d := du in
  Ok (e_mul u_d (e_exp u)).

(** derivative/rules/ln.rs:6-13: u'/u *)
Definition ln_derivative_rule (cs : list dchild) : res expr :=
  let* ((u, du), _) := pop_unwrap cs in
  let* u_d := du in
  Ok (e_div u_d u).

(** derivative/rules/pow.rs:7-19: u^r * (r'*ln(u) + r*u'/u) *)
Definition pow_derivative_rule (cs : list dchild) : res expr :=
  let* ((u, du), (r, dr)) := pop2 cs in
  let* r_d := dr in
  let* u_d := du in
  let ln_u := e_ln u in
  let u_pow_r := e_pow u r in
  Ok (e_mul u_pow_r (e_add (e_mul r_d ln_u) (e_div (e_mul r u_d) u))).

(** derivative/mod.rs:61-72: the dispatch *)
Definition derivative_rule (t : optype) (cs : list dchild) : res expr :=
  match t with
  | ONeg => neg_derivative_rule cs
  | OAdd => add_derivative_rule cs
  | OSub => sub_derivative_rule cs
  | OMul => mul_derivative_rule cs
  | ODiv => div_derivative_rule cs
  | OSin => sin_derivative_rule cs
  | OCos => cos_derivative_rule cs
  | OExp => exp_derivative_rule cs
  | OLn => ln_derivative_rule cs
  | OPow => pow_derivative_rule cs
  end.

(** derivative/mod.rs:41-78: [derivative] with [&Variable].  Line 45 converts [&Variable] to
    [Option<&Variable>], always [Some]; hence no [Err] from this impl or from the rules. *)
Fixpoint deriv (m : mode) (x : string) (e : expr) : res expr :=
  match e with
  | Expr r c =>
      let* raw :=
        match r with
        | Operand (Num _) => Ok (e_of_i64 0)
        | Operand (Var y) => if String.eqb x y then Ok (e_of_i64 1) else Ok (e_of_i64 0)
        | Operator op =>
            derivative_rule (descriptor op) (map (fun ch => (ch, deriv m x ch)) c)
        end in
      num_aggregate m raw
  end.

(** derivative/mod.rs:27-30 *)
Inductive derivative_error := DerivativeError (err_src : expr).

(** derivative/mod.rs:80-100: [derivative] with [Expression] or [&Expression] *)
Definition derivative (m : mode) (e to : expr) : res (result expr derivative_error) :=
  match to_variable to with
  | Some x => let* d := deriv m x e in Ok (ROk d)
  | None => Ok (RErr (DerivativeError to))
  end.

(** ** taylor_expansion *)

(** taylor_expansion/partial_expansion.rs:12-19 *)
Record expansion := mkExpansion {
  ex_order : Z; ex_of : expr; ex_at : expr; ex_coef : list expr; ex_residual : expr }.

(** partial_expansion.rs:43-47 *)
Record taylor_error := mkTaylorError { te_expr : expr; te_reason : string }.

(** partial_expansion.rs:66-83: the loop body, [n] iterations left, counter [k].
    Both inner [map_err] arms are unreachable (see [subst], [deriv]). *)
Fixpoint taylor_loop (m : mode) (x : string) (at_ : expr) (n : nat) (k : Z)
    (factorial : snum) (residual : expr) (coef : list expr) : res (list expr * expr) :=
  match n with
  | O => Ok (coef, residual)
  | S n' =>
      let* kn := sn_of_u64 m (Z.max k 1) in
      let* factorial' := sn_mul m factorial kn in
      let* s := num_aggregate m (subst x at_ residual) in
      let* c := num_aggregate m (e_div s (e_num factorial')) in
      let* residual' := deriv m x residual in
      taylor_loop m x at_ n' (k + 1) factorial' residual' (coef ++ [c])
  end.

(** partial_expansion.rs:58-92: [taylor_expansion] with [&Variable] ([0..=order] runs
    order+1 times) *)
Definition taylor_var (m : mode) (e : expr) (x : string) (at_ : expr) (order : Z)
  : res expansion :=
  let* (coef, residual) :=
    taylor_loop m x at_ (Z.to_nat (order + 1)) 0 (sn_of_i64 1) e [] in
  Ok (mkExpansion order (e_var x) at_ coef residual).

(** partial_expansion.rs:94-109: [taylor_expansion] with [Expression] *)
Definition taylor_expansion (m : mode) (e of_ at_ : expr) (order : Z)
  : res (result expansion taylor_error) :=
  match to_variable of_ with
  | None => Ok (RErr (mkTaylorError of_ "not a variable"))
  | Some x => let* t := taylor_var m e x at_ order in Ok (ROk t)
  end.
