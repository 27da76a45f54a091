(** * Depth: the recursive operations run with ONE stack budget for the whole call tree

    In [Direct.v] each operation has its own recursion budget.  On a machine there is one call
    stack: [derivative] at depth d calls [num_aggregate] at depth d + 1.  Here one number [fuel]
    is the number of nested calls of [num_aggregate], [substitute], [derivative] and [clone]
    that still fit; every nested call gets one less, and [Fuel] is a stack overflow.
    (A rule function such as [add_eval_rule] is counted together with the method that calls it.) *)
From Coq Require Import ZArith List String Bool.
From Verif Require Import Base Float Rational SmartNum Ast Compute Limit Display Direct.
Import ListNotations.
Open Scope Z_scope.
Open Scope res_scope.

(** [Vec::clone]: the elements in order *)
Fixpoint s_clone_list (cl : expr -> res expr) (cs : list expr) : res (list expr) :=
  match cs with
  | [] => Ok []
  | x :: cs' => let* y := cl x in let* ys := s_clone_list cl cs' in Ok (y :: ys)
  end.
(** ast/tree.rs:28-32 [#[derive(Clone)] struct Expression]: [root] is cloned without recursion,
    [child] element by element (the compiler-generated [drop] has the same call tree) *)
Fixpoint s_clone (fuel : nat) (e : expr) : res expr :=
  match fuel with
  | O => Fuel
  | S f => let* c := s_clone_list (s_clone f) (child e) in Ok (Expr (root e) c)
  end.

(** derivative/mod.rs:41-78 [Derivative<&Variable>] with the final [num_aggregate] of line 75 on
    the same stack.  The rules are those of [Direct.v]; simplification: the [clone]s inside the
    rules copy a proper subtree, one call below this one, and are left out (they never need more
    than the recursive [derivative] of that same subtree, c97_clone) *)
Fixpoint s_deriv (fuel : nat) (m : mode) (e : expr) (to_ : string)
  : res (result expr derivative_error) :=
  match fuel with
  | O => Fuel
  | S f =>
      let? to := ok_or (Some to_) (DerivativeError (e_var to_)) in
      let? result :=
        match root e with
        | Operand (Num _) => Ok (ROk (e_of_i64 0))
        | Operand (Var another) =>
            if String.eqb to another then Ok (ROk (e_of_i64 1)) else Ok (ROk (e_of_i64 0))
        | Operator op =>
            let der := fun x => s_deriv f m x to in
            match descriptor op with
            | ONeg => d_neg_deriv der (child e)
            | OAdd => d_add_deriv der (child e)
            | OSub => d_sub_deriv der (child e)
            | OMul => d_mul_deriv der (child e)
            | ODiv => d_div_deriv der (child e)
            | OSin => d_sin_deriv der (child e)
            | OCos => d_cos_deriv der (child e)
            | OExp => d_exp_deriv der (child e)
            | OLn => d_ln_deriv der (child e)
            | OPow => d_pow_deriv der (child e)
            end
        end in
      let* z := d_aggregate f m result in
      Ok (ROk z)
  end.

(** partial_expansion.rs:66-83: every operation of the loop body starts from the same depth *)
Fixpoint s_taylor_loop (fuel : nat) (m : mode) (of_ : string) (at_ err_expr : expr) (n : nat)
    (k : Z) (factorial : snum) (residual : expr) (coefficient : list expr)
  : res (result (list expr * expr) taylor_error) :=
  match n with
  | O => Ok (ROk (coefficient, residual))
  | S n' =>
      let* kn := sn_of_u64 m (Z.max k 1) in
      let* factorial' := sn_mul m factorial kn in
      let* copy := s_clone fuel residual in
      let? s := map_err (fun _ => mkTaylorError err_expr "substitute failure")
                  (d_subst_var fuel copy of_ at_) in
      let* a := d_aggregate fuel m s in
      let cur := e_div a (e_num factorial') in
      let* c := d_aggregate fuel m cur in
      let? residual' := map_err (fun _ => mkTaylorError err_expr "derivative failure")
                          (s_deriv fuel m residual of_) in
      s_taylor_loop fuel m of_ at_ err_expr n' (k + 1) factorial' residual' (coefficient ++ [c])
  end.

(** partial_expansion.rs:58-92 [TaylorExpansion<&Variable, &Expression>] ([fuel] is what is left
    below this call) *)
Definition s_taylor (fuel : nat) (m : mode) (e : expr) (of_ : string) (at_ : expr) (order : Z)
  : res (result expansion taylor_error) :=
  let* err_expr := s_clone fuel e in
  let? (coef, residual) :=
    s_taylor_loop fuel m of_ at_ err_expr (Z.to_nat (order + 1)) 0 (sn_of_i64 1) e [] in
  let* at' := s_clone fuel at_ in
  Ok (ROk (mkExpansion order (e_var of_) at' coef residual)).

(** tree.rs:79-102 [to_string_raw]: both children (or the only one) at one call more *)
Fixpoint s_to_string_raw (fuel : nat) (upper : Z) (e : expr) : res string :=
  match fuel with
  | O => Fuel
  | S f =>
      match root e with
      | Operand o => od_to_string o
      | Operator op =>
          let* me :=
            match child e with
            | [a; b] =>
                let* x := s_to_string_raw f (priority op) a in
                let* y := s_to_string_raw f (priority op) b in
                Ok (x ++ " " ++ symbol op ++ " " ++ y)%string
            | a :: _ => let* x := s_to_string_raw f (priority op) a in Ok (symbol op ++ x)%string
            | [] => Panic
            end in
          if (priority op <? upper)%Z then Ok ("(" ++ me ++ ")")%string else Ok me
      end
  end.

(** limit/rules/neg.rs:14-17: the method calls itself *)
Fixpoint s_neg_limit (fuel : nat) (e : expr) : res lexpr :=
  match fuel with
  | O => Fuel
  | S f =>
      let* (sub, _) := pop_unwrap (child e) in
      let* l := s_neg_limit f sub in
      Ok (l_neg l)
  end.

Section StackLimit.
(** what is left of the stack below the current call of [limit], and that recursive call *)
Variables (f : nat) (m : mode) (x : string) (to : expr) (order_try : Z) (lim : expr -> res lres).

(** [e.clone().limit(of, to.clone(), order_try)] (the clone of [to] makes an equal tree) *)
Definition s_lim_copy (e : expr) : res lres :=
  let* e' := s_clone f e in
  let* _ := s_clone f to in
  lim e'.

(** limit/rules/add.rs:17-35 *)
Definition s_add_limit (e : expr) : res lres :=
  let* (r_, rest) := pop_unwrap (child e) in
  let* (l_, _) := pop_unwrap rest in
  let? r_limit := s_lim_copy r_ in
  let? l_limit := s_lim_copy l_ in
  match l_add l_limit r_limit with
  | ROk z => Ok (ROk z)
  | RErr _ =>
      let* r' := s_clone f r_ in
      lim (e_div (e_add (e_div l_ r') e_one) (e_div e_one r_))
  end.

(** limit/rules/mul.rs:17-47 *)
Definition s_mul_limit (e : expr) : res lres :=
  let* (r_, rest) := pop_unwrap (child e) in
  let* (l_, _) := pop_unwrap rest in
  let? r_limit := s_lim_copy r_ in
  let? l_limit := s_lim_copy l_ in
  let r_lim_is_zero := lim_is_zero r_limit in
  match l_mul l_limit r_limit with
  | ROk z => Ok (ROk z)
  | RErr _ =>
      if r_lim_is_zero then lim (e_div r_ (e_div e_one l_))
      else lim (e_div l_ (e_div e_one r_))
  end.

(** limit/rules/div.rs:29-39 *)
Fixpoint s_div_loop (n : nat) (l r : expr) : res lres :=
  match n with
  | O => Ok (RErr NoValidLimitFound)
  | S n' =>
      let? a := s_lim_copy l in
      let? b := s_lim_copy r in
      match l_div a b with
      | ROk z => Ok (ROk z)
      | RErr _ =>
          let? l' := map_err (fun _ => NoValidLimitFound) (s_deriv f m l x) in
          let? r' := map_err (fun _ => NoValidLimitFound) (s_deriv f m r x) in
          s_div_loop n' l' r'
      end
  end.
(** limit/rules/div.rs:20-40 *)
Definition s_div_limit (e : expr) : res lres :=
  let* (r, rest) := pop_unwrap (child e) in
  let* (l, _) := pop_unwrap rest in
  s_div_loop (Z.to_nat (order_try + 1)) l r.

(** limit/rules/sin.rs:24-33, cos.rs:21-30 *)
Definition s_subst_limit (e : expr) : res lres :=
  let? ex := map_err (fun _ => NoValidLimitFound) (d_subst_var f e x to) in
  let* z := d_aggregate f m ex in
  Ok (ROk (if is_zero z then Infinitesimal else Normal z)).
End StackLimit.

(** limit/mod.rs:28-73 and its rules on one stack *)
Fixpoint s_limit (fuel : nat) (m : mode) (x : string) (to : expr) (order_try : Z) (e : expr)
  : res lres :=
  match fuel with
  | O => Fuel
  | S f =>
      let lim := s_limit f m x to order_try in
      let? z :=
        match root e with
        | Operand (Num n) => Ok (ROk (Normal (e_num n)))
        | Operand (Var v) =>
            if String.eqb v x then
              if is_zero to then Ok (ROk Infinitesimal) else Ok (ROk (Normal to))
            else Ok (ROk (Normal (e_var v)))
        | Operator op =>
            match descriptor op with
            | ONeg => let* l := s_neg_limit f e in Ok (ROk l)
            | OAdd => s_add_limit f to lim e
            | OSub => sub_limit_expr_rule lim e
            | OMul => s_mul_limit f to lim e
            | ODiv => s_div_limit f m x to order_try lim e
            | OSin => if is_zero to then Ok (ROk Infinitesimal) else s_subst_limit f m x to e
            | OCos => s_subst_limit f m x to e
            | OExp | OLn | OPow => Panic
            end
        end in
      match z with
      | Normal ex => let* ex' := d_aggregate f m ex in Ok (ROk (Normal ex'))
      | _ => Ok (ROk z)
      end
  end.
