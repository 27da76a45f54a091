(** * Limit: src/compute/limit *)
From Coq Require Import ZArith List String Bool.
From Verif Require Import Base Float Rational SmartNum Ast Compute.
Import ListNotations.
Open Scope Z_scope.
Open Scope res_scope.

(** limit/limit_expression.rs:16-22 *)
Inductive lexpr :=
| Infinitesimal | Infinity | BoundedFluctuation | Normal (e : expr).

(** limit/limit_expression.rs:24-25 *)
Inductive no_limit := NoValidLimitFound.

Definition lres := result lexpr no_limit.
Definition lerr : lres := RErr NoValidLimitFound.

(** limit_expression.rs:38-47 [Neg] *)
Definition l_neg (a : lexpr) : lexpr :=
  match a with Normal r => Normal (e_neg r) | _ => a end.

(** limit_expression.rs:49-80 [Add] *)
Definition l_add (a b : lexpr) : lres :=
  match a, b with
  | Infinitesimal, Infinitesimal => ROk Infinitesimal
  | Infinitesimal, Infinity => lerr
  | Infinitesimal, BoundedFluctuation => ROk BoundedFluctuation
  | Infinitesimal, Normal r => ROk (Normal r)
  | Infinity, Infinitesimal => ROk Infinity
  | Infinity, Infinity => lerr
  | Infinity, BoundedFluctuation => ROk Infinity
  | Infinity, Normal _ => ROk Infinity
  | BoundedFluctuation, Infinitesimal => ROk BoundedFluctuation
  | BoundedFluctuation, Infinity => ROk Infinity
  | BoundedFluctuation, BoundedFluctuation => ROk BoundedFluctuation
  | BoundedFluctuation, Normal _ => ROk BoundedFluctuation
  | Normal a, Infinitesimal => ROk (Normal a)
  | Normal _, Infinity => ROk Infinity
  | Normal _, BoundedFluctuation => ROk BoundedFluctuation
  | Normal a, Normal b => ROk (Normal (e_add a b))
  end.

(** limit_expression.rs:82-88 [Sub] *)
Definition l_sub (a b : lexpr) : lres := l_add a (l_neg b).

(** limit_expression.rs:90-121 [Mul] *)
Definition l_mul (a b : lexpr) : lres :=
  match a, b with
  | Infinitesimal, Infinitesimal => ROk Infinitesimal
  | Infinitesimal, Infinity => lerr
  | Infinitesimal, BoundedFluctuation => ROk Infinitesimal
  | Infinitesimal, Normal _ => ROk Infinitesimal
  | Infinity, Infinitesimal => lerr
  | Infinity, Infinity => ROk Infinity
  | Infinity, BoundedFluctuation => lerr
  | Infinity, Normal _ => ROk Infinity
  | BoundedFluctuation, Infinitesimal => ROk Infinitesimal
  | BoundedFluctuation, Infinity => lerr
  | BoundedFluctuation, BoundedFluctuation => ROk BoundedFluctuation
  | BoundedFluctuation, Normal _ => ROk BoundedFluctuation
  | Normal _, Infinitesimal => ROk Infinitesimal
  | Normal _, Infinity => ROk Infinity
  | Normal _, BoundedFluctuation => ROk BoundedFluctuation
  | Normal a, Normal b => ROk (Normal (e_mul a b))
  end.

(** limit_expression.rs:125-174 [Div] *)
Definition l_div (a b : lexpr) : lres :=
  match a, b with
  | Infinitesimal, Infinitesimal => lerr
  | Infinitesimal, Infinity => ROk Infinitesimal
  | Infinitesimal, BoundedFluctuation => lerr
  | Infinitesimal, Normal r => if is_zero r then lerr else ROk Infinitesimal
  | Infinity, Infinitesimal => ROk Infinity
  | Infinity, Infinity => lerr
  | Infinity, BoundedFluctuation => lerr
  | Infinity, Normal _ => ROk Infinity
  | BoundedFluctuation, Infinitesimal => lerr
  | BoundedFluctuation, Infinity => ROk Infinitesimal
  | BoundedFluctuation, BoundedFluctuation => lerr
  | BoundedFluctuation, Normal r => if is_zero r then lerr else ROk BoundedFluctuation
  | Normal a, Infinitesimal => if negb (is_zero a) then ROk Infinity else lerr
  | Normal _, Infinity => ROk Infinitesimal
  | Normal _, BoundedFluctuation => lerr
  | Normal a, Normal b => ROk (Normal (e_div a b))
  end.

(** [?] on [Result] inside the panic monad *)
Definition qbind {A B E} (r : res (result A E)) (f : A -> res (result B E)) : res (result B E) :=
  let* x := r in
  match x with ROk a => f a | RErr e => Ok (RErr e) end.
Notation "'let?' x ':=' r 'in' k" := (qbind r (fun x => k))
  (at level 200, x pattern, r at level 100, k at level 200, right associativity) : res_scope.

(** limit/rules/neg.rs:11-18: the method calls itself (not [limit]) on the popped child *)
Fixpoint neg_limit_expr_rule (e : expr) : res lexpr :=
  match e with
  | Expr _ c =>
      let* (r, _) := pop_unwrap (map neg_limit_expr_rule c) in
      let* l := r in
      Ok (l_neg l)
  end.

(** limit/rules/mul.rs:27-32 *)
Definition lim_is_zero (l : lexpr) : bool :=
  match l with
  | Infinitesimal => true
  | Infinity => false
  | BoundedFluctuation => false
  | Normal r => is_zero r
  end.

(** limit/rules/add.rs:17-35; [lim] is the recursive call [limit(of, to, order_try)] *)
Definition add_limit_expr_rule (lim : expr -> res lres) (e : expr) : res lres :=
  let* (r_, rest) := pop_unwrap (child e) in
  let* (l_, _) := pop_unwrap rest in
  let? r_limit := lim r_ in
  let? l_limit := lim l_ in
  match l_add l_limit r_limit with
  | ROk z => Ok (ROk z)
  | RErr _ => lim (e_div (e_add (e_div l_ r_) e_one) (e_div e_one r_))
  end.

(** limit/rules/sub.rs:17-26 *)
Definition sub_limit_expr_rule (lim : expr -> res lres) (e : expr) : res lres :=
  let* (r, rest) := pop_unwrap (child e) in
  let* (l, _) := pop_unwrap rest in
  lim (e_add l (e_neg r)).

(** limit/rules/mul.rs:17-47 *)
Definition mul_limit_expr_rule (lim : expr -> res lres) (e : expr) : res lres :=
  let* (r_, rest) := pop_unwrap (child e) in
  let* (l_, _) := pop_unwrap rest in
  let? r_limit := lim r_ in
  let? l_limit := lim l_ in
  let r_lim_is_zero := lim_is_zero r_limit in
  match l_mul l_limit r_limit with
  | ROk z => Ok (ROk z)
  | RErr _ =>
      if r_lim_is_zero then lim (e_div r_ (e_div e_one l_))
      else lim (e_div l_ (e_div e_one r_))
  end.

(** limit/rules/div.rs:29-39: L'Hopital loop, [n] iterations left *)
Fixpoint div_loop (m : mode) (x : string) (lim : expr -> res lres) (n : nat) (l r : expr)
  : res lres :=
  match n with
  | O => Ok lerr
  | S n' =>
      let? a := lim l in
      let? b := lim r in
      match l_div a b with
      | ROk z => Ok (ROk z)
      | RErr _ =>
          let* l' := deriv m x l in
          let* r' := deriv m x r in
          div_loop m x lim n' l' r'
      end
  end.

(** limit/rules/div.rs:20-40 *)
Definition div_limit_expr_rule (m : mode) (x : string) (order_try : Z)
    (lim : expr -> res lres) (e : expr) : res lres :=
  let* (r, rest) := pop_unwrap (child e) in
  let* (l, _) := pop_unwrap rest in
  div_loop m x lim (Z.to_nat (order_try + 1)) l r.

(** the common tail of sin.rs:24-33 and cos.rs:21-30 *)
Definition subst_limit (m : mode) (x : string) (to e : expr) : res lres :=
  let* z := num_aggregate m (subst x to e) in
  Ok (ROk (if is_zero z then Infinitesimal else Normal z)).

(** limit/rules/sin.rs:20-35 *)
Definition sin_limit_expr_rule (m : mode) (x : string) (to e : expr) : res lres :=
  if is_zero to then Ok (ROk Infinitesimal) else subst_limit m x to e.

(** limit/rules/cos.rs:20-31 *)
Definition cos_limit_expr_rule (m : mode) (x : string) (to e : expr) : res lres :=
  subst_limit m x to e.

(** limit/mod.rs:31-59: the dispatch ([todo!()] panics) *)
Definition limit_rule (m : mode) (x : string) (to : expr) (order_try : Z)
    (lim : expr -> res lres) (e : expr) : res lres :=
  match root e with
  | Operand (Num n) => Ok (ROk (Normal (e_num n)))
  | Operand (Var v) =>
      if String.eqb v x then
        if is_zero to then Ok (ROk Infinitesimal) else Ok (ROk (Normal to))
      else Ok (ROk (Normal (e_var v)))
  | Operator op =>
      match descriptor op with
      | ONeg => let* l := neg_limit_expr_rule e in Ok (ROk l)
      | OAdd => add_limit_expr_rule lim e
      | OSub => sub_limit_expr_rule lim e
      | OMul => mul_limit_expr_rule lim e
      | ODiv => div_limit_expr_rule m x order_try lim e
      | OSin => sin_limit_expr_rule m x to e
      | OCos => cos_limit_expr_rule m x to e
      | OExp | OLn | OPow => Panic
      end
  end.

(** limit/mod.rs:28-73 [limit] with [&Variable].  The Rust recursion is not structural
    (the rules rebuild larger expressions), so the model runs on fuel = maximal recursion
    depth and reports [Fuel] when it is exhausted. *)
Fixpoint limit_var (fuel : nat) (m : mode) (x : string) (to : expr) (order_try : Z) (e : expr)
  : res lres :=
  match fuel with
  | O => Fuel
  | S f =>
      let? z := limit_rule m x to order_try (limit_var f m x to order_try) e in
      match z with
      | Normal ex => let* ex' := num_aggregate m ex in Ok (ROk (Normal ex'))
      | _ => Ok (ROk z)
      end
  end.

(** limit/mod.rs:75-83 [limit] with [Expression]: unwraps the variable *)
Definition limit (fuel : nat) (m : mode) (e of_ to : expr) (order_try : Z) : res lres :=
  match to_variable of_ with
  | None => Panic
  | Some x => limit_var fuel m x to order_try e
  end.
