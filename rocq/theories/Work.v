(** * Work: the recursive operations with a counter of the calls they make

    [K A] is an outcome together with the number of calls of [num_aggregate], [substitute] and
    [derivative] made so far.  The rule functions are those of [Direct.v]: what they do after
    their recursive calls makes no further call and is reused from [Compute.v]. *)
From Coq Require Import ZArith List String Bool.
From Verif Require Import Base Float Rational SmartNum Ast Compute Limit Direct.
Import ListNotations.
Open Scope Z_scope.
Open Scope res_scope.

Definition K (A : Type) : Type := res A * nat.
Definition kbind {A B} (k : K A) (f : A -> K B) : K B :=
  match k with
  | (Ok a, n) => let (r, n') := f a in (r, (n + n')%nat)
  | (Panic, n) => (Panic, n)
  | (Trap, n) => (Trap, n)
  | (Fuel, n) => (Fuel, n)
  end.
Definition lift {A} (r : res A) : K A := (r, O).
(** one more call *)
Definition tick {A} (k : K A) : K A := let (r, n) := k in (r, S n).

(** the unary rules num_aggregate/rules/{neg,sin,cos,exp,ln}.rs and
    derivative/rules/{neg,sin,cos,exp,ln}.rs: pop, recursive call, build *)
Definition w_rule1 {A} (call : expr -> K A) (tail : expr -> A -> res expr) (c : list expr) : K expr :=
  kbind (lift (pop_unwrap c)) (fun '(s, _) =>
  kbind (call s) (fun v => lift (tail s v))).
(** the binary rules num_aggregate/rules/{add,sub,mul,div,pow}.rs and
    derivative/rules/{add,sub}.rs: pop and call, pop and call, build *)
Definition w_rule2 {A} (call : expr -> K A) (tail : expr -> A -> expr -> A -> res expr) (c : list expr) : K expr :=
  kbind (lift (pop_unwrap c)) (fun '(b, c1) =>
  kbind (call b) (fun r =>
  kbind (lift (pop_unwrap c1)) (fun '(a, _) =>
  kbind (call a) (fun l => lift (tail a l b r))))).
(** derivative/rules/{mul,div,pow}.rs: pop, pop, call, call, build *)
Definition w_rule2' {A} (call : expr -> K A) (tail : expr -> A -> expr -> A -> res expr) (c : list expr) : K expr :=
  kbind (lift (pop_unwrap c)) (fun '(b, c1) =>
  kbind (lift (pop_unwrap c1)) (fun '(a, _) =>
  kbind (call b) (fun r =>
  kbind (call a) (fun l => lift (tail a l b r))))).

(** num_aggregate/mod.rs:22-40 *)
Fixpoint w_aggregate (fuel : nat) (m : mode) (e : expr) : K expr :=
  match fuel with
  | O => lift Fuel
  | S f =>
      tick
        match root e with
        | Operand _ => lift (Ok e)
        | Operator op =>
            let t := descriptor op in
            match t with
            | ONeg | OSin | OCos | OExp | OLn =>
                w_rule1 (w_aggregate f m) (fun _ v => eval_rule m t [Ok v]) (child e)
            | OAdd | OSub | OMul | ODiv | OPow =>
                w_rule2 (w_aggregate f m) (fun _ l _ r => eval_rule m t [Ok l; Ok r]) (child e)
            end
        end
  end.

(** substitute/mod.rs:42-46 *)
Fixpoint w_sub_loop (sub : expr -> K expr) (cs acc : list expr) : K (list expr) :=
  match cs with
  | [] => lift (Ok acc)
  | x :: cs' => kbind (sub x) (fun y => w_sub_loop sub cs' (acc ++ [y]))
  end.
(** substitute/mod.rs:25-53 (with a variable it never returns [Err], c94_substitute) *)
Fixpoint w_subst (fuel : nat) (e : expr) (u : string) (v : expr) : K expr :=
  match fuel with
  | O => lift Fuel
  | S f =>
      tick
        match root e with
        | Operand (Num _) => lift (Ok e)
        | Operand (Var w) => lift (Ok (if String.eqb w u then v else e))
        | Operator _ =>
            kbind (w_sub_loop (fun x => w_subst f x u v) (child e) []) (fun c => lift (Ok (Expr (root e) c)))
        end
  end.

(** derivative/mod.rs:41-78, with the final [num_aggregate] of line 75 (with a variable it never
    returns [Err], c94_derivative) *)
Fixpoint w_deriv (fuel : nat) (m : mode) (e : expr) (x : string) : K expr :=
  match fuel with
  | O => lift Fuel
  | S f =>
      tick
        (kbind
          match root e with
          | Operand (Num _) => lift (Ok (e_of_i64 0))
          | Operand (Var y) => lift (Ok (if String.eqb x y then e_of_i64 1 else e_of_i64 0))
          | Operator op =>
              let t := descriptor op in
              match t with
              | ONeg | OSin | OCos | OExp | OLn =>
                  w_rule1 (fun s => w_deriv f m s x) (fun u du => derivative_rule t [(u, Ok du)]) (child e)
              | OAdd | OSub =>
                  w_rule2 (fun s => w_deriv f m s x)
                    (fun u du v dv => derivative_rule t [(u, Ok du); (v, Ok dv)]) (child e)
              | OMul | ODiv | OPow =>
                  w_rule2' (fun s => w_deriv f m s x)
                    (fun u du v dv => derivative_rule t [(u, Ok du); (v, Ok dv)]) (child e)
              end
          end
          (w_aggregate f m))
  end.

(** partial_expansion.rs:66-83 *)
Fixpoint w_taylor_loop (fuel : nat) (m : mode) (x : string) (at_ : expr) (n : nat)
    (k : Z) (factorial : snum) (residual : expr) (coef : list expr) : K (list expr * expr) :=
  match n with
  | O => lift (Ok (coef, residual))
  | S n' =>
      kbind (lift (sn_of_u64 m (Z.max k 1))) (fun kn =>
      kbind (lift (sn_mul m factorial kn)) (fun factorial' =>
      kbind (w_subst fuel residual x at_) (fun s0 =>
      kbind (w_aggregate fuel m s0) (fun s =>
      kbind (w_aggregate fuel m (e_div s (e_num factorial'))) (fun c =>
      kbind (w_deriv fuel m residual x) (fun residual' =>
      w_taylor_loop fuel m x at_ n' (k + 1) factorial' residual' (coef ++ [c])))))))
  end.
(** partial_expansion.rs:58-92 (with a variable it never returns [Err], c94_taylor) *)
Definition w_taylor (fuel : nat) (m : mode) (e : expr) (x : string) (at_ : expr) (order : Z)
  : K expansion :=
  kbind (w_taylor_loop fuel m x at_ (Z.to_nat (order + 1)) 0 (sn_of_i64 1) e []) (fun '(coef, residual) =>
  lift (Ok (mkExpansion order (e_var x) at_ coef residual))).
