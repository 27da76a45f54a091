(** * WorkLim: [limit] with the call counter of [Work.v], on the one call stack of [Depth.v]

    Counted: the calls of [limit], [num_aggregate], [substitute] and [derivative].  (A [clone]
    copies every node of a tree and is not counted; the method of limit/rules/neg.rs never
    returns, c38.) *)
From Coq Require Import ZArith List String Bool.
From Verif Require Import Base Float Rational SmartNum Ast Compute Limit Display Direct Depth Work.
Import ListNotations.
Open Scope Z_scope.
Open Scope res_scope.

(** the operator [?] *)
Definition kqbind {A B E} (k : K (result A E)) (f : A -> K (result B E)) : K (result B E) :=
  kbind k (fun r => match r with ROk a => f a | RErr e => lift (Ok (RErr e)) end).

Section WorkLimit.
Variables (f : nat) (m : mode) (x : string) (to : expr) (order_try : Z) (lim : expr -> K lres).

(** [e.clone().limit(of, to.clone(), order_try)] *)
Definition w_lim_copy (e : expr) : K lres :=
  kbind (lift (s_clone f e)) (fun e' =>
  kbind (lift (s_clone f to)) (fun _ => lim e')).

(** limit/rules/add.rs:17-35 *)
Definition w_add_limit (e : expr) : K lres :=
  kbind (lift (pop_unwrap (child e))) (fun '(r_, rest) =>
  kbind (lift (pop_unwrap rest)) (fun '(l_, _) =>
  kqbind (w_lim_copy r_) (fun r_limit =>
  kqbind (w_lim_copy l_) (fun l_limit =>
  match l_add l_limit r_limit with
  | ROk z => lift (Ok (ROk z))
  | RErr _ =>
      kbind (lift (s_clone f r_)) (fun r' =>
      lim (e_div (e_add (e_div l_ r') e_one) (e_div e_one r_)))
  end)))).

(** limit/rules/sub.rs:17-26 *)
Definition w_sub_limit (e : expr) : K lres :=
  kbind (lift (pop_unwrap (child e))) (fun '(r, rest) =>
  kbind (lift (pop_unwrap rest)) (fun '(l, _) =>
  lim (e_add l (e_neg r)))).

(** limit/rules/mul.rs:17-47 *)
Definition w_mul_limit (e : expr) : K lres :=
  kbind (lift (pop_unwrap (child e))) (fun '(r_, rest) =>
  kbind (lift (pop_unwrap rest)) (fun '(l_, _) =>
  kqbind (w_lim_copy r_) (fun r_limit =>
  kqbind (w_lim_copy l_) (fun l_limit =>
  match l_mul l_limit r_limit with
  | ROk z => lift (Ok (ROk z))
  | RErr _ =>
      if lim_is_zero r_limit then lim (e_div r_ (e_div e_one l_))
      else lim (e_div l_ (e_div e_one r_))
  end)))).

(** limit/rules/div.rs:29-39 *)
Fixpoint w_div_loop (n : nat) (l r : expr) : K lres :=
  match n with
  | O => lift (Ok (RErr NoValidLimitFound))
  | S n' =>
      kqbind (w_lim_copy l) (fun a =>
      kqbind (w_lim_copy r) (fun b =>
      match l_div a b with
      | ROk z => lift (Ok (ROk z))
      | RErr _ =>
          kbind (w_deriv f m l x) (fun l' =>
          kbind (w_deriv f m r x) (fun r' =>
          w_div_loop n' l' r'))
      end))
  end.
(** limit/rules/div.rs:20-40 *)
Definition w_div_limit (e : expr) : K lres :=
  kbind (lift (pop_unwrap (child e))) (fun '(r, rest) =>
  kbind (lift (pop_unwrap rest)) (fun '(l, _) =>
  w_div_loop (Z.to_nat (order_try + 1)) l r)).

(** limit/rules/sin.rs:24-33, cos.rs:21-30 *)
Definition w_subst_limit (e : expr) : K lres :=
  kbind (w_subst f e x to) (fun ex =>
  kbind (w_aggregate f m ex) (fun z =>
  lift (Ok (ROk (if is_zero z then Infinitesimal else Normal z))))).
End WorkLimit.

(** limit/mod.rs:28-73 *)
Fixpoint w_limit (fuel : nat) (m : mode) (x : string) (to : expr) (order_try : Z) (e : expr)
  : K lres :=
  match fuel with
  | O => lift Fuel
  | S f =>
      let lim := w_limit f m x to order_try in
      tick
        (kqbind
          match root e with
          | Operand (Num n) => lift (Ok (ROk (Normal (e_num n))))
          | Operand (Var v) =>
              lift (Ok (ROk (if String.eqb v x then if is_zero to then Infinitesimal else Normal to
                             else Normal (e_var v))))
          | Operator op =>
              match descriptor op with
              | ONeg => lift (let* l := s_neg_limit f e in Ok (ROk l))
              | OAdd => w_add_limit f to lim e
              | OSub => w_sub_limit lim e
              | OMul => w_mul_limit f to lim e
              | ODiv => w_div_limit f m x to order_try lim e
              | OSin => if is_zero to then lift (Ok (ROk Infinitesimal)) else w_subst_limit f m x to e
              | OCos => w_subst_limit f m x to e
              | OExp | OLn | OPow => lift Panic
              end
          end
          (fun z =>
             match z with
             | Normal ex => kbind (w_aggregate f m ex) (fun ex' => lift (Ok (ROk (Normal ex'))))
             | _ => lift (Ok (ROk z))
             end))
  end.
