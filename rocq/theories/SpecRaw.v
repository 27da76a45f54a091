(** * SpecRaw: hand-built trees (C71).  [Expression]'s fields are public, so a user can build
    operator nodes with any number of children and any symbol or priority.  Vocabulary only. *)
From Coq Require Import List String ZArith.
From Verif Require Import Base SmartNum Ast Limit Spec.
From Verif Require Compute.
Import ListNotations.

(** the last [n] elements of a list (the whole list when it is shorter) *)
Definition lastn {A} (n : nat) (l : list A) : list A := skipn (List.length l - n) l.

(** the tidy tree of a hand-built one: every operator keeps its last one (unary) or two
    (binary) children and gets its usual symbol and priority; leaves lose their children *)
Fixpoint prune (e : expr) : expr :=
  match e with
  | Expr (Operand o) _ => Expr (Operand o) []
  | Expr (Operator op) c =>
      Expr (Operator (gen_op (descriptor op))) (lastn (arity (descriptor op)) (map prune c))
  end.

(** the same outcome (return, panic), with [f] applied to the returned value *)
Definition on_ok {A B} (f : A -> B) (r : res A) : res B :=
  match r with Ok a => Ok (f a) | Panic => Panic | Trap => Trap | Fuel => Fuel end.

Definition lprune (l : lexpr) : lexpr :=
  match l with Normal e => Normal (prune e) | _ => l end.
Definition rprune (r : lres) : lres :=
  match r with ROk l => ROk (lprune l) | RErr x => RErr x end.

(** every operator that counts has at least as many children as it needs *)
Inductive enough : expr -> Prop :=
| en_leaf o c : enough (Expr (Operand o) c)
| en_unary op pre a : arity (descriptor op) = 1%nat -> enough a ->
    enough (Expr (Operator op) (pre ++ [a]))
| en_binary op pre a b : arity (descriptor op) = 2%nat -> enough a -> enough b ->
    enough (Expr (Operator op) (pre ++ [a; b])).

(** all stored numbers are numbers a user can make *)
Definition nums_ok (e : expr) : Prop :=
  forall n c, subterm (Expr (Operand (Num n)) c) e -> num_ok n.

(** [to_string] looks at the first child, or at both when there are exactly two *)
Inductive printable : expr -> Prop :=
| pr_leaf o c : printable (Expr (Operand o) c)
| pr_two op a b : printable a -> printable b -> printable (Expr (Operator op) [a; b])
| pr_first op a c : List.length c <> 1%nat -> printable a -> printable (Expr (Operator op) (a :: c)).

Definition dprune (r : result expr Compute.derivative_error) : result expr Compute.derivative_error :=
  match r with
  | ROk d => ROk (prune d)
  | RErr (Compute.DerivativeError s) => RErr (Compute.DerivativeError (prune s))
  end.
Definition sprune (r : result expr Compute.substitute_error) : result expr Compute.substitute_error :=
  match r with ROk d => ROk (prune d) | RErr x => RErr x end.
Definition tprune (r : result Compute.expansion Compute.taylor_error)
  : result Compute.expansion Compute.taylor_error :=
  match r with
  | ROk (Compute.mkExpansion o f a cs rest) =>
      ROk (Compute.mkExpansion o (prune f) (prune a) (map prune cs) (prune rest))
  | RErr (Compute.mkTaylorError e why) => RErr (Compute.mkTaylorError (prune e) why)
  end.
