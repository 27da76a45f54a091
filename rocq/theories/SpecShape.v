(** * SpecShape: nesting depth and renaming of variables *)
From Coq Require Import ZArith List String Bool.
From Verif Require Import Base Float Rational SmartNum Ast Compute Limit.
Import ListNotations.

(** nesting depth: 1 for a leaf, one more than the deepest child otherwise (= how deep the
    recursive functions of the library recurse into the tree) *)
Fixpoint depth (e : expr) : nat :=
  match e with Expr _ c => S (list_max (map depth c)) end.

(** renaming every variable [y] to [s y] *)
Fixpoint rename (s : string -> string) (e : expr) : expr :=
  match e with
  | Expr r c =>
      Expr (match r with Operand (Var y) => Operand (Var (s y)) | _ => r end) (map (rename s) c)
  end.

(** the same on outcomes: a returned value is renamed, a panic stays a panic *)
Definition on_ok {A B} (f : A -> B) (r : res A) : res B :=
  match r with Ok a => Ok (f a) | Panic => Panic | Trap => Trap | Fuel => Fuel end.
Definition on_result {A B E F} (f : A -> B) (g : E -> F) (r : result A E) : result B F :=
  match r with ROk a => ROk (f a) | RErr e => RErr (g e) end.
Definition rename_expansion (s : string -> string) (t : expansion) : expansion :=
  mkExpansion (ex_order t) (rename s (ex_of t)) (rename s (ex_at t))
    (map (rename s) (ex_coef t)) (rename s (ex_residual t)).
Definition rename_limit (s : string -> string) (l : lexpr) : lexpr :=
  match l with Normal e => Normal (rename s e) | _ => l end.

(** different names stay different *)
Definition injective (s : string -> string) : Prop := forall y z, s y = s z -> y = z.
