(** * Base: outcomes, build modes and machine integers

    Rust semantics used everywhere in the model (no /repo file of its own):
    - a call either returns a value ([Ok]) or panics ([Panic]);
    - arithmetic overflow panics in a debug build and wraps in a release build
      (Cargo.toml sets no profile options, so [cargo build]/[cargo test] is [Debug]
      and [cargo build --release] is [Release]);
    - [as] casts never panic: they truncate silently in both builds.

    [Strict] is not a build of the program.  It is a specification-only observer:
    the same code, but any overflow, any value-changing integer cast, any inexact
    floating-point operation and any use of the 53-bit approximation of a tagged
    constant (pi, e) inside arithmetic is reported as [Trap].  "The run performs
    no lossy machine arithmetic" is therefore written [f Strict x = Ok y]; the
    agreement theorems prove that then both real builds return that same [y]. *)
From Coq Require Import ZArith List String Bool Lia.
Import ListNotations.
Open Scope Z_scope.

Inductive res (A : Type) : Type :=
| Ok (a : A)      (* the call returns a *)
| Panic           (* the thread panics *)
| Trap            (* specification only: lossy machine arithmetic, mode Strict *)
| Fuel.           (* model only: recursion budget exhausted (Limit.v) *)
Arguments Ok {A} a.
Arguments Panic {A}.
Arguments Trap {A}.
Arguments Fuel {A}.

Definition bind {A B} (r : res A) (f : A -> res B) : res B :=
  match r with
  | Ok a => f a
  | Panic => Panic
  | Trap => Trap
  | Fuel => Fuel
  end.

Declare Scope res_scope.
Delimit Scope res_scope with res.
Notation "'let*' x ':=' r 'in' k" := (bind r (fun x => k))
  (at level 200, x pattern, r at level 100, k at level 200, right associativity) : res_scope.
Open Scope res_scope.

Inductive mode := Debug | Release | Strict.

Definition is_strict (m : mode) : bool :=
  match m with Strict => true | _ => false end.

(** Rust [Result<T, E>] stays data. *)
Inductive result (A E : Type) := ROk (a : A) | RErr (e : E).
Arguments ROk {A E} a.
Arguments RErr {A E} e.

(** ** Machine integers: [i64] and [u64] are [Z] in range *)
Definition two63 : Z := 9223372036854775808.
Definition two64 : Z := 18446744073709551616.

Definition in_i64 (z : Z) : bool := (- two63 <=? z) && (z <? two63).
Definition in_u64 (z : Z) : bool := (0 <=? z) && (z <? two64).

Definition wrap_i64 (z : Z) : Z := (z + two63) mod two64 - two63.
Definition wrap_u64 (z : Z) : Z := z mod two64.

(** checked arithmetic operators [+ - * unary-] and [abs]: debug panics, release wraps *)
Definition ovf_i64 (m : mode) (z : Z) : res Z :=
  if in_i64 z then Ok z
  else match m with Debug => Panic | Release => Ok (wrap_i64 z) | Strict => Trap end.

Definition ovf_u64 (m : mode) (z : Z) : res Z :=
  if in_u64 z then Ok z
  else match m with Debug => Panic | Release => Ok (wrap_u64 z) | Strict => Trap end.

(** [as] casts: truncate in both builds *)
Definition cast_i64 (m : mode) (z : Z) : res Z :=
  if in_i64 z then Ok z
  else match m with Strict => Trap | _ => Ok (wrap_i64 z) end.

Definition cast_u64 (m : mode) (z : Z) : res Z :=
  if in_u64 z then Ok z
  else match m with Strict => Trap | _ => Ok (wrap_u64 z) end.

Definition i64_add (m : mode) (a b : Z) : res Z := ovf_i64 m (a + b).
Definition i64_sub (m : mode) (a b : Z) : res Z := ovf_i64 m (a - b).
Definition i64_mul (m : mode) (a b : Z) : res Z := ovf_i64 m (a * b).
Definition i64_neg (m : mode) (a : Z) : res Z := ovf_i64 m (- a).
Definition i64_abs (m : mode) (a : Z) : res Z := ovf_i64 m (Z.abs a).
Definition i64_signum (a : Z) : Z := Z.sgn a.
Definition u64_mul (m : mode) (a b : Z) : res Z := ovf_u64 m (a * b).
Definition u64_add (m : mode) (a b : Z) : res Z := ovf_u64 m (a + b).
(** [u64] division by a nonzero divisor cannot overflow; the code never divides by 0
    (rational.rs:47-49 replaces 0 by 1). *)
Definition u64_div (a b : Z) : Z := a / b.
(** the same with Rust's panic on a zero divisor *)
Definition u64_div_run (a b : Z) : res Z := if b =? 0 then Panic else Ok (u64_div a b).

(** [Vec::pop]: the last element and the rest; [None] when empty. *)
Fixpoint pop {A} (l : list A) : option (A * list A) :=
  match l with
  | [] => None
  | [x] => Some (x, [])
  | x :: l' => match pop l' with
               | Some (y, l'') => Some (y, x :: l'')
               | None => None
               end
  end.

(** [child.pop().unwrap()]: panics on an empty vector. *)
Definition pop_unwrap {A} (l : list A) : res (A * list A) :=
  match pop l with Some p => Ok p | None => Panic end.
