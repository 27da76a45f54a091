(** * SpecDirect: the ranges of Rust's integer types (specification for C94) *)
From Coq Require Import ZArith.
From Verif Require Import Direct.
Open Scope Z_scope.

(** the values each integer type holds *)
Definition in_type (t : int_ty) (v : Z) : Prop :=
  match t with
  | TU8 => 0 <= v < 2 ^ 8 | TI8 => - 2 ^ 7 <= v < 2 ^ 7
  | TU16 => 0 <= v < 2 ^ 16 | TI16 => - 2 ^ 15 <= v < 2 ^ 15
  | TU32 => 0 <= v < 2 ^ 32 | TI32 => - 2 ^ 31 <= v < 2 ^ 31
  | TI64 => - 2 ^ 63 <= v < 2 ^ 63 | TU64 => 0 <= v < 2 ^ 64
  end.
