(** * SpecSession2: relating whole client programs (C96) *)
From Coq Require Import ZArith List String.
From Verif Require Import Base Float Ast SpecShape SpecSession.
Import ListNotations.

(** the same program with other variable names *)
Definition rename_vref (s : string -> string) (x : vref) : vref :=
  match x with ByName y => ByName (s y) | ByReg u => ByReg u end.
Definition rename_call (s : string -> string) (c : call) : call :=
  match c with
  | New_var x => New_var (s x)
  | Substitute i x j => Substitute i (rename_vref s x) j
  | Derive_by i x => Derive_by i (rename_vref s x)
  | Taylor i x p n => Taylor i (rename_vref s x) p n
  | Taylor_text i x p n => Taylor_text i (rename_vref s x) p n
  | Limit i x p n => Limit i (rename_vref s x) p n
  | _ => c
  end.

(** the same kind of outcome, with related results *)
Definition agree {A B} (R : A -> B -> Prop) (r1 : res A) (r2 : res B) : Prop :=
  match r1, r2 with
  | Ok a, Ok b => R a b
  | Panic, Panic | Trap, Trap | Fuel, Fuel => True
  | _, _ => False
  end.
(** renamed registers, as many texts *)
Definition renamed (s : string -> string) (a b : state) : Prop :=
  regs b = map (rename s) (regs a) /\ List.length (out b) = List.length (out a).
