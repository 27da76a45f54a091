(** * SpecDebug: what is assumed of the text of a float *)
From Coq Require Import String Ascii.
From Verif Require Import Float.
Open Scope string_scope.

(** character [c] does not occur in [s] *)
Fixpoint free_of (c : ascii) (s : string) : Prop :=
  match s with
  | EmptyString => True
  | String d s' => d <> c /\ free_of c s'
  end.

(** a text of floats that reads back, without a closing parenthesis: what core::fmt's
    [Debug for f64] guarantees *)
Definition float_text (ff : f64 -> string) : Prop :=
  (forall f g, ff f = ff g -> f = g) /\ (forall f, free_of ")" (ff f)).
