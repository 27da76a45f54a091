(** * SpecMod: integer polynomials (no algorithms) *)
From Coq Require Import ZArith List String Bool Reals.
From Verif Require Import Base Float Rational SmartNum Ast.
Open Scope R_scope.

(** expressions: i64 literals and variables under + - * and negation *)
Inductive int_poly : expr -> Prop :=
| ip_num z : in_i64 z = true -> int_poly (e_of_i64 z)
| ip_var x : int_poly (e_var x)
| ip_neg a : int_poly a -> int_poly (e_neg a)
| ip_add a b : int_poly a -> int_poly b -> int_poly (e_add a b)
| ip_sub a b : int_poly a -> int_poly b -> int_poly (e_sub a b)
| ip_mul a b : int_poly a -> int_poly b -> int_poly (e_mul a b).

(** functions of an assignment of reals that are polynomials with integer coefficients *)
Inductive zpoly : ((string -> R) -> R) -> Prop :=
| zp_const z : zpoly (fun _ => IZR z)
| zp_var x : zpoly (fun rho => rho x)
| zp_add f g : zpoly f -> zpoly g -> zpoly (fun rho => f rho + g rho)
| zp_mul f g : zpoly f -> zpoly g -> zpoly (fun rho => f rho * g rho)
| zp_ext f g : (forall rho, f rho = g rho) -> zpoly f -> zpoly g.
