(** * SpecLim: what the answers of [limit] mean *)
From Coq Require Import ZArith List String Bool.
From Coq Require Import Reals.
From Coquelicot Require Import Coquelicot.
From Verif Require Import Base Float Rational SmartNum Ast Compute Limit Spec SpecTree SpecR.
Import ListNotations.
Open Scope R_scope.

(** The behaviour of [f] along the filter [F] (for instance: t tends to a, t <> a):
    Infinitesimal = tends to 0, Infinity = the absolute value tends to +infinity,
    BoundedFluctuation = eventually bounded, Normal e = tends to the value of [e]. *)
Definition describes (F : (R -> Prop) -> Prop) (rho : string -> R) (f : R -> R) (l : lexpr) : Prop :=
  match l with
  | Infinitesimal => filterlim f F (locally 0)
  | Infinity => filterlim (fun t => Rabs (f t)) F (Rbar_locally p_infty)
  | BoundedFluctuation => exists M, F (fun t => Rabs (f t) <= M)
  | Normal e => exists v, eval rho e = Some v /\ filterlim f F (locally v)
  end.

(** When the limit algebra may be trusted.  Normal(e) with the value 0 is not recognised as
    Infinitesimal, so products of it with an Infinity and quotients that divide by it (or
    divide it by something infinitesimal) must be excluded unless the zero is a literal. *)
Definition safe_mul (rho : string -> R) (a b : lexpr) : Prop :=
  match a, b with
  | Infinity, Normal e | Normal e, Infinity => eval rho e <> Some 0
  | _, _ => True
  end.
Definition safe_div (rho : string -> R) (a b : lexpr) : Prop :=
  match a, b with
  | Normal _, Normal e => eval rho e <> Some 0
  | Infinitesimal, Normal e | BoundedFluctuation, Normal e | Normal e, Infinitesimal =>
      is_zero e = false -> eval rho e <> Some 0
  | _, _ => True
  end.

(** t tends to a, t <> a *)
Definition near (a : R) : (R -> Prop) -> Prop := locally' a.

(** [e], as a function of [x], is defined along [F] *)
Definition eventually_defined (F : (R -> Prop) -> Prop) (rho : string -> R) (x : string) (e : expr) : Prop :=
  F (fun t => defined (upd rho x t) e).

(** same answers: both errors, or both values *)
Definition same_outcome (a b : lres) : Prop :=
  match a, b with ROk _, ROk _ => True | RErr _, RErr _ => True | _, _ => False end.

(** [limit] (in a run without lossy integer conversions) answers [z] for [e] *)
Definition answers (x : string) (to : expr) (ord : Z) (e : expr) (z : lexpr) : Prop :=
  exists fuel, limit_var fuel Strict x to ord e = Ok (ROk z).

(** [asks x to ord e s]: working out the limit of [e] involves working out the limit of [s]
    (operands of sums, products and quotients; the rewritings of indeterminate sums and
    products as quotients; the quotients of derivatives) *)
Inductive asks (x : string) (to : expr) (ord : Z) : expr -> expr -> Prop :=
| asks_self e : asks x to ord e e
| asks_left t l r s : In t [OAdd; OMul; ODiv] -> asks x to ord l s -> asks x to ord (mk2 t l r) s
| asks_right t l r s : In t [OAdd; OMul; ODiv] -> asks x to ord r s -> asks x to ord (mk2 t l r) s
| asks_add l r a b s : answers x to ord l a -> answers x to ord r b -> l_add a b = lerr ->
    asks x to ord (e_div (e_add (e_div l r) e_one) (e_div e_one r)) s -> asks x to ord (e_add l r) s
| asks_mul_r l r a b s : answers x to ord l a -> answers x to ord r b -> l_mul a b = lerr ->
    lim_is_zero b = true -> asks x to ord (e_div r (e_div e_one l)) s -> asks x to ord (e_mul l r) s
| asks_mul_l l r a b s : answers x to ord l a -> answers x to ord r b -> l_mul a b = lerr ->
    lim_is_zero b = false -> asks x to ord (e_div l (e_div e_one r)) s -> asks x to ord (e_mul l r) s
| asks_hop l r a b l' r' s : answers x to ord l a -> answers x to ord r b -> l_div a b = lerr ->
    deriv Strict x l = Ok l' -> deriv Strict x r = Ok r' ->
    asks x to ord (e_div l' r') s -> asks x to ord (e_div l r) s.

(** no powers, and no literal pi inside the argument of a sine or cosine *)
Definition plain (e : expr) : Prop :=
  ~ has_op OPow e /\ (forall u, subterm (e_sin u) e \/ subterm (e_cos u) e -> ~ has_pi u).

(** What the soundness of [limit] needs, besides [plain], about the expressions whose limits
    are asked for while the limit of [e] at the point [to] (of value [a]) is worked out:
    each is defined near [a]; no trusted rule of the algebra is applied to a hidden zero;
    arguments of sines and cosines are defined at [a], and those of sines vanish there if
    the point is 0. *)
Record limit_regular (rho : string -> R) (x : string) (to : expr) (a : R) (ord : Z) (e : expr) : Prop := {
  lr_defined : forall s, asks x to ord e s -> eventually_defined (near a) rho x s;
  lr_mul : forall l r u v, asks x to ord e (e_mul l r) -> answers x to ord l u -> answers x to ord r v ->
    safe_mul rho u v;
  lr_div : forall l r u v, asks x to ord e (e_div l r) -> answers x to ord l u -> answers x to ord r v ->
    safe_div rho u v;
  lr_trig : forall u, asks x to ord e (e_sin u) \/ asks x to ord e (e_cos u) -> defined (upd rho x a) u;
  lr_sin0 : forall u, is_zero to = true -> asks x to ord e (e_sin u) -> eval (upd rho x a) u = Some 0
}.

(** the number an answer stands for (Infinity and BoundedFluctuation stand for none) *)
Definition limit_value (rho : string -> R) (z : lexpr) : option R :=
  match z with Infinitesimal => Some 0 | Normal w => eval rho w | _ => None end.
