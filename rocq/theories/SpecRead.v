(** * SpecRead: reading a text by the usual rules of arithmetic (C102) *)
From Coq Require Import ZArith QArith List String Bool Floats.SpecFloat.
From Verif Require Import Base Float Rational SmartNum Ast Display Spec SpecTree SpecR SpecDisp.
Import ListNotations.
Open Scope Z_scope.

(** ** tokens and their spelling *)
Inductive token :=
| Leaf (o : operand)     (* a number or a name *)
| Ratio (p q : Z)        (* p/q without blanks *)
| Sign (t : optype)      (* + - * / ^ between blanks *)
| Fn (t : optype)        (* sin cos exp ln *)
| Minus                  (* the minus sign in front of something *)
| Open | Close.          (* parentheses *)

Definition leaf_text (o : operand) : string :=
  match o with Var x => x | Num n => match sn_to_string n with Ok s => s | _ => ""%string end end.
Definition spell1 (k : token) : string :=
  match k with
  | Leaf o => leaf_text o
  | Ratio p q => string_of_Z p ++ "/" ++ string_of_Z q
  | Sign t => (" " ++ op_sign t ++ " ")%string
  | Fn t => op_sign t
  | Minus => "-" | Open => "(" | Close => ")"
  end.
Fixpoint spell (l : list token) : string :=
  match l with [] => ""%string | k :: l => (spell1 k ++ spell l)%string end.

(** p/q without blanks means the same as with blanks *)
Definition int (z : Z) : operand := Num (mkNum (Integer z) TNothing).
Definition divisions (l : list token) : list token :=
  flat_map (fun k => match k with Ratio p q => [Leaf (int p); Sign ODiv; Leaf (int q)] | k => [k] end) l.

(** names that look like names, numbers that look like numbers and are marked 0 or 1 only if
    they are (a fraction is not a leaf but a division) *)
Definition plain_leaf (o : operand) : Prop :=
  match o with
  | Var x => plain_name x
  | Num n => plain_number n /\ (forall r, nval n <> Rational r) /\
      (ntag n = TZero -> exists q, val_Q (nval n) = Some q /\ (q == 0)%Q) /\
      (ntag n = TOne -> exists q, val_Q (nval n) = Some q /\ (q == 1)%Q)
  end.

(** ** the usual grammar: [sum ts e rest] = some tokens at the beginning of [ts] are a sum that
    means [e], and [rest] is what follows.  + and - associate to the left, * and / bind tighter
    and associate to the left, ^ binds tightest and associates to the right, a minus sign in
    front binds tighter than * but not than ^, a function applies to the number, name,
    parenthesis or function right after it. *)
Definition starts_with (ts : list token) (l : list optype) : Prop :=
  exists t r, ts = Sign t :: r /\ In t l.

Inductive sum : list token -> expr -> list token -> Prop :=
| S_sum ts a r1 e r : product ts a r1 -> more_sum a r1 e r -> sum ts e r
with more_sum : expr -> list token -> expr -> list token -> Prop :=
| S_add a ts b r1 e r : product ts b r1 -> more_sum (e_add a b) r1 e r -> more_sum a (Sign OAdd :: ts) e r
| S_sub a ts b r1 e r : product ts b r1 -> more_sum (e_sub a b) r1 e r -> more_sum a (Sign OSub :: ts) e r
| S_end a ts : ~ starts_with ts [OAdd; OSub] -> more_sum a ts a ts
with product : list token -> expr -> list token -> Prop :=
| P_product ts a r1 e r : factor ts a r1 -> more_product a r1 e r -> product ts e r
with more_product : expr -> list token -> expr -> list token -> Prop :=
| P_mul a ts b r1 e r : factor ts b r1 -> more_product (e_mul a b) r1 e r -> more_product a (Sign OMul :: ts) e r
| P_div a ts b r1 e r : factor ts b r1 -> more_product (e_div a b) r1 e r -> more_product a (Sign ODiv :: ts) e r
| P_end a ts : ~ starts_with ts [OMul; ODiv] -> more_product a ts a ts
with factor : list token -> expr -> list token -> Prop :=
| F_minus ts a r : factor ts a r -> factor (Minus :: ts) (e_neg a) r
| F_power ts a ts' b r : atom ts a (Sign OPow :: ts') -> factor ts' b r -> factor ts (e_pow a b) r
| F_atom ts a r : atom ts a r -> ~ starts_with r [OPow] -> factor ts a r
with atom : list token -> expr -> list token -> Prop :=
| A_leaf o r : plain_leaf o -> atom (Leaf o :: r) (Expr (Operand o) []) r
| A_paren ts e r : sum ts e (Close :: r) -> atom (Open :: ts) e r
| A_fn t ts a r : In t [OSin; OCos; OExp; OLn] -> atom ts a r -> atom (Fn t :: ts) (mk1 t a) r.

(** a text reads, by the usual rules, as the expression [e] *)
Definition reads (s : string) (e : expr) : Prop := exists ts, spell ts = s /\ sum (divisions ts) e [].

(** ** expressions that are printed the usual way *)
(** the operator at the root, if any *)
Definition top (e : expr) : option optype :=
  match root e with Operator op => Some (descriptor op) | Operand _ => None end.
Definition top_in (e : expr) (l : list optype) : Prop := exists t, top e = Some t /\ In t l.

(** a literal below 0 other than a fraction, printed with its minus sign and no parentheses *)
Definition negative_literal (e : expr) : Prop :=
  match e with
  | Expr (Operand (Num n)) [] =>
      ntag n = TNothing /\
      match nval n with
      | Integer z => (z < 0)%Z
      | Real (S754_finite true _ _) | Real (S754_zero true) => True
      | _ => False
      end
  | _ => False
  end.

(** a fraction literal, printed as [p/q] or [-p/q] without parentheses *)
Definition fraction_literal (e : expr) : Prop :=
  match e with
  | Expr (Operand (Num n)) [] =>
      ntag n = TNothing /\
      exists r, nval n = Rational r /\ (rsign r = 1 \/ rsign r = -1) /\ 0 <= rnum r /\ 0 < rden r
  | _ => False
  end.

(** excluded: a negated sum or difference; a sum or difference to the right of -; a quotient to
    the right of /; a quotient, a power or a negative literal as base; a quotient as exponent; a
    function of a negative literal; fraction literals count as quotients, and functions of them
    are excluded *)
Inductive usual : expr -> Prop :=
| U_leaf o : plain_leaf o -> usual (Expr (Operand o) [])
| U_negative e : negative_literal e -> usual e
| U_fraction e : fraction_literal e -> usual e
| U_fn t a : In t [OSin; OCos; OExp; OLn] -> usual a -> ~ negative_literal a -> ~ fraction_literal a -> usual (mk1 t a)
| U_neg a : usual a -> ~ top_in a [OAdd; OSub] -> usual (e_neg a)
| U_add a b : usual a -> usual b -> usual (e_add a b)
| U_sub a b : usual a -> usual b -> ~ top_in b [OAdd; OSub] -> usual (e_sub a b)
| U_mul a b : usual a -> usual b -> usual (e_mul a b)
| U_div a b : usual a -> usual b -> ~ top_in b [ODiv] -> ~ fraction_literal b ->
    usual (e_div a b)
| U_pow a b : usual a -> usual b -> ~ top_in a [ODiv; OPow] -> ~ negative_literal a -> ~ fraction_literal a ->
    ~ top_in b [ODiv] -> ~ fraction_literal b ->
    usual (e_pow a b).

(** expressions print a text that, read by the usual rules, has their value *)
Definition prints_usual (e : expr) : Prop :=
  exists s e', e_to_string e = Ok s /\ reads s e' /\ forall rho, eval rho e' = eval rho e.

(** ... or a text that reads as something else ... *)
Definition misprints (e : expr) : Prop :=
  wf e /\ (exists s e', e_to_string e = Ok s /\ reads s e') /\ ~ prints_usual e.

(** ... or one that the usual rules do not allow *)
Definition unreadable (e : expr) : Prop :=
  wf e /\ forall s e', e_to_string e = Ok s -> ~ reads s e'.
