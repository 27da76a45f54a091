(** * SpecDisp: how to read the printed text, independently of how it is produced *)
From Coq Require Import ZArith QArith Qpower List String Ascii Bool Floats.SpecFloat.
From Verif Require Import Base Float Rational SmartNum Ast Display Spec.
Import ListNotations.
Open Scope string_scope.

(** value of a decimal digit *)
Definition digit_value (c : ascii) : option Z :=
  let k := Z.of_nat (nat_of_ascii c) in
  if ((48 <=? k) && (k <=? 57))%Z then Some (k - 48)%Z else None.

(** value of a digit string, most significant digit first, after the digits read so far *)
Fixpoint digits_from (acc : Z) (s : string) : option Z :=
  match s with
  | EmptyString => Some acc
  | String c s' => match digit_value c with
                   | Some d => digits_from (10 * acc + d)%Z s'
                   | None => None
                   end
  end.

(** a nonempty string of decimal digits and its value *)
Definition numeral (s : string) (z : Z) : Prop := s <> "" /\ digits_from 0 s = Some z.

(** the rational number a printed number denotes: 12, 3/4, 0.125, -5 *)
Inductive denotes : string -> Q -> Prop :=
| Den_int s z : numeral s z -> denotes s (inject_Z z)
| Den_frac s t n d : numeral s n -> numeral t (Zpos d) -> denotes (s ++ "/" ++ t) (n # d)
| Den_fixed s t i f : numeral s i -> numeral t f ->
    denotes (s ++ "." ++ t) (inject_Z i + inject_Z f / 10 ^ Z.of_nat (String.length t))%Q
| Den_neg s q : denotes s q -> denotes ("-" ++ s) (- q)%Q.

(** parentheses match: reading left to right with [n] open, never close one too many, and
    end with none open *)
Fixpoint balanced_from (n : nat) (s : string) : Prop :=
  match s with
  | EmptyString => n = O
  | String c s' =>
      if Ascii.eqb c "(" then balanced_from (S n) s'
      else if Ascii.eqb c ")" then
        match n with O => False | S k => balanced_from k s' end
      else balanced_from n s'
  end.
Definition balanced (s : string) : Prop := balanced_from 0 s.

(** no parenthesis characters *)
Fixpoint no_parens (s : string) : Prop :=
  match s with
  | EmptyString => True
  | String c s' => c <> "("%char /\ c <> ")"%char /\ no_parens s'
  end.

(** ** Expressions whose printed text can be read back *)

(** a variable name that cannot be mistaken for something else: no blanks or parentheses, does
    not begin with a digit, a minus sign or a function name, and is neither "pi" nor "e" *)
Fixpoint word_chars (s : string) : Prop :=
  match s with
  | EmptyString => True
  | String c s' => c <> " "%char /\ c <> "("%char /\ c <> ")"%char /\ word_chars s'
  end.
Definition plain_name (s : string) : Prop :=
  word_chars s /\
  (exists c t, s = String c t /\ digit_value c = None /\ c <> "-"%char) /\
  (forall f, In f ["sin"; "cos"; "exp"; "ln"] -> prefix f s = false) /\
  s <> "pi" /\ s <> "e".

(** a number that prints without a minus sign (named constants included) *)
Definition plain_number (n : snum) : Prop :=
  ntag n = TPi \/ ntag n = TE \/
  exists c t, sn_to_string n = Ok (String c t) /\ digit_value c <> None.

(** the sign of an operator, and how tightly it binds: negation least, then + and -, then *,
    then / and ^ (alike), then the named functions *)
Definition op_sign (t : optype) : string :=
  match t with
  | ONeg => "-" | OAdd => "+" | OSub => "-" | OMul => "*" | ODiv => "/" | OPow => "^"
  | OSin => "sin" | OCos => "cos" | OExp => "exp" | OLn => "ln"
  end.
Definition binds (t : optype) : Z :=
  match t with
  | ONeg => 1 | OAdd => 2 | OSub => 2 | OMul => 3 | ODiv => 4 | OPow => 4
  | OSin => 5 | OCos => 5 | OExp => 5 | OLn => 5
  end.

(** the right operand of a binary operator does not bind exactly as tightly as the operator
    (a - (b - c), a / (b ^ c) and x + (y + z) are excluded, (a - b) - c is fine) *)
Inductive readable : expr -> Prop :=
| Rd_num n : plain_number n -> readable (e_num n)
| Rd_var x : plain_name x -> readable (e_var x)
| Rd_un t a : arity t = 1%nat -> readable a -> readable (mk1 t a)
| Rd_bin t a b : arity t = 2%nat -> readable a -> readable b ->
    (forall op c, b = Expr (Operator op) c -> binds (descriptor op) <> binds t) ->
    readable (mk2 t a b).

(** same tree, the same variables, and numbers that print the same *)
Inductive same_text : expr -> expr -> Prop :=
| St_num n n' : sn_to_string n = sn_to_string n' -> same_text (e_num n) (e_num n')
| St_var x : same_text (e_var x) (e_var x)
| St_un t a a' : same_text a a' -> same_text (mk1 t a) (mk1 t a')
| St_bin t a a' b b' : same_text a a' -> same_text b b' -> same_text (mk2 t a b) (mk2 t a' b').

(** no f64 apart from the named constants *)
Definition no_floats (e : expr) : Prop :=
  forall n c f, subterm (Expr (Operand (Num n)) c) e -> nval n = Real f ->
    ntag n = TPi \/ ntag n = TE.

(** ** numbers and operators as they should look *)

(** "....ddd": exactly three characters after the decimal point *)
Definition f_sign_bit (f : f64) : bool :=
  match f with
  | S754_nan => false
  | S754_zero s | S754_infinity s | S754_finite s _ _ => s
  end.
Definition three_decimals (s : string) : Prop :=
  exists t u, s = t ++ "." ++ u /\ String.length u = 3%nat.

(** an operand of operator [t] with its own text [s]: in parentheses exactly when it is
    itself an operator that binds less tightly *)
Definition shown (t : optype) (a : expr) (s : string) : string :=
  match root a with
  | Operator op => if (binds (descriptor op) <? binds t)%Z then "(" ++ s ++ ")" else s
  | Operand _ => s
  end.

(** ** Taylor polynomials *)

(** the nonzero terms c_k * b^k, c_(k+1) * b^(k+1), ... *)
Fixpoint monomials (b : expr) (k : Z) (cs : list expr) : list expr :=
  match cs with
  | [] => []
  | c :: cs' => (if is_zero c then [] else [e_mul c (e_pow b (e_of_i64 k))]) ++ monomials b (k + 1) cs'
  end%list.

(** p + q1 + ... + qn *)
Definition sum_of (p : expr) (ps : list expr) : expr := fold_left e_add ps p.
