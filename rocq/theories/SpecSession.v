(** * SpecSession: whole client programs (specification for C96)

    A client program is a list of API calls.  Every expression it obtains goes into a new
    register (registers are never overwritten); texts it prints go to an output.  The program is
    run on the model of the library; its mathematical meaning is given below without it. *)
From Coq Require Import ZArith List String Bool.
From Coq Require Import Floats.SpecFloat.
From Coq Require Import Reals Qreals.
From Coquelicot Require Import Coquelicot.
From Verif Require Import Base Float Rational SmartNum Ast Compute Limit Display Main Direct.
From Verif Require Import Spec SpecTree SpecR SpecDirect.
Import ListNotations.
Open Scope Z_scope.
Open Scope string_scope.
Open Scope res_scope.

(** ** Client programs *)

Inductive fun1 := NegF | SinF | CosF | ExpF | LnF.
Inductive fun2 := AddF | SubF | MulF | DivF | PowF.

(** a variable argument: given by name, or as the expression in a register (which may turn out
    not to be a variable) *)
Inductive vref := ByName (x : string) | ByReg (u : nat).

(** the calls; [i j p] are registers, [n] an order or a number of attempts *)
Inductive call :=
| New_var (x : string)
| New_int (t : int_ty) (z : Z)
| New_f64 (f : f64)
| New_f32 (f : spec_float)
| New_fraction (s n d : Z)
| New_pi
| New_e
| Unary (g : fun1) (i : nat)
| Binary (g : fun2) (i j : nat)
| Simplify (i : nat)
| Substitute (i : nat) (x : vref) (j : nat)
| Derive_by (i : nat) (x : vref)
| Taylor (i : nat) (x : vref) (p : nat) (n : Z)
| Taylor_text (i : nat) (x : vref) (p : nat) (n : Z)
| Limit (i : nat) (x : vref) (p : nat) (n : Z)
| Print (i : nat)
| Near (i j : nat) (eps : f64).

Record state := mkState { regs : list expr; out : list string }.
Definition start : state := mkState [] [].
Definition push (st : state) (l : list expr) : state := mkState (regs st ++ l)%list (out st).
Definition say (st : state) (s : string) : state := mkState (regs st) (out st ++ [s])%list.

Definition apply1 (g : fun1) (a : expr) : expr :=
  match g with NegF => e_neg a | SinF => e_sin a | CosF => e_cos a | ExpF => e_exp a | LnF => e_ln a end.
Definition apply2 (g : fun2) (a b : expr) : expr :=
  match g with
  | AddF => e_add a b | SubF => e_sub a b | MulF => e_mul a b | DivF => e_div a b | PowF => e_pow a b
  end.

(** a call naming a register that does not exist does nothing *)
Definition with_reg (st : state) (i : nat) (k : expr -> res state) : res state :=
  match nth_error (regs st) i with Some e => k e | None => Ok st end.
Definition with_var (st : state) (x : vref) (k : expr -> res state) : res state :=
  match x with ByName y => k (e_var y) | ByReg u => with_reg st u k end.

(** one call in build [m]; an [Err] is printed, a panic ends the program *)
Definition exec (fuel : nat) (m : mode) (c : call) (st : state) : res state :=
  match c with
  | New_var x => Ok (push st [e_var x])
  | New_int t z => let* e := into_expression m (FromInt t z) in Ok (push st [e])
  | New_f64 f => let* e := into_expression m (FromF64 f) in Ok (push st [e])
  | New_f32 f => let* e := into_expression m (FromF32 f) in Ok (push st [e])
  | New_fraction s n d =>
      let* o := sn_new_rational m s n d in
      Ok (match o with Some x => push st [e_num x] | None => say st "None" end)
  | New_pi => Ok (push st [e_num sn_pi])
  | New_e => Ok (push st [e_num sn_e])
  | Unary g i => with_reg st i (fun a => Ok (push st [apply1 g a]))
  | Binary g i j => with_reg st i (fun a => with_reg st j (fun b => Ok (push st [apply2 g a b])))
  | Simplify i => with_reg st i (fun a => let* z := num_aggregate m a in Ok (push st [z]))
  | Substitute i x j =>
      with_reg st i (fun a => with_var st x (fun u => with_reg st j (fun v =>
        match substitute a u v with
        | ROk z => Ok (push st [z])
        | RErr er => Ok (say st (substitute_error_to_string er))
        end)))
  | Derive_by i x =>
      with_reg st i (fun a => with_var st x (fun u =>
        let* r := derivative m a u in
        match r with
        | ROk d => Ok (push st [d])
        | RErr er => let* s := derivative_error_to_string er in Ok (say st s)
        end))
  | Taylor i x p n =>
      with_reg st i (fun a => with_var st x (fun u => with_reg st p (fun at_ =>
        let* r := taylor_expansion m a u at_ n in
        match r with
        | ROk t => Ok (push st (ex_coef t ++ [ex_residual t])%list)
        | RErr er => let* s := taylor_error_to_string er in Ok (say st s)
        end)))
  | Taylor_text i x p n =>
      with_reg st i (fun a => with_var st x (fun u => with_reg st p (fun at_ =>
        let* r := taylor_expansion m a u at_ n in
        match r with
        | ROk t => let* s := expansion_to_string m t in Ok (say st s)
        | RErr er => let* s := taylor_error_to_string er in Ok (say st s)
        end)))
  | Limit i x p n =>
      with_reg st i (fun a => with_var st x (fun u => with_reg st p (fun to =>
        let* r := limit fuel m a u to n in
        match r with
        | ROk l => let* s := l_to_string l in Ok (say st s)
        | RErr _ => Ok (say st "no limit")
        end)))
  | Print i => with_reg st i (fun a => let* s := e_to_string a in Ok (say st s))
  | Near i j eps =>
      with_reg st i (fun a => with_reg st j (fun b =>
        let* r := near_r m a b eps in
        match r with
        | ROk t => Ok (say st (if t then "true" else "false"))
        | RErr er => Ok (say st (not_num_to_string er))
        end))
  end.

Fixpoint run (fuel : nat) (m : mode) (s : list call) (st : state) : res state :=
  match s with
  | [] => Ok st
  | c :: s' => let* st' := exec fuel m c st in run fuel m s' st'
  end.

(** the arguments are values of their Rust types (and orders below 2^63 - 2 when an expansion is
    printed: beyond that the text shows a negative order) *)
Definition valid (c : call) : Prop :=
  match c with
  | New_int t z => in_type t z
  | New_f64 f => is_f64 f
  | New_f32 f => is_f32 f
  | New_fraction s n d => in_i64 s = true /\ in_u64 n = true /\ in_u64 d = true
  | Taylor _ _ _ n | Limit _ _ _ n => 0 <= n < two64
  | Taylor_text _ _ _ n => 0 <= n < two63 - 2
  | _ => True
  end.

Definition is_limit (c : call) : Prop := match c with Limit _ _ _ _ => True | _ => False end.

(** ** Meaning

    A register stands for a partial function of the variables: [A rho v] says that its value is
    [v] when the variables are as in [rho]. *)
Definition meaning := (string -> R) -> R -> Prop.

Open Scope R_scope.

Definition real1 (g : fun1) (a v : R) : Prop :=
  match g with
  | NegF => v = - a
  | SinF => v = sin a
  | CosF => v = cos a
  | ExpF => v = exp a
  | LnF => 0 < a /\ v = ln a
  end.
Definition real2 (g : fun2) (a b v : R) : Prop :=
  match g with
  | AddF => v = a + b
  | SubF => v = a - b
  | MulF => v = a * b
  | DivF => b <> 0 /\ v = a / b
  | PowF => 0 < a /\ v = Rpower a b
  end.

(** [f] is [A] as a function of [x] around the point [t] (the other variables as in [rho]) *)
Definition along (A : meaning) (rho : string -> R) (x : string) (t : R) (f : R -> R) : Prop :=
  locally t (fun s => A (upd rho x s) (f s)).

(** the meanings of the registers a call adds; [l]: those of the registers so far *)
Definition new_meanings (c : call) (l : list meaning) : list meaning :=
  match c with
  | New_var x => [fun rho v => v = rho x]
  | New_int _ z => [fun _ v => v = IZR z]
  | New_f64 f | New_f32 f => [fun _ v => option_map Q2R (f_val f) = Some v]
  | New_fraction s n d =>
      if ((s =? 1) || (s =? -1))%Z && negb (d =? 0)%Z then [fun _ v => v = IZR s * IZR n / IZR d] else []
  | New_pi => [fun _ v => v = PI]
  | New_e => [fun _ v => v = exp 1]
  | Unary g i =>
      match nth_error l i with
      | Some A => [fun rho v => exists a, A rho a /\ real1 g a v]
      | None => []
      end
  | Binary g i j =>
      match nth_error l i, nth_error l j with
      | Some A, Some B => [fun rho v => exists a b, A rho a /\ B rho b /\ real2 g a b v]
      | _, _ => []
      end
  | Simplify i => match nth_error l i with Some A => [A] | None => [] end
  | Substitute i (ByName x) j =>
      match nth_error l i, nth_error l j with
      | Some A, Some B => [fun rho v => exists b, B rho b /\ A (upd rho x b) v]
      | _, _ => []
      end
  | Derive_by i (ByName x) =>
      match nth_error l i with
      | Some A => [fun rho v => exists f, along A rho x (rho x) f /\ is_derive f (rho x) v]
      | None => []
      end
  | Taylor i (ByName x) p n =>
      match nth_error l i, nth_error l p with
      | Some A, Some P =>
          (map (fun k rho v => exists a f, P rho a /\ along A rho x a f /\ ex_derive_n f k a /\
                               v = Derive_n f k a / INR (fact k)) (seq 0 (S (Z.to_nat n))) ++
           [fun rho v => exists f, along A rho x (rho x) f /\ ex_derive_n f (S (Z.to_nat n)) (rho x) /\
                         v = Derive_n f (S (Z.to_nat n)) (rho x)])%list
      | _, _ => []
      end
  | _ => []
  end.

Fixpoint meanings (s : list call) (l : list meaning) : list meaning :=
  match s with
  | [] => l
  | c :: s' => meanings s' (l ++ new_meanings c l)%list
  end.

(** the expression has (at least) the values of the meaning *)
Definition stands_for (e : expr) (A : meaning) : Prop := forall rho v, A rho v -> eval rho e = Some v.

(** programs without powers and without the constant pi, naming variables by name *)
Definition by_name (x : vref) : Prop := match x with ByName _ => True | ByReg _ => False end.
Definition mathematical (c : call) : Prop :=
  match c with
  | Binary PowF _ _ | New_pi => False
  | Substitute _ x _ | Derive_by _ x | Taylor _ x _ _ => by_name x
  | _ => True
  end.

(** programs with integers, variables, + - * negation, sin, cos, simplification, substitution
    and derivatives (no fractions, floats, quotients, exponentials, logarithms, powers) *)
Definition integral (c : call) : Prop :=
  match c with
  | New_var _ | Simplify _ | Print _ => True
  | New_int _ z => in_i64 z = true
  | Unary g _ => g = NegF \/ g = SinF \/ g = CosF
  | Binary g _ _ => g = AddF \/ g = SubF \/ g = MulF
  | Substitute _ x _ | Derive_by _ x => by_name x
  | _ => False
  end.
