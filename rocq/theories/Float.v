(** * Float: Rust [f64] as IEEE-754 binary64

    Uses the Coq standard library's [SpecFloat] (pure Gallina, no axioms): a sign/
    mantissa/exponent datatype with round-to-nearest-even operations.  Rust [f64]
    arithmetic is IEEE-754 binary64 with round-to-nearest-even; NaN payloads and NaN
    signs are not modelled (one NaN). *)
From Coq Require Import ZArith QArith Bool.
From Coq Require Import Floats.SpecFloat.
From Verif Require Import Base.
Open Scope Z_scope.

Definition f64 := spec_float.
Definition prec64 : Z := 53.
Definition emax64 : Z := 1024.

Definition f_add (x y : f64) : f64 := SFadd prec64 emax64 x y.
Definition f_sub (x y : f64) : f64 := SFsub prec64 emax64 x y.
Definition f_mul (x y : f64) : f64 := SFmul prec64 emax64 x y.
Definition f_div (x y : f64) : f64 := SFdiv prec64 emax64 x y.
Definition f_neg (x : f64) : f64 := SFopp x.
Definition f_abs (x : f64) : f64 := SFabs x.
Definition f_ltb (x y : f64) : bool := SFltb x y.

(** integer-to-float cast [v as f64] (i64 or u64): rounds to nearest even *)
Definition f_of_Z (z : Z) : f64 := binary_normalize prec64 emax64 z 0 false.

(** [f64::consts::PI] = 0x400921FB54442D18 and [f64::consts::E] = 0x4005BF0A8B145769 *)
Definition f_PI : f64 := S754_finite false 7074237752028440 (-51).
Definition f_E : f64 := S754_finite false 6121026514868073 (-51).

Definition f_one : f64 := f_of_Z 1.
Definition f_mone : f64 := f_of_Z (-1).

(** [f64::signum]: NaN stays NaN, otherwise 1.0 with the sign bit of the argument
    (also for zeros and infinities). *)
Definition f_signum (x : f64) : f64 :=
  match x with
  | S754_nan => S754_nan
  | S754_zero s | S754_infinity s | S754_finite s _ _ => if s then f_mone else f_one
  end.

(** saturating cast [x as i64], truncating toward zero, NaN to 0 *)
Definition f_to_i64 (x : f64) : Z :=
  match x with
  | S754_nan | S754_zero _ => 0
  | S754_infinity s => if s then - two63 else two63 - 1
  | S754_finite s m e =>
      let a := match e with
               | Zneg p => Zpos m / Z.pow_pos 2 p
               | _ => Zpos m * 2 ^ e
               end in
      let v := if s then - a else a in
      Z.max (- two63) (Z.min (two63 - 1) v)
  end.

(** widening cast [f32 as f64] (exact): a binary32 datum is a [spec_float] too *)
Definition f_of_f32 (x : spec_float) : f64 :=
  match x with
  | S754_finite s m e => binary_normalize prec64 emax64 (if s then Zneg m else Zpos m) e s
  | _ => x
  end.

(** exact rational value of a finite float (specification) *)
Definition f_val (x : f64) : option Q :=
  match x with
  | S754_zero _ => Some 0%Q
  | S754_finite s m e =>
      let z := if s then Zneg m else Zpos m in
      Some (match e with
            | Zneg p => (z # Pos.pow 2 p)%Q
            | _ => inject_Z (z * 2 ^ e)
            end)
  | _ => None
  end.

(** ** operations as run by the program: never fail in a real build; [Strict] traps
    when the result is not the exact real result *)
Definition exact1 (spec : Q) (r : f64) : bool :=
  match f_val r with Some c => Qeq_bool c spec | None => false end.

Definition exact2 (op : Q -> Q -> Q) (x y r : f64) : bool :=
  match f_val x, f_val y with
  | Some a, Some b => exact1 (op a b) r
  | _, _ => false
  end.

Definition trap_unless (m : mode) (b : bool) (r : f64) : res f64 :=
  if is_strict m && negb b then Trap else Ok r.

Definition m_add (m : mode) (x y : f64) : res f64 :=
  let r := f_add x y in trap_unless m (exact2 Qplus x y r) r.
Definition m_sub (m : mode) (x y : f64) : res f64 :=
  let r := f_sub x y in trap_unless m (exact2 Qminus x y r) r.
Definition m_mul (m : mode) (x y : f64) : res f64 :=
  let r := f_mul x y in trap_unless m (exact2 Qmult x y r) r.
Definition m_div (m : mode) (x y : f64) : res f64 :=
  let r := f_div x y in trap_unless m (exact2 Qdiv x y r) r.
Definition m_of_Z (m : mode) (z : Z) : res f64 :=
  let r := f_of_Z z in trap_unless m (exact1 (inject_Z z) r) r.
