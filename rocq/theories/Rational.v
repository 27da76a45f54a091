(** * Rational: src/smart_num/rational.rs *)
From Coq Require Import ZArith List String Bool.
From Verif Require Import Base Float.
Open Scope Z_scope.
Open Scope res_scope.

(** rational.rs:6-11 [struct RationalNum] (all fields public: any in-range triple exists).
    sign : i64, nominator : u64, denominator : u64. *)
Record rat := mkRat { rsign : Z; rnum : Z; rden : Z }.

(** rational.rs:36-42 [gcd]: Euclid's algorithm.  The Rust recursion is unbounded; here it
    runs on fuel [Zgcd_bound]-style (twice the bit length of [b], plus 2), and
    [RationalProofs.gcd_correct] shows for all non-negative arguments that the fuel is
    never exhausted (the result is the gcd). *)
Fixpoint gcd_loop (fuel : nat) (a b : Z) : Z :=
  match fuel with
  | O => 0
  | S k => if b =? 0 then a else gcd_loop k b (a mod b)
  end.

Definition gcd (a b : Z) : Z :=
  gcd_loop (S (S (2 * match b with Zpos p => Pos.size_nat p | _ => O end))) a b.

(** rational.rs:46-49: the divisor used by [reduce] *)
Definition reduce_divisor (x : rat) : Z :=
  let d0 := gcd (rnum x) (rden x) in
  if d0 =? 0 then 1 else d0.

(** rational.rs:45-55 [RationalNum::reduce]; the two divisions cannot panic, see
    [rat_reduce_run] *)
Definition rat_reduce (x : rat) : rat :=
  let d := reduce_divisor x in
  mkRat (rsign x) (u64_div (rnum x) d) (u64_div (rden x) d).

(** rational.rs:45-55 again, with the division by zero panic made explicit; the theorem
    c01_reduce_never_panics shows that this is always [Ok (rat_reduce x)] *)
Definition rat_reduce_run (x : rat) : res rat :=
  let d := reduce_divisor x in
  let* n := u64_div_run (rnum x) d in
  let* e := u64_div_run (rden x) d in
  Ok (mkRat (rsign x) n e).

(** rational.rs:25-32 [PartialEq::eq] *)
Definition rat_eqb (a b : rat) : bool :=
  let x := rat_reduce a in
  let y := rat_reduce b in
  ((rsign x =? rsign y) && (rnum x =? rnum y) && (rden x =? rden y))
  || ((rnum x =? 0) && (rnum y =? 0)).

(** rational.rs:57-67 [RationalNum::new] ([sign.abs()] panics on [i64::MIN] in debug) *)
Definition rat_new (m : mode) (sign num den : Z) : res (option rat) :=
  let* a := i64_abs m sign in
  Ok (if (a =? 1) && negb (den =? 0) then Some (mkRat sign num den) else None).

(** rational.rs:69-75 [new_positive], [new_negative] *)
Definition rat_new_positive (m : mode) (num den : Z) : res (option rat) := rat_new m 1 num den.
Definition rat_new_negative (m : mode) (num den : Z) : res (option rat) := rat_new m (-1) num den.

(** rational.rs:77-79 [to_f64] *)
Definition rat_to_f64 (m : mode) (x : rat) : res f64 :=
  let* s := m_of_Z m (rsign x) in
  let* n := m_of_Z m (rnum x) in
  let* p := m_mul m s n in
  let* d := m_of_Z m (rden x) in
  m_div m p d.

(** rational.rs:82-91 [Neg] *)
Definition rat_neg (m : mode) (x : rat) : res rat :=
  let* s := i64_neg m (rsign x) in
  Ok (mkRat s (rnum x) (rden x)).

(** rational.rs:97-98, 116-117: [((x.nominator * y.denominator) as i64) * x.sign] *)
Definition rat_cross (m : mode) (n d s : Z) : res Z :=
  let* p := u64_mul m n d in
  let* c := cast_i64 m p in
  i64_mul m c s.

(** rational.rs:99-108, 118-127: the common tail of [add] and [sub] *)
Definition rat_finish (m : mode) (s d1 d2 : Z) : res rat :=
  let sign := i64_signum s in
  let* a := i64_abs m s in
  let* n := cast_u64 m a in
  let* d := u64_mul m d1 d2 in
  Ok (rat_reduce (mkRat sign n d)).

(** rational.rs:93-110 [Add] *)
Definition rat_add (m : mode) (x y : rat) : res rat :=
  let* a := rat_cross m (rnum x) (rden y) (rsign x) in
  let* b := rat_cross m (rden x) (rnum y) (rsign y) in
  let* s := i64_add m a b in
  rat_finish m s (rden x) (rden y).

(** rational.rs:112-129 [Sub] *)
Definition rat_sub (m : mode) (x y : rat) : res rat :=
  let* a := rat_cross m (rnum x) (rden y) (rsign x) in
  let* b := rat_cross m (rden x) (rnum y) (rsign y) in
  let* s := i64_sub m a b in
  rat_finish m s (rden x) (rden y).

(** rational.rs:131-145 [Mul] *)
Definition rat_mul (m : mode) (x y : rat) : res rat :=
  let* s := i64_mul m (rsign x) (rsign y) in
  let* n := u64_mul m (rnum x) (rnum y) in
  let* d := u64_mul m (rden x) (rden y) in
  Ok (rat_reduce (mkRat s n d)).

(** rational.rs:147-161 [Div] *)
Definition rat_div (m : mode) (x y : rat) : res rat :=
  let* s := i64_mul m (rsign x) (rsign y) in
  let* n := u64_mul m (rnum x) (rden y) in
  let* d := u64_mul m (rden x) (rnum y) in
  Ok (rat_reduce (mkRat s n d)).

(** rational.rs:163-171 [From<u64>] *)
Definition rat_of_u64 (v : Z) : rat := mkRat 1 v 1.

(** rational.rs:173-181 [From<i64>] *)
Definition rat_of_i64 (m : mode) (v : Z) : res rat :=
  let* a := i64_abs m v in
  let* n := cast_u64 m a in
  Ok (mkRat (if v =? 0 then 1 else i64_signum v) n 1).
