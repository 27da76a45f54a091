(** * SpecOver: when a debug build panics on exact numbers (specification for C87) *)
From Coq Require Import ZArith.
From Verif Require Import Base Float Rational SmartNum Spec SpecWrap.
Open Scope Z_scope.

(** the call either panics and [P] holds, or returns and [P] does not hold *)
Definition panics_iff {A} (r : res A) (P : Prop) : Prop := (r = Panic /\ P) \/ (exists z, r = Ok z) /\ ~ P.

(** both numbers are integers *)
Definition both_integers (x y : snum) : Prop := exists i j, nval x = Integer i /\ nval y = Integer j.
Definition outside_i64 (n : Z) : Prop := n < - 2 ^ 63 \/ 2 ^ 63 <= n.

(** what is left of a product below 2^64 after its cast to i64 *)
Definition as_signed (p : Z) : Z := if p <? 2 ^ 63 then p else p - 2 ^ 64.

(** x + y (op = Z.add) or x - y (op = Z.sub) of two nonzero exact numbers *)
Definition sum_overflows (op : Z -> Z -> Z) (x y : snum) : Prop :=
  (both_integers x y /\ outside_i64 (op (signed_num x) (signed_num y))) \/
  (~ both_integers x y /\
   (int_min x \/ int_min y \/
    let p := num_of x * den_of y in let q := num_of y * den_of x in
    2 ^ 64 <= p \/ 2 ^ 64 <= q \/ 2 ^ 64 <= den_of x * den_of y \/
    (p = 2 ^ 63 /\ sn_sign x = -1) \/ (q = 2 ^ 63 /\ sn_sign y = -1) \/
    2 ^ 63 <= Z.abs (op (sn_sign x * as_signed p) (sn_sign y * as_signed q)))).

(** x * y of two exact numbers, neither 0 nor 1 *)
Definition product_overflows (x y : snum) : Prop :=
  (both_integers x y /\ outside_i64 (signed_num x * signed_num y)) \/
  (~ both_integers x y /\
   (int_min x \/ int_min y \/ 2 ^ 64 <= num_of x * num_of y \/ 2 ^ 64 <= den_of x * den_of y)).

(** x / y of two exact numbers, x not 0 *)
Definition quotient_overflows (x y : snum) : Prop :=
  int_min x \/ int_min y \/ 2 ^ 64 <= num_of x * den_of y \/ 2 ^ 64 <= den_of x * num_of y.
