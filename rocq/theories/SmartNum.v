(** * SmartNum: src/smart_num/{special_const,val_holder,mod}.rs *)
From Coq Require Import ZArith List String Bool.
From Coq Require Import Floats.SpecFloat.
From Verif Require Import Base Float Rational.
Open Scope Z_scope.
Open Scope res_scope.

(** special_const.rs:4-10 [enum ConstType] *)
Inductive const_type := TZero | TOne | TPi | TE | TNothing.

(** derived [PartialEq] of ConstType (special_const.rs:3) *)
Definition tag_eqb (a b : const_type) : bool :=
  match a, b with
  | TZero, TZero | TOne, TOne | TPi, TPi | TE, TE | TNothing, TNothing => true
  | _, _ => false
  end.

(** val_holder.rs:10-15 [enum SmartNumVal] *)
Inductive val :=
| Integer (v : Z)        (* i64 *)
| Rational (r : rat)
| Real (f : f64).

(** val_holder.rs:57-63 [is_zero] *)
Definition val_is_zero (v : val) : bool :=
  match v with
  | Integer z => z =? 0
  | Rational r => (rnum r =? 0) && negb (rden r =? 0)
  | Real _ => false
  end.

(** val_holder.rs:65-73 [is_one] *)
Definition val_is_one (v : val) : bool :=
  match v with
  | Integer z => z =? 1
  | Rational r => (rsign r =? 1) && (rnum r =? rden r) && negb (rden r =? 0)
  | Real _ => false
  end.

(** val_holder.rs:33-55 [is_int], [is_rational], [is_real] *)
Definition val_is_int (v : val) : bool := match v with Integer _ => true | _ => false end.
Definition val_is_rational (v : val) : bool := match v with Rational _ => true | _ => false end.
Definition val_is_real (v : val) : bool := match v with Real _ => true | _ => false end.

(** val_holder.rs:75-81 [to_i64] *)
Definition val_to_i64 (v : val) : option Z :=
  match v with Integer z => Some z | _ => None end.

(** val_holder.rs:83-89 [to_f64] *)
Definition val_to_f64 (m : mode) (v : val) : res f64 :=
  match v with
  | Real f => Ok f
  | Rational r => rat_to_f64 m r
  | Integer z => m_of_Z m z
  end.

(** val_holder.rs:91-93 [new_rational] *)
Definition val_new_rational (m : mode) (s n d : Z) : res (option val) :=
  let* o := rat_new m s n d in
  Ok (match o with Some r => Some (Rational r) | None => None end).

(** val_holder.rs:104-114 [IsClose::is_close] for values and references *)
Definition val_is_close (m : mode) (a b : val) (eps : f64) : res bool :=
  let* x := val_to_f64 m a in
  let* y := val_to_f64 m b in
  let* d := m_sub m x y in
  Ok (f_ltb (f_abs d) eps).

(** val_holder.rs:116-138 [to_rational] of SmartNumVal: note that integers give None here
    (SmartNum's own [to_rational] below does convert integers). *)
Definition val_to_rational (v : val) : option rat :=
  match v with Rational r => Some r | _ => None end.

(** val_holder.rs:140-144 [From<i64>]; 158-194 the narrower integer types widen with
    [i64::from] (value preserving), so they are this same function on in-range values. *)
Definition val_of_i64 (v : Z) : val := Integer v.
(** val_holder.rs:146-150 [From<f64>], 152-156 [From<f32>] *)
Definition val_of_f64 (f : f64) : val := Real f.
Definition val_of_f32 (f : spec_float) : val := Real (f_of_f32 f).
(** val_holder.rs:195-199 [From<u64>]: [v as i64], silent wrap *)
Definition val_of_u64 (m : mode) (v : Z) : res val :=
  let* z := cast_i64 m v in Ok (Integer z).

(** val_holder.rs:201-223 [Add] *)
Definition val_add (m : mode) (a b : val) : res val :=
  match a, b with
  | Integer i, Integer j => let* z := i64_add m i j in Ok (Integer z)
  | Integer i, Rational j =>
      let* x := rat_of_i64 m i in let* r := rat_add m x j in Ok (Rational r)
  | Integer i, Real j => let* x := m_of_Z m i in let* f := m_add m x j in Ok (Real f)
  | Rational i, Integer j =>
      let* y := rat_of_i64 m j in let* r := rat_add m i y in Ok (Rational r)
  | Rational i, Rational j => let* r := rat_add m i j in Ok (Rational r)
  | Rational i, Real j => let* x := rat_to_f64 m i in let* f := m_add m x j in Ok (Real f)
  | Real i, Integer j => let* y := m_of_Z m j in let* f := m_add m i y in Ok (Real f)
  | Real i, Rational j => let* y := rat_to_f64 m j in let* f := m_add m i y in Ok (Real f)
  | Real i, Real j => let* f := m_add m i j in Ok (Real f)
  end.

(** val_holder.rs:225-247 [Sub] *)
Definition val_sub (m : mode) (a b : val) : res val :=
  match a, b with
  | Integer i, Integer j => let* z := i64_sub m i j in Ok (Integer z)
  | Integer i, Rational j =>
      let* x := rat_of_i64 m i in let* r := rat_sub m x j in Ok (Rational r)
  | Integer i, Real j => let* x := m_of_Z m i in let* f := m_sub m x j in Ok (Real f)
  | Rational i, Integer j =>
      let* y := rat_of_i64 m j in let* r := rat_sub m i y in Ok (Rational r)
  | Rational i, Rational j => let* r := rat_sub m i j in Ok (Rational r)
  | Rational i, Real j => let* x := rat_to_f64 m i in let* f := m_sub m x j in Ok (Real f)
  | Real i, Integer j => let* y := m_of_Z m j in let* f := m_sub m i y in Ok (Real f)
  | Real i, Rational j => let* y := rat_to_f64 m j in let* f := m_sub m i y in Ok (Real f)
  | Real i, Real j => let* f := m_sub m i j in Ok (Real f)
  end.

(** val_holder.rs:249-275 [Mul] *)
Definition val_mul (m : mode) (a b : val) : res val :=
  if val_is_zero a || val_is_zero b then Ok (Integer 0)
  else
  match a, b with
  | Integer i, Integer j => let* z := i64_mul m i j in Ok (Integer z)
  | Integer i, Rational j =>
      let* x := rat_of_i64 m i in let* r := rat_mul m x j in Ok (Rational r)
  | Integer i, Real j => let* x := m_of_Z m i in let* f := m_mul m x j in Ok (Real f)
  | Rational i, Integer j =>
      let* y := rat_of_i64 m j in let* r := rat_mul m i y in Ok (Rational r)
  | Rational i, Rational j => let* r := rat_mul m i j in Ok (Rational r)
  | Rational i, Real j => let* x := rat_to_f64 m i in let* f := m_mul m x j in Ok (Real f)
  | Real i, Integer j => let* y := m_of_Z m j in let* f := m_mul m i y in Ok (Real f)
  | Real i, Rational j => let* y := rat_to_f64 m j in let* f := m_mul m i y in Ok (Real f)
  | Real i, Real j => let* f := m_mul m i j in Ok (Real f)
  end.

(** val_holder.rs:277-305 [Div] *)
Definition val_div (m : mode) (a b : val) : res val :=
  if val_is_zero a then Ok (Integer 0)
  else
  match a, b with
  | Integer i, Integer j =>
      let* x := rat_of_i64 m i in let* y := rat_of_i64 m j in
      let* r := rat_div m x y in Ok (Rational r)
  | Integer i, Rational j =>
      let* x := rat_of_i64 m i in let* r := rat_div m x j in Ok (Rational r)
  | Integer i, Real j => let* x := m_of_Z m i in let* f := m_div m x j in Ok (Real f)
  | Rational i, Integer j =>
      let* y := rat_of_i64 m j in let* r := rat_div m i y in Ok (Rational r)
  | Rational i, Rational j => let* r := rat_div m i j in Ok (Rational r)
  | Rational i, Real j => let* x := rat_to_f64 m i in let* f := m_div m x j in Ok (Real f)
  | Real i, Integer j => let* y := m_of_Z m j in let* f := m_div m i y in Ok (Real f)
  | Real i, Rational j => let* y := rat_to_f64 m j in let* f := m_div m i y in Ok (Real f)
  | Real i, Real j => let* f := m_div m i j in Ok (Real f)
  end.

(** val_holder.rs:307-325 [Neg] *)
Definition val_neg (m : mode) (a : val) : res val :=
  match a with
  | Integer v => let* z := i64_neg m v in Ok (Integer z)
  | Rational r => let* s := rat_neg m r in Ok (Rational s)
  | Real f => Ok (Real (f_neg f))
  end.

(** ** mod.rs *)

(** mod.rs:20-24 [struct SmartNum] (private fields) *)
Record snum := mkNum { nval : val; ntag : const_type }.

(** mod.rs:62-64, 73-75, 84-86, 95-97 *)
Definition sn_is_one (x : snum) : bool := tag_eqb (ntag x) TOne.
Definition sn_is_zero (x : snum) : bool := tag_eqb (ntag x) TZero.
Definition sn_is_pi (x : snum) : bool := tag_eqb (ntag x) TPi.
Definition sn_is_e (x : snum) : bool := tag_eqb (ntag x) TE.

(** mod.rs:55-60, 66-71, 77-82, 88-93 *)
Definition sn_one : snum := mkNum (Integer 1) TOne.
Definition sn_zero : snum := mkNum (Integer 0) TZero.
Definition sn_pi : snum := mkNum (Real f_PI) TPi.
Definition sn_e : snum := mkNum (Real f_E) TE.

(** mod.rs:32-38 *)
Definition sn_to_i64 (x : snum) : option Z := val_to_i64 (nval x).
Definition sn_to_f64 (m : mode) (x : snum) : res f64 := val_to_f64 m (nval x).

(** mod.rs:40-53 [new_rational] *)
Definition sn_new_rational (m : mode) (s n d : Z) : res (option snum) :=
  let* o := val_new_rational m s n d in
  Ok (match o with
      | Some v => Some (mkNum v (if val_is_zero v then TZero
                                 else if val_is_one v then TOne else TNothing))
      | None => None
      end).

(** mod.rs:99-105 [sign] *)
Definition sn_sign (x : snum) : Z :=
  match nval x with
  | Integer v => i64_signum v
  | Rational r => rsign r
  | Real f => f_to_i64 (f_signum f)
  end.

(** mod.rs:108-126 [to_rational] *)
Definition sn_to_rational (m : mode) (x : snum) : res (option rat) :=
  match nval x with
  | Integer v => let* r := rat_of_i64 m v in Ok (Some r)
  | Rational r => Ok (Some r)
  | Real _ => Ok None
  end.

(** mod.rs:138-148 [is_close] *)
Definition sn_is_close (m : mode) (a b : snum) (eps : f64) : res bool :=
  val_is_close m (nval a) (nval b) eps.

(** mod.rs:150-165 [From<T>] *)
Definition sn_of_val (v : val) : snum :=
  mkNum v (if val_is_one v then TOne else if val_is_zero v then TZero else TNothing).
Definition sn_of_i64 (v : Z) : snum := sn_of_val (val_of_i64 v).
Definition sn_of_f64 (f : f64) : snum := sn_of_val (val_of_f64 f).
Definition sn_of_f32 (f : spec_float) : snum := sn_of_val (val_of_f32 f).
Definition sn_of_u64 (m : mode) (v : Z) : res snum :=
  let* w := val_of_u64 m v in Ok (sn_of_val w).

(** mod.rs:167-178 [wrap_val] *)
Definition wrap_val (v : val) : snum :=
  if val_is_zero v then sn_zero
  else if val_is_one v then sn_one
  else mkNum v TNothing.

(** specification-only guard (mode [Strict]): the stored float of a number tagged pi or e
    is an approximation, so arithmetic that really uses it is lossy.  In the two real
    builds this is the identity. *)
Definition approx (x : snum) : bool := sn_is_pi x || sn_is_e x.
Definition guard (m : mode) (lossy : bool) (r : res val) : res val :=
  if is_strict m && lossy then Trap else r.

(** mod.rs:180-186 [Neg] *)
Definition sn_neg (m : mode) (x : snum) : res snum :=
  let* v := guard m (approx x) (val_neg m (nval x)) in
  Ok (wrap_val v).

(** mod.rs:188-200 [Add] *)
Definition sn_add (m : mode) (x y : snum) : res snum :=
  if sn_is_zero x then Ok y
  else if sn_is_zero y then Ok x
  else let* v := guard m (approx x || approx y) (val_add m (nval x) (nval y)) in
       Ok (wrap_val v).

(** mod.rs:202-214 [Sub] *)
Definition sn_sub (m : mode) (x y : snum) : res snum :=
  if sn_is_zero x then sn_neg m y
  else if sn_is_zero y then Ok x
  else let* v := guard m (approx x || approx y) (val_sub m (nval x) (nval y)) in
       Ok (wrap_val v).

(** mod.rs:216-228 [Mul] *)
Definition sn_mul (m : mode) (x y : snum) : res snum :=
  if sn_is_one x then Ok y
  else if sn_is_one y then Ok x
  else let* v := guard m ((approx x || approx y)
                          && negb (val_is_zero (nval x) || val_is_zero (nval y)))
                         (val_mul m (nval x) (nval y)) in
       Ok (wrap_val v).

(** mod.rs:230-236 [Div] *)
Definition sn_div (m : mode) (x y : snum) : res snum :=
  let* v := guard m ((approx x || approx y) && negb (val_is_zero (nval x)))
                  (val_div m (nval x) (nval y)) in
  Ok (wrap_val v).
