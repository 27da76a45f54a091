(** * Sanity: the repository's own unit tests, run on the model (tests, not proofs) *)
From Coq Require Import ZArith List String Bool.
From Coq Require Import Floats.SpecFloat.
From Verif Require Import Base Float Rational SmartNum Ast Compute Limit Display.
Import ListNotations.
Open Scope Z_scope.
Open Scope string_scope.

Definition show (r : res expr) : res string := bind r e_to_string.
Definition show_d (r : res (result expr derivative_error)) : res string :=
  bind r (fun x => match x with ROk e => e_to_string e | RErr _ => Panic end).
Definition show_l (r : res lres) : res string :=
  bind r (fun x => match x with ROk e => l_to_string e | RErr _ => Panic end).
Definition show_t (r : res (result expansion taylor_error)) : res string :=
  bind r (fun x => match x with ROk e => expansion_to_string Debug e | RErr _ => Panic end).

Definition x := e_var "x".
Definition u := e_var "u".

(* derivative/mod.rs:111-158 *)
Example t1 : show_d (derivative Debug (e_sin x) x) = Ok "cosx". Proof. vm_compute; reflexivity. Qed.
Example t2 : show_d (derivative Debug (e_mul (e_sin x) (e_cos u)) x) = Ok "cosx * cosu".
Proof. vm_compute; reflexivity. Qed.
Example t3 : show_d (derivative Debug (e_mul (e_sin x) (e_cos u)) u) = Ok "sinx * (-sinu)".
Proof. vm_compute; reflexivity. Qed.
Example t4 : show_d (derivative Debug (e_exp x) x) = Ok "expx". Proof. vm_compute; reflexivity. Qed.
Example t5 : show_d (derivative Debug (e_ln x) x) = Ok "1 / x". Proof. vm_compute; reflexivity. Qed.
(* substitute/mod.rs:80-88 *)
Example t6 : (match substitute (e_add (e_mul (e_var "a") (e_var "a")) (e_mul (e_var "b") (e_var "b")))
                      (e_var "a") (e_of_i64 1) with
              | ROk e => show (num_aggregate Debug e) | RErr _ => Panic end) = Ok "1 + b * b".
Proof. vm_compute; reflexivity. Qed.
(* limit/rules/div.rs:48-75 *)
Example t7 : show_l (limit 50 Debug (e_div (e_sin x) x) x e_zero 1) = Ok "1".
Proof. vm_compute; reflexivity. Qed.
Example t8 : show_l (limit 50 Debug (e_div (e_sin x) (e_mul x x)) x e_zero 1) = Ok "infinity".
Proof. vm_compute; reflexivity. Qed.
Example t9 : show_l (limit 50 Debug (e_div (e_mul (e_sin x) (e_sin x)) x) x e_zero 1) = Ok "0".
Proof. vm_compute; reflexivity. Qed.
(* num_aggregate/mod.rs:52-62 *)
Example t10 : show (num_aggregate Debug
   (e_div (e_mul (e_neg (e_add (e_of_i64 1) (e_of_i64 2))) (e_sub (e_of_i64 3) (e_of_i64 4)))
          (e_of_i64 5))) = Ok "3/5".
Proof. vm_compute; reflexivity. Qed.
(* exp.rs / ln.rs tests *)
Example t11 : num_aggregate Debug (e_ln (e_exp e_pi)) = Ok e_pi. Proof. reflexivity. Qed.
Example t12 : num_aggregate Debug (e_exp (e_ln e_pi)) = Ok e_pi. Proof. reflexivity. Qed.
(* operand.rs:152-167 *)
Example t13 : f_to_string (f_of_Z 1) = "1.000". Proof. vm_compute; reflexivity. Qed.
Example t14 : f_to_string f_PI = "3.142". Proof. vm_compute; reflexivity. Qed.
Example t15 : f_to_string f_E = "2.718". Proof. vm_compute; reflexivity. Qed.
(* main.rs:12-31 *)
Example t16 : show_t (taylor_expansion Debug (e_exp x) x e_zero 5) =
  Ok "1 * x ^ 0 + 1 * x ^ 1 + 1/2 * x ^ 2 + 1/6 * x ^ 3 + 1/24 * x ^ 4 + 1/120 * x ^ 5 + O(x ^ 6)".
Proof. vm_compute; reflexivity. Qed.
Example t17 : show_t (taylor_expansion Debug (e_ln x) x e_one 5) =
  Ok "1 * (x - 1) ^ 1 + -1/2 * (x - 1) ^ 2 + 1/3 * (x - 1) ^ 3 + -1/4 * (x - 1) ^ 4 + 1/5 * (x - 1) ^ 5 + O((x - 1) ^ 6)".
Proof. vm_compute; reflexivity. Qed.
(* partial_expansion.rs:118-125 *)
Example t18 : show_t (taylor_expansion Debug (e_sin x) x e_zero 10) =
  Ok "1 * x ^ 1 + -1/6 * x ^ 3 + 1/120 * x ^ 5 + -1/5040 * x ^ 7 + 1/362880 * x ^ 9 + O(x ^ 11)".
Proof. vm_compute; reflexivity. Qed.
