(** * PropsMod: release builds compute integer polynomials modulo 2^64 (C67)

    In a release build overflow wraps silently, so results can be wrong. These theorems say
    exactly how wrong: by 2^64 times a polynomial with integer coefficients. *)
From Coq Require Import ZArith List String Bool Lia Lra.
From Coq Require Import Reals.
From Coquelicot Require Import Coquelicot.
From Verif Require Import Base Float Rational SmartNum Ast Compute Spec SpecTree SpecR SpecMod.
From Verif Require Import BaseProofs NumProofs NumProofs2 TreeProofs TreeProofs2 TreeProofs3 TreeProofs4 TreeProofs5.
From Verif Require Import RealProofs RealDeriv RealDeriv2 RealTaylor GradProofs ModProofs PropsTree PropsReal.
Import ListNotations.
Open Scope R_scope.
Open Scope string_scope.
Open Scope res_scope.

Lemma P64_eq : P64 = IZR (2 ^ 64). Proof. reflexivity. Qed.

Theorem c67_simplify e : int_poly e -> exists z q,
  num_aggregate Release e = Ok z /\ zpoly q /\
  forall rho, exists v, eval rho e = Some v /\ eval rho z = Some (v + IZR (2 ^ 64) * q rho).
Proof.
  intros H. destruct (c19_release_returns e (ip_wf e H)) as [z E]. destruct (agg_mod e H z E) as (Iz & q & Zq & Hq).
  exists z, q. refine (conj E (conj Zq _)). intros rho. exists (vl e rho). split; [apply ip_eval; exact H|].
  rewrite (ip_eval z Iz), Hq, P64_eq. reflexivity.
Qed.
Print Assumptions c67_simplify.

(** in particular at integer points the values agree modulo 2^64 *)
Theorem c67_integer_points e (rho : string -> Z) : int_poly e -> exists z n n',
  num_aggregate Release e = Ok z /\
  eval (fun y => IZR (rho y)) e = Some (IZR n) /\ eval (fun y => IZR (rho y)) z = Some (IZR n') /\
  (n' mod 2 ^ 64 = n mod 2 ^ 64)%Z.
Proof.
  intros H. destruct (c67_simplify e H) as (z & q & E & Zq & Hv). destruct (Hv (fun y => IZR (rho y))) as (v & V1 & V2).
  destruct (zp_int (vl e) (vl_zp e H) rho) as [n Hn]. destruct (zp_int q Zq rho) as [k Hk].
  pose proof (ip_eval e H (fun y => IZR (rho y))) as V3. rewrite V1, Hn in V3. injection V3 as ->.
  exists z, n, (n + k * 2 ^ 64)%Z. refine (conj E (conj V1 (conj _ _))).
  - rewrite V2, Hk. f_equal. rewrite plus_IZR, mult_IZR. ring.
  - apply Z.mod_add. discriminate.
Qed.
Print Assumptions c67_integer_points.

(** without variables: the wrapped true value, whatever overflowed on the way; so the exact
    value whenever it fits into an i64 *)
Theorem c67_closed e n rho : int_poly e -> (forall x, ~ occurs x e) -> eval rho e = Some (IZR n) ->
  num_aggregate Release e = Ok (e_of_i64 (wrap_i64 n)).
Proof.
  intros H Ho Hn. destruct (c67_integer_points e (fun _ => 0%Z) H) as (z & a & b & E & Ea & Eb & M).
  destruct (closed_num e H Ho z E) as (y & Iy & ->).
  assert (eval rho e = eval (fun _ => IZR 0) e) as Q. { apply eval_ext. intros x Hx. destruct (Ho x Hx). }
  rewrite Q, Ea in Hn. injection Hn as Hn. apply eq_IZR in Hn as ->.
  rewrite (ip_eval _ (ip_num y Iy)), vl_num in Eb. injection Eb as Eb. apply eq_IZR in Eb as ->.
  rewrite E. f_equal. f_equal.
  pose proof (Z.div_mod b (2 ^ 64) ltac:(discriminate)) as D1. pose proof (Z.div_mod n (2 ^ 64) ltac:(discriminate)) as D2.
  apply (wrap_unique b n (b / 2 ^ 64 - n / 2 ^ 64)); [exact Iy|]. change two64 with (2 ^ 64)%Z. lia.
Qed.
Print Assumptions c67_closed.
Theorem c67_closed_exact e n rho : int_poly e -> (forall x, ~ occurs x e) -> eval rho e = Some (IZR n) ->
  (- 2 ^ 63 <= n < 2 ^ 63)%Z -> num_aggregate Release e = Ok (e_of_i64 n).
Proof.
  intros H Ho Hn R. rewrite (c67_closed e n rho H Ho Hn). rewrite wrap_in; [reflexivity|].
  apply in_i64_iff. exact R.
Qed.
Print Assumptions c67_closed_exact.

(** derivatives *)
Theorem c67_derivative e x : int_poly e -> exists d q,
  derivative Release e (e_var x) = Ok (ROk d) /\ zpoly q /\
  forall rho t0, exists D, derivable_pt_lim (evalx rho x e) t0 D /\
    eval (upd rho x t0) d = Some (D + IZR (2 ^ 64) * q (upd rho x t0)).
Proof.
  intros H. destruct (safe_release _ (deriv_safe Release x e (ip_wf e H))) as [d E].
  destruct (deriv_mod x e H d E) as (Id & D & ZD & PD & q & Zq & Hq).
  exists d, q. split; [unfold derivative; cbn [to_variable root e_var]; rewrite E; reflexivity|]. split; [exact Zq|].
  intros rho t0. exists (D (upd rho x t0)). split.
  - apply is_derive_Reals. specialize (PD (upd rho x t0)). rewrite upd_same in PD.
    apply (is_derive_ext (fun t => vl e (upd (upd rho x t0) x t))); [|exact PD].
    intros t. exact (evalx_upd rho x t0 e t).
  - rewrite (ip_eval d Id), Hq, P64_eq. reflexivity.
Qed.
Print Assumptions c67_derivative.
Theorem c67_nth_derivative e x k : int_poly e -> exists d q,
  deriv_n Release x k e = Ok d /\ zpoly q /\
  forall rho t0, ex_derive_n (evalx rho x e) k t0 /\
    eval (upd rho x t0) d = Some (Derive_n (evalx rho x e) k t0 + IZR (2 ^ 64) * q (upd rho x t0)).
Proof.
  intros H.
  assert (exists d, deriv_n Release x k e = Ok d) as [d E].
  { clear - H. revert e H. induction k as [|k IH]; intros e H; [exists e; reflexivity|]. cbn [deriv_n].
    destruct (safe_release _ (deriv_safe Release x e (ip_wf e H))) as [d E]. rewrite E. cbn [bind].
    apply IH. exact (proj1 (deriv_mod x e H d E)). }
  destruct (deriv_n_mod x e H k d E) as (Id & D & ZD & (q & Zq & Hq) & HD).
  exists d, q. split; [exact E|]. split; [exact Zq|]. intros rho t0.
  destruct (HD (upd rho x t0)) as [D1 D2]. rewrite upd_same in D1, D2. split.
  - refine (ex_derive_n_ext _ _ k t0 _ D2). intros s. apply evalx_upd.
  - rewrite (ip_eval d Id), Hq, P64_eq, <- D1. do 2 f_equal. apply Derive_n_ext. intros s. apply evalx_upd.
Qed.
Print Assumptions c67_nth_derivative.

(** overflow on the way, right result: (2^62*4 + 7) - 2^62*4, where the debug build panics *)
Definition ex_wrap : expr :=
  let big := e_mul (e_of_i64 (2 ^ 62)) (e_of_i64 4) in e_sub (e_add big (e_of_i64 7)) big.
Example c67_example : int_poly ex_wrap /\ (forall x, ~ occurs x ex_wrap) /\
  num_aggregate Release ex_wrap = Ok (e_of_i64 7) /\ num_aggregate Debug ex_wrap = Panic.
Proof.
  refine (conj _ (conj _ (conj _ _))); [| |reflexivity|reflexivity].
  - unfold ex_wrap. repeat first [apply ip_num; reflexivity | constructor].
  - intros x. unfold ex_wrap, e_sub, e_add, e_mul, e_of_i64. rewrite !occurs_mk2.
    assert (forall z, ~ occurs x (e_num z)) as N by (intros z; apply occurs_num).
    intros H. repeat (destruct H as [H|H]); exact (N _ H).
Qed.
(** the derivative of (2^62*4)*x + x is 2^64 + 1; the release build answers 1 (here q = -1) *)
Definition ex_wrap2 : expr := e_add (e_mul (e_mul (e_of_i64 (2 ^ 62)) (e_of_i64 4)) ex_x) ex_x.
Example c67_example_derivative : int_poly ex_wrap2 /\ derivative Release ex_wrap2 ex_x = Ok (ROk e_one).
Proof.
  split; [unfold ex_wrap2, ex_x; repeat first [apply ip_num; reflexivity | constructor]|]. vm_compute. reflexivity.
Qed.
