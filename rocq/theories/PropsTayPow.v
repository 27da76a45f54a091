(** * PropsTayPow: Taylor expansions of powers are wrong wherever the base simplifies to 0 or 1 (C35) *)
From Coq Require Import ZArith QArith Qreals Reals Lra List String Bool Lia.
From Verif Require Import Base Float Rational SmartNum Ast Compute Limit Spec SpecTree SpecR SpecExact SpecHeight.
From Verif Require Import BaseProofs NumProofs TreeProofs TreeProofs2 RealProofs PropsNum PropsTree PropsReal PropsHeight.
Import List ListNotations.
Open Scope Z_scope.

Lemma over_one m k rho : m = Debug \/ m = Release -> - 2 ^ 63 < k < 2 ^ 63 ->
  exists c, num_aggregate m (e_div (e_of_i64 k) (e_of_i64 1)) = Ok c /\ eval rho c = Some (IZR k).
Proof.
  intros Hm H.
  assert (eval rho (e_div (e_of_i64 k) (e_of_i64 1)) = Some (IZR k)) as V.
  { unfold e_div, e_of_i64, e_num. rewrite eval_mk2, !eval_num, !num_R_int. cbn [obind ev2].
    destruct (Req_EM_T 1 0); [lra|]. f_equal. field. }
  assert (in_i64 k = true) as I by (apply in_i64_iff; unfold two63; lia).
  destruct (agg_height (e_div (e_of_i64 k) (e_of_i64 1))) with (rho := rho) (v := IZR k) as (n & A & _ & R).
  - apply ea_div; [apply (ea_num m _ (inject_Z k))|apply (ea_num m _ (inject_Z 1))]; try apply An_i64; try reflexivity; exact I.
  - exact V.
  - change (height_num (sn_of_i64 k) * height_num (sn_of_i64 1) < 2 ^ 63). change (height_num (sn_of_i64 k)) with (Z.max 1 (Z.max (Z.abs k) 1)).
    change (height_num (sn_of_i64 1)) with 1. lia.
  - exists (e_num n). split; [|unfold e_num; rewrite eval_num; exact R].
    destruct Hm as [-> | ->]; [apply (agg_mono Strict Debug Logic.I _ _ A)|apply (agg_mono Strict Release Logic.I _ _ A)].
Qed.

(** In any expansion of u^k around a point where the base u simplifies to 1 the constant
    coefficient is k, and around a point where it simplifies to 0 the constant coefficient is 1. *)
Theorem c35_constant_coefficient m rho u x k at_ n t : m = Debug \/ m = Release -> - 2 ^ 63 < k < 2 ^ 63 ->
  taylor_expansion m (e_pow u (e_of_i64 k)) (e_var x) at_ (Z.of_nat n) = Ok (ROk t) ->
  exists c, nth_error (ex_coef t) 0 = Some c /\
    (num_aggregate m (subst x at_ u) = Ok (e_of_i64 1) -> eval rho c = Some (IZR k)) /\
    (num_aggregate m (subst x at_ u) = Ok (e_of_i64 0) -> eval rho c = Some 1%R).
Proof.
  intros Hm Hk T. apply c31_shape in T as (_ & _ & _ & _ & _ & K). destruct (K 0%nat (Nat.le_0_l _)) as (d & s & c & E1 & E2 & E3 & E4).
  cbn [deriv_n] in E1. injection E1 as <-. exists c. split; [exact E4|]. change (wrap_i64 (factZ 0)) with 1 in E3.
  assert (subst x at_ (e_pow u (e_of_i64 k)) = e_pow (subst x at_ u) (e_of_i64 k)) as S by reflexivity.
  rewrite S in E2. unfold e_pow in E2. rewrite agg_mk2 in E2 by reflexivity. cbn [e_of_i64 e_num num_aggregate bind] in E2.
  split; intros B; rewrite B in E2; cbn [bind] in E2.
  - injection E2 as <-. destruct (over_one m k rho Hm Hk) as (c' & A & V). change (Expr (Operand (Num (sn_of_i64 k))) []) with (e_of_i64 k) in E3.
    rewrite A in E3. injection E3 as <-. exact V.
  - injection E2 as <-. destruct (over_one m 1 rho Hm) as (c' & A & V); [lia|].
    rewrite A in E3. injection E3 as <-. exact V.
Qed.
Print Assumptions c35_constant_coefficient.

(** So, in release builds, every expansion of every power x^k with k >= 2 around 1 or 0 is wrong. *)
Theorem c35_all_powers_refuted rho x k n : 2 <= k < 2 ^ 63 ->
  (exists t c, taylor_expansion Release (e_pow (e_var x) (e_of_i64 k)) (e_var x) (e_of_i64 1) (Z.of_nat n) = Ok (ROk t) /\
    nth_error (ex_coef t) 0 = Some c /\ eval rho c = Some (IZR k) /\
    eval (upd rho x 1) (e_pow (e_var x) (e_of_i64 k)) = Some 1%R) /\
  (exists t c, taylor_expansion Release (e_pow (e_var x) (e_of_i64 k)) (e_var x) (e_of_i64 0) (Z.of_nat n) = Ok (ROk t) /\
    nth_error (ex_coef t) 0 = Some c /\ eval rho c = Some 1%R /\
    eval (upd rho x 0) (e_pow (e_var x) (e_of_i64 k)) = Some 0%R).
Proof.
  intros Hk. assert (in_i64 k = true) as I by (apply in_i64_iff; unfold two63; lia).
  assert (wf (e_pow (e_var x) (e_of_i64 k))) as W by (apply wf_mk2; [reflexivity|apply wf_var|apply wf_num', sn_of_i64_ok; exact I]).
  assert (forall z, num_aggregate Release (subst x (e_of_i64 z) (e_var x)) = Ok (e_of_i64 z)) as Z1.
  { intros z. unfold e_var. cbn [subst]. rewrite String.eqb_refl. reflexivity. }
  assert (forall a, eval (upd rho x a) (e_pow (e_var x) (e_of_i64 k)) = powR a (IZR k)) as P.
  { intros a. unfold e_pow. unfold e_var, e_of_i64, e_num. rewrite eval_mk2, eval_var, eval_num, num_R_int, upd_same. reflexivity. }
  split.
  - destruct (c31_release_returns (e_pow (e_var x) (e_of_i64 k)) x (e_of_i64 1) (Z.of_nat n) W (wf_i64 1 eq_refl)) as (t & T).
    destruct (c35_constant_coefficient Release rho _ x k _ n t (or_intror eq_refl) ltac:(lia) T) as (c & C & V & _).
    exists t, c. split; [exact T|]. split; [exact C|]. split; [apply V, Z1|]. rewrite P. unfold powR. destruct (Rlt_dec 0 1); [|lra].
    f_equal. unfold Rpower. rewrite ln_1, Rmult_0_r. apply exp_0.
  - destruct (c31_release_returns (e_pow (e_var x) (e_of_i64 k)) x (e_of_i64 0) (Z.of_nat n) W (wf_i64 0 eq_refl)) as (t & T).
    destruct (c35_constant_coefficient Release rho _ x k _ n t (or_intror eq_refl) ltac:(lia) T) as (c & C & _ & V).
    exists t, c. split; [exact T|]. split; [exact C|]. split; [apply V, Z1|]. rewrite P.
    unfold powR. destruct (Rlt_dec 0 0); [lra|]. destruct (Req_EM_T 0 0); [|lra].
    destruct (Rlt_dec 0 (IZR k)) as [|N]; [reflexivity|]. destruct N. apply IZR_lt. lia.
Qed.
Print Assumptions c35_all_powers_refuted.

(** (x-1)^3 around 2, where the base is 1: the constant coefficient is 3 *)
Example c35_example : exists t, 
  taylor_expansion Debug (e_pow (e_sub (e_var "x") (e_of_i64 1)) (e_of_i64 3)) (e_var "x") (e_of_i64 2) 0 = Ok (ROk t) /\
  num_aggregate Debug (subst "x" (e_of_i64 2) (e_sub (e_var "x") (e_of_i64 1))) = Ok (e_of_i64 1).
Proof. eexists. split; vm_compute; reflexivity. Qed.
