(** * PropsGrow2: repeated derivatives of a quotient square the denominator each time (C56) *)
From Coq Require Import ZArith List String Bool Lia Reals Lra.
From Coquelicot Require Import Coquelicot.
From Verif Require Import Base Float Rational SmartNum Ast Compute Limit Spec SpecTree SpecR SpecShape SpecInt SpecQuot.
From Verif Require Import BaseProofs RationalProofs NumProofs NumProofs2 TreeProofs TreeProofs2 TreeProofs3 TreeProofs5 ShapeProofs.
From Verif Require Import RealProofs RealDeriv RealDeriv2 RealTaylor PropsTree IntProofs PropsQuot.
Import ListNotations.
Open Scope string_scope.
Open Scope nat_scope.

(** v, v*v, (v*v)*(v*v), ...: v to the power 2^n as the code writes it *)
Fixpoint squared (n : nat) (v : expr) : expr :=
  match n with O => v | S k => squared k (e_mul v v) end.

Lemma is_one_num v : is_num v = false -> is_one v = false /\ is_zero v = false.
Proof. destruct v as [[op|[n|y]] c]; cbn; intros H; try discriminate; auto. Qed.

Lemma squared_size n : forall v, size (squared n v) + 1 = 2 ^ n * (size v + 1).
Proof.
  induction n as [|n IH]; intros v; cbn [squared]; [cbn; lia|].
  rewrite IH. unfold e_mul. rewrite size_mk2. rewrite Nat.pow_succ_r'. lia.
Qed.

Lemma agg_sq m v : num_aggregate m v = Ok v -> is_num v = false ->
  num_aggregate m (e_mul v v) = Ok (e_mul v v).
Proof.
  intros Hv N. unfold e_mul. rewrite agg_mk2 by reflexivity. rewrite Hv. cbn [bind eval_rule].
  unfold mul_eval_rule, eval2. cbn [pop_unwrap pop bind]. destruct (is_one_num v N) as [O Z].
  rewrite N, O, Z. reflexivity.
Qed.

Lemma deriv_zero_n m x n : deriv_n m x n e_zero = Ok e_zero.
Proof. induction n as [|n IH]; [reflexivity|]. cbn [deriv_n]. unfold e_zero at 1, e_of_i64, e_num. rewrite deriv_num. exact IH. Qed.

Lemma deriv_quot m x u v d : num_aggregate m v = Ok v -> is_num v = false ->
  deriv m x (e_div u v) = Ok d -> d = e_zero \/ exists w, d = e_div w (e_mul v v).
Proof.
  intros Hv N H. unfold e_div in H. rewrite deriv_mk2 in H by reflexivity. unfold raw2 in H.
  inv_bind H. inv_bind H.
  unfold e_div in H. rewrite agg_mk2 in H by reflexivity. fold (e_mul v v) in H. rewrite (agg_sq m v Hv N) in H. cbn [bind] in H.
  inv_bind H. cbn [eval_rule] in H. unfold div_eval_rule, eval2 in H. cbn [pop_unwrap pop bind] in H.
  change (is_num (e_mul v v)) with false in H. rewrite andb_false_r in H.
  destruct (is_zero _); injection H as <-; [left; reflexivity|right; eexists; reflexivity].
Qed.

(** the k-th derivative of u/v is literally 0 or has the denominator v^(2^k), written out; so it
    has at least 2^k times as many nodes as v (v simplified and not a number) *)
Theorem c56_quotient m x k : forall u v d, num_aggregate m v = Ok v -> is_num v = false ->
  deriv_n m x k (e_div u v) = Ok d ->
  d = e_of_i64 0 \/ (exists w, d = e_div w (squared k v)) /\ 2 ^ k * (size v + 1) <= size d.
Proof.
  assert (P : forall k u v d, num_aggregate m v = Ok v -> is_num v = false ->
    deriv_n m x k (e_div u v) = Ok d -> d = e_zero \/ exists w, d = e_div w (squared k v)).
  { clear. induction k as [|k IH]; intros u v d Hv N H; cbn [deriv_n] in H.
    - injection H as <-. right. exists u. reflexivity.
    - inv_bind H. destruct (deriv_quot m x u v a Hv N Hb) as [->|(w & ->)].
      + rewrite deriv_zero_n in H. injection H as <-. left. reflexivity.
      + destruct (IH w (e_mul v v) d (agg_sq m v Hv N) eq_refl H) as [->|(w' & ->)]; [left; reflexivity|right].
        exists w'. reflexivity. }
  intros u v d Hv N H. destruct (P k u v d Hv N H) as [->|(w & ->)]; [left; reflexivity|right].
  split; [exists w; reflexivity|]. unfold e_div. rewrite size_mk2. pose proof (squared_size k v). lia.
Qed.
Print Assumptions c56_quotient.

(** a debug build is exact on these (C90), so the derivatives are not 0 *)
Lemma quot_deriv_n_strict x k : forall e d, rq e -> deriv_n Debug x k e = Ok d -> deriv_n Strict x k e = Ok d.
Proof.
  induction k as [|k IH]; intros e d Q H; cbn [deriv_n] in *; [exact H|].
  inv_bind H. destruct (rq_deriv x e Q _ Hb) as [E R]. rewrite E. cbn [bind]. exact (IH _ _ R H).
Qed.

Lemma log_deriv1 m x : deriv m x (log_series x) = Ok (e_div (e_of_i64 1) (e_add (e_of_i64 1) (e_var x))).
Proof.
  unfold log_series, e_ln, e_add, e_of_i64, e_num, e_var. rewrite deriv_mk1 by reflexivity.
  unfold raw1. rewrite deriv_mk2 by reflexivity. unfold raw2. rewrite deriv_num, deriv_var, String.eqb_refl.
  destruct m; reflexivity.
Qed.

Lemma nonzero_at rho x e k d t : int_quotient e -> deriv_n Debug x k e = Ok d -> defined (upd rho x t) e ->
  (Derive_n (evalx rho x e) k t <> 0)%R -> d <> e_of_i64 0.
Proof.
  intros Q H D N E. apply (quot_deriv_n_strict x k e d (iq_rq e Q)) in H.
  destruct (deriv_n_correct (fun _ => True) rho x e (iq_wf e Q) k d H t (conj (proj1 (regular_rgen (upd rho x t) x e) (iq_regular (upd rho x t) x e Q)) D)) as (_ & V & _).
  rewrite E in V. unfold e_of_i64, e_num in V. rewrite eval_num, num_R_int in V. injection V as V. congruence.
Qed.

(** the k-th derivative of 1/(1-x), and the (k+1)-st of ln(1+x), has at least 2^(k+2) nodes
    whenever a debug build returns it *)
Theorem c56_geometric x k d : deriv_n Debug x k (geometric x) = Ok d -> 4 * 2 ^ k <= size d.
Proof.
  intros H.
  assert (d <> e_of_i64 0) as N.
  { apply (nonzero_at (fun _ => 0%R) x (geometric x) k d 0%R); [| exact H | |].
    - apply iq_div; [apply tp_num; reflexivity|apply tp_sub; [apply tp_num; reflexivity|apply tp_var]].
    - eexists. apply geometric_value. lra.
    - rewrite geometric_derive by lra. rewrite Rminus_0_r, pow1. unfold Rdiv. rewrite Rinv_1, Rmult_1_r. apply INR_fact_neq_0. }
  unfold geometric in H. apply c56_quotient in H; [|reflexivity|reflexivity].
  destruct H as [H|[_ H]]; [contradiction|]. change (size (e_sub (e_of_i64 1) (e_var x)) + 1) with 4 in H. lia.
Qed.
Print Assumptions c56_geometric.

Theorem c56_logarithm x k d : deriv_n Debug x (S k) (log_series x) = Ok d -> 4 * 2 ^ k <= size d.
Proof.
  intros H.
  assert (d <> e_of_i64 0) as N.
  { apply (nonzero_at (fun _ => 0%R) x (log_series x) (S k) d 0%R); [| exact H | |].
    - apply iq_ln, tp_add; [apply tp_num; reflexivity|apply tp_var].
    - eexists. apply log_value. lra.
    - rewrite log_derive by lra. rewrite Rplus_0_r, pow1. unfold Rdiv. rewrite Rinv_1, Rmult_1_r.
      apply Rmult_integral_contrapositive_currified; [apply pow_nonzero; lra|apply INR_fact_neq_0]. }
  cbn [deriv_n] in H. rewrite log_deriv1 in H. cbn [bind] in H.
  apply c56_quotient in H; [|reflexivity|reflexivity].
  destruct H as [H|[_ H]]; [contradiction|]. change (size (e_add (e_of_i64 1) (e_var x)) + 1) with 4 in H. lia.
Qed.
Print Assumptions c56_logarithm.

(** and so has the residual of its Taylor expansion *)
Theorem c56_logarithm_residual x at_ n t :
  taylor_expansion Debug (log_series x) (e_var x) at_ (Z.of_nat n) = Ok (ROk t) ->
  4 * 2 ^ n <= size (ex_residual t).
Proof.
  intros H. apply c31_shape in H as (_ & _ & _ & _ & R & _). exact (c56_logarithm x n _ R).
Qed.
Print Assumptions c56_logarithm_residual.

(** the hypotheses are met; a run of order 6 leaves a residual of several thousand nodes *)
Example c56_quotient_example : exists t,
  taylor_expansion Debug (log_series "x") (e_var "x") (e_of_i64 0) 6 = Ok (ROk t) /\ 256 <= size (ex_residual t).
Proof.
  eexists. split; [vm_compute; reflexivity|]. apply Nat.leb_le. vm_compute. reflexivity.
Qed.
