(** * PropsGrow: repeated derivatives really grow exponentially (C56) *)
From Coq Require Import ZArith List String Bool Lia.
From Verif Require Import Base Float Rational SmartNum Ast Compute Limit Spec SpecTree SpecShape.
From Verif Require Import BaseProofs RationalProofs NumProofs NumProofs2 TreeProofs TreeProofs2 TreeProofs3 ShapeProofs.
From Verif Require Import PropsTree.
Import ListNotations.
Open Scope string_scope.
Open Scope nat_scope.

Definition exp_x : expr := e_exp (e_var "x").
Fixpoint doubled (n : nat) : expr :=
  match n with O => e_mul exp_x exp_x | S k => e_add (doubled k) (doubled k) end.

Lemma doubled_agg m n : num_aggregate m (doubled n) = Ok (doubled n).
Proof.
  induction n as [|n IH].
  - destruct m; vm_compute; reflexivity.
  - cbn [doubled]. unfold e_add. rewrite agg_mk2 by reflexivity. rewrite IH. cbn [bind eval_rule].
    unfold add_eval_rule, eval2. cbn [pop_unwrap pop bind].
    assert (is_num (doubled n) = false) as N by (destruct n; reflexivity).
    assert (is_zero (doubled n) = false) as Z by (destruct n; reflexivity).
    rewrite N, Z. reflexivity.
Qed.

Lemma doubled_deriv m n : deriv m "x" (doubled n) = Ok (doubled (S n)).
Proof.
  induction n as [|n IH].
  - destruct m; vm_compute; reflexivity.
  - cbn [doubled]. unfold e_add at 1. rewrite deriv_mk2 by reflexivity. unfold raw2. rewrite IH. cbn [bind].
    exact (doubled_agg m (S (S n))).
Qed.

Lemma doubled_deriv_n m k : forall n, deriv_n m "x" k (doubled n) = Ok (doubled (n + k)).
Proof.
  induction k as [|k IH]; intros n; cbn [deriv_n].
  - rewrite Nat.add_0_r. reflexivity.
  - rewrite doubled_deriv. cbn [bind]. rewrite IH. f_equal. f_equal. lia.
Qed.

Lemma doubled_size n : size (doubled n) = 6 * 2 ^ n - 1.
Proof.
  induction n as [|n IH]; [reflexivity|]. cbn [doubled]. unfold e_add. rewrite size_mk2, IH, Nat.pow_succ_r'.
  assert (2 ^ n <> 0) by (apply Nat.pow_nonzero; discriminate). lia.
Qed.

(** ** C56 the k-th derivative of exp(x)*exp(x) has exactly 6*2^k - 1 nodes, in every build *)
Theorem c56_exponential m k : exists d,
  deriv_n m "x" k (e_mul (e_exp (e_var "x")) (e_exp (e_var "x"))) = Ok d /\ size d = 6 * 2 ^ k - 1.
Proof.
  exists (doubled k). split; [exact (doubled_deriv_n m k 0)|apply doubled_size].
Qed.
Print Assumptions c56_exponential.

Theorem c56_exponential_residual at_ n : wf at_ -> exists t,
  taylor_expansion Release (e_mul (e_exp (e_var "x")) (e_exp (e_var "x"))) (e_var "x") at_ (Z.of_nat n) = Ok (ROk t) /\
  size (ex_residual t) = 6 * 2 ^ S n - 1.
Proof.
  intros Wa.
  assert (wf (e_mul (e_exp (e_var "x")) (e_exp (e_var "x")))) as We
    by (apply wf_mk2; [reflexivity|apply wf_mk1; [reflexivity|constructor]|apply wf_mk1; [reflexivity|constructor]]).
  destruct (c31_release_returns _ "x" at_ (Z.of_nat n) We Wa) as [t E]. exists t. split; [exact E|].
  apply c31_shape in E as (_ & _ & _ & _ & E & _). change (deriv_n Release "x" (S n) (doubled 0) = Ok (ex_residual t)) in E. rewrite doubled_deriv_n in E.
  injection E as <-. exact (doubled_size (S n)).
Qed.
Print Assumptions c56_exponential_residual.

Example c56_exponential_example : exists t,
  taylor_expansion Release (e_mul exp_x exp_x) (e_var "x") e_zero 9 = Ok (ROk t) /\ size (ex_residual t) = 6 * 2 ^ 10 - 1.
Proof. apply (c56_exponential_residual e_zero 9). constructor. apply sn_of_i64_ok. reflexivity. Qed.
