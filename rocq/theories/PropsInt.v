(** * PropsInt: expressions with integer literals (C66)

    The theorems of PropsReal speak about lossless runs. On these expressions every run of a
    debug build that returns is lossless, so here the debug build itself is correct. *)
From Coq Require Import ZArith QArith List String Bool Lia Lra.
From Coq Require Import Reals Qreals.
From Coquelicot Require Import Coquelicot.
From Verif Require Import Base Float Rational SmartNum Ast Compute Spec SpecTree SpecR SpecInt.
From Verif Require Import BaseProofs NumProofs NumProofs2 TreeProofs TreeProofs2 TreeProofs3 TreeProofs4 TreeProofs5.
From Verif Require Import RealProofs RealDeriv RealDeriv2 RealTaylor IntProofs PropsTree PropsReal.
Import ListNotations.
Open Scope R_scope.
Open Scope string_scope.
Open Scope res_scope.

Lemma ie_no_pi e : int_expr e -> ~ has_pi e.
Proof.
  induction 1; unfold e_neg, e_sin, e_cos, e_exp, e_ln, e_add, e_sub, e_mul, e_div, e_pow;
    rewrite ?has_pi_mk1, ?has_pi_mk2; try tauto.
  - intros Hp. apply has_pi_num in Hp. destruct (intnum_not_pi (sn_of_i64 z)) as [Q _]; [exists z; auto|congruence].
  - apply npi_var.
Qed.
Lemma no_pi_sub e a : ~ has_pi e -> subterm a e -> ~ has_pi a.
Proof. intros H Hs Hp. apply H. exact (has_pi_sub e a Hp Hs). Qed.
Lemma ie_subterm e : int_expr e -> forall s, subterm s e -> int_expr s.
Proof.
  induction 1; intros s Hs; inversion Hs; subst; try (constructor; assumption); cbn in *;
    repeat match goal with
      | H : False |- _ => destruct H
      | H : _ \/ _ |- _ => destruct H; subst
      end; auto.
Qed.

(** an integer expression without powers is regular everywhere *)
Lemma ie_regular rho x e : int_expr e -> ~ has_op OPow e -> regular rho x e.
Proof.
  intros I Hp. pose proof (ie_no_pi e I) as Np. split.
  - intros a b Hs. exfalso. apply Hp. exists (gen_op OPow), [a; b]. split; [reflexivity|exact Hs].
  - intros a [Hs|Hs]; apply (no_pi_sub e a Np);
      (eapply subterm_trans; [|exact Hs]); apply sub_mk1.
Qed.
Lemma ie_avoids e : int_expr e -> (forall a b, subterm (e_pow a b) e -> ~ has_op OLn a) -> avoids_bad_rules e.
Proof.
  intros I Hp. split.
  - intros a b a' Hs E. pose proof (agg_mono Strict Debug Logic.I a a' E) as ED.
    assert (int_expr e -> subterm (e_pow a b) e -> not_constant a) as Q.
    { clear -a. induction 1; intros Hs; inversion Hs; subst; cbn in *;
        repeat match goal with
          | H : False |- _ => destruct H
          | H : _ \/ _ |- _ => destruct H; subst
          end; auto; try discriminate. }
    pose proof (Q I Hs a' ED) as N. destruct (nonnum_nonzero _ N) as (N0 & N1 & _).
    refine (conj N0 (conj N1 _)). intros c ->. destruct (agg_ops _ OLn _ _ E) as [Hh | [X _]]; [|exact (Hp a b Hs Hh)|discriminate X].
    exists (gen_op OLn), [c]. split; [reflexivity|apply sub_refl].
  - intros a a' Hs E. destruct (is_pi a') eqn:P; [exfalso|reflexivity].
    assert (~ has_pi a) as Na. { apply (no_pi_sub e a (ie_no_pi e I)). eapply subterm_trans; [apply sub_mk1|exact Hs]. }
    assert (wf a) as Wa. { apply ie_wf, (ie_subterm e I). eapply subterm_trans; [apply sub_mk1|exact Hs]. }
    apply Na, (agg_pi Strict a Wa a' E). destruct a' as [[op|[n|y]] k]; try discriminate P.
    exists n, k. split; [exact P|apply sub_refl].
Qed.

(** ** C66 *)
(** what a debug build returns, it computed without losing anything *)
Theorem c66_lossless e : int_expr e ->
  (forall z, num_aggregate Debug e = Ok z -> num_aggregate Strict e = Ok z /\ int_expr z) /\
  (forall x d, derivative Debug e x = Ok d -> derivative Strict e x = Ok d) /\
  (forall x k d, deriv_n Debug x k e = Ok d -> deriv_n Strict x k e = Ok d /\ int_expr d).
Proof.
  intros I. refine (conj _ (conj _ _)).
  - intros z E. destruct (ie_agg e I z E) as [S W]. split; [exact S|apply wnf_ie; exact W].
  - intros x d E. unfold derivative in *. destruct (to_variable x) as [y|]; [|exact E]. inv_bind E.
    rewrite (proj1 (ie_deriv y e I _ Hb)). exact E.
  - intros x k d E. exact (ie_deriv_n x k e I d E).
Qed.
Print Assumptions c66_lossless.

(** simplification keeps the value *)
Theorem c66_simplify rho e z v : int_expr e -> (forall a b, subterm (e_pow a b) e -> ~ has_op OLn a) ->
  num_aggregate Debug e = Ok z -> eval rho e = Some v -> eval rho z = Some v.
Proof.
  intros I Hp E Hv. destruct (ie_agg e I z E) as [S _].
  exact (proj1 (c20_value_preserved rho e z v (ie_wf e I) (ie_avoids e I Hp) S Hv)).
Qed.
Print Assumptions c66_simplify.

(** the derivative is the derivative wherever the expression has a value *)
Theorem c66_derivative rho x t0 e d v : int_expr e -> ~ has_op OPow e ->
  derivative Debug e (e_var x) = Ok (ROk d) -> eval (upd rho x t0) e = Some v ->
  exists v', eval (upd rho x t0) d = Some v' /\
    (exists eps, 0 < eps /\ forall t, Rabs (t - t0) < eps -> defined (upd rho x t) e) /\
    derivable_pt_lim (evalx rho x e) t0 v'.
Proof.
  intros I Hp E Hv. apply (proj1 (proj2 (c66_lossless e I))) in E.
  exact (c29_derivative_correct rho x t0 e d v (ie_wf e I) (ie_regular _ x e I Hp) Hv E).
Qed.
Print Assumptions c66_derivative.

(** with powers, under the condition of C29 on the power bases *)
Theorem c66_derivative_powers rho x t0 e d v : int_expr e -> regular (upd rho x t0) x e ->
  derivative Debug e (e_var x) = Ok (ROk d) -> eval (upd rho x t0) e = Some v ->
  exists v', eval (upd rho x t0) d = Some v' /\ derivable_pt_lim (evalx rho x e) t0 v'.
Proof.
  intros I R E Hv. apply (proj1 (proj2 (c66_lossless e I))) in E.
  destruct (c29_derivative_correct rho x t0 e d v (ie_wf e I) R Hv E) as (v' & H & _ & D). exists v'. auto.
Qed.
Print Assumptions c66_derivative_powers.

(** higher derivatives *)
Theorem c66_nth_derivative rho x t0 e k d : int_expr e -> ~ has_op OPow e ->
  deriv_n Debug x k e = Ok d -> defined (upd rho x t0) e ->
  eval (upd rho x t0) d = Some (Derive_n (evalx rho x e) k t0) /\ ex_derive_n (evalx rho x e) k t0.
Proof.
  intros I Hp E Hd. apply (proj2 (proj2 (c66_lossless e I))) in E as [E _].
  refine (proj2 (deriv_n_correct (fun _ => True) rho x e (ie_wf e I) k d E t0 _)).
  split; [apply regular_rgen; apply ie_regular; assumption|exact Hd].
Qed.
Print Assumptions c66_nth_derivative.

Lemma tp_defined rho e : trig_poly e -> defined rho e.
Proof.
  unfold defined. induction 1; unfold e_neg, e_sin, e_cos, e_add, e_sub, e_mul;
    try (destruct IHtrig_poly as [u Hu]; rewrite eval_mk1, Hu; cbn; eauto; fail);
    try (destruct IHtrig_poly1 as [u Hu], IHtrig_poly2 as [w Hw]; rewrite eval_mk2, Hu, Hw; cbn; eauto; fail).
  - unfold e_of_i64, e_num. rewrite eval_num, num_R_int. eauto.
  - unfold e_var. rewrite eval_var. eauto.
Qed.
Lemma tp_regular rho x e : trig_poly e -> regular rho x e.
Proof. intros T. apply ie_regular; [apply tp_ie; exact T|]. apply tp_ops; [exact T|]. cbn. auto. Qed.
Lemma tp_taylor_regular rho x at_ a e : trig_poly e -> trig_poly at_ -> taylor_regular rho x at_ a e.
Proof.
  intros T Ta. refine (conj _ (conj _ (conj _ (conj _ _)))).
  - intros u b Hs. exfalso. apply (tp_ops e OPow T); [cbn; auto|]. exists (gen_op OPow), [u; b]. split; [reflexivity|exact Hs].
  - exact (proj2 (tp_regular rho x e T)).
  - apply tp_ops; [exact Ta|]. cbn. auto.
  - apply ie_no_pi, tp_ie, Ta.
  - apply tp_regular, Ta.
Qed.
Lemma tp_taylor_strict e x at_ n t : trig_poly e -> trig_poly at_ ->
  taylor_expansion Debug e (e_var x) at_ (Z.of_nat n) = Ok (ROk t) ->
  taylor_expansion Strict e (e_var x) at_ (Z.of_nat n) = Ok (ROk t).
Proof.
  intros T Ta H. assert (n <= 20)%nat as Hn.
  { destruct (Nat.le_gt_cases n 20) as [L|L]; [exact L|]. exfalso.
    exact (proj1 (c34_debug_never_returns e (e_var x) at_ (Z.of_nat n) t ltac:(lia)) H). }
  unfold taylor_expansion in *. cbn [to_variable root e_var] in *. inv_bind H. unfold taylor_var in *. inv_bind Hb.
  rewrite (taylor_loop_DS x at_ Ta (Z.to_nat (Z.of_nat n + 1)) 0 (sn_of_i64 1) e [] a0); [|lia|lia| |exact T|exact Hb0].
  - cbn [bind] in *. rewrite Hb. exact H.
  - exists 1%Z. auto.
Qed.

(** Taylor expansion of polynomials, sines and cosines *)
Theorem c66_taylor rho x at_ a e n t : trig_poly e -> trig_poly at_ -> eval rho at_ = Some a ->
  taylor_expansion Debug e (e_var x) at_ (Z.of_nat n) = Ok (ROk t) ->
  (forall k, (k <= n)%nat -> exists ck, nth_error (ex_coef t) k = Some ck /\
     eval rho ck = Some (Derive_n (evalx rho x e) k a / INR (fact k)) /\ ex_derive_n (evalx rho x e) k a) /\
  (forall y, y <> a -> exists z, Rmin a y < z < Rmax a y /\
     eval (upd rho x y) e = Some (
       sum_f_R0 (fun k => value rho (nth k (ex_coef t) e_zero) * (y - a) ^ k) n
       + value (upd rho x z) (ex_residual t) * (y - a) ^ (S n) / INR (fact (S n)))).
Proof.
  intros T Ta Ha H. apply (tp_taylor_strict e x at_ n t T Ta) in H.
  pose proof (ie_wf e (tp_ie e T)) as W. pose proof (ie_wf at_ (tp_ie at_ Ta)) as Wa.
  pose proof (tp_taylor_regular rho x at_ a e T Ta) as G. split.
  - exact (c32_coefficients rho x at_ a e n t W Wa Ha G (tp_defined _ e T) H).
  - intros y Ny. destruct (c33_lagrange rho x at_ a e n t y W Wa Ha G) as (z & Hz & _ & E); try assumption.
    + intros s _. split; [apply tp_regular|apply tp_defined]; exact T.
    + exists z. auto.
Qed.
Print Assumptions c66_taylor.

(** ** the hypotheses are met, and the debug build does return *)
Definition ex_int : expr :=
  e_div (e_sin (e_mul (e_of_i64 3) ex_x)) (e_add (e_mul ex_x ex_x) (e_of_i64 (-2))).
Example c66_example : int_expr ex_int /\ ~ has_op OPow ex_int /\
  (exists d, derivative Debug ex_int ex_x = Ok (ROk d)) /\
  (exists z, num_aggregate Debug ex_int = Ok z).
Proof.
  refine (conj _ (conj _ (conj _ _))).
  - unfold ex_int, ex_x. repeat first [apply ie_num; reflexivity | apply ie_var | constructor 11 | constructor]; [..|].
    intros z E. vm_compute in E. injection E as <-. reflexivity.
  - unfold ex_int, e_div, e_sin, e_mul, e_add, ex_x, e_of_i64, e_num, e_var. repeat (rewrite RealTaylor.has_op_mk2 || rewrite RealTaylor.has_op_mk1).
    assert (forall o, ~ has_op OPow (Expr (Operand o) [])) as N.
    { intros o (op & c & _ & Hs). inversion Hs; subst. match goal with H : In _ [] |- _ => destruct H end. }
    intros H. repeat (destruct H as [H|H]); solve [discriminate H | exact (N _ H)].
  - eexists. vm_compute. reflexivity.
  - eexists. vm_compute. reflexivity.
Qed.
Definition ex_trig : expr := e_sub (e_mul ex_x (e_cos (e_mul (e_of_i64 2) ex_x))) ex_y.
Example c66_example_taylor : trig_poly ex_trig /\ trig_poly (e_add ex_y e_one) /\
  exists t, taylor_expansion Debug ex_trig ex_x (e_add ex_y e_one) 3 = Ok (ROk t).
Proof.
  refine (conj _ (conj _ _)).
  - unfold ex_trig, ex_x, ex_y. repeat first [apply tp_num; reflexivity | constructor].
  - unfold ex_y. apply tp_add; [apply tp_var|exact (tp_num 1 eq_refl)].
  - eexists. vm_compute. reflexivity.
Qed.
(** the condition matters: with the literal pi the debug build returns a rounded value *)
Example c66_example_not_lossless :
  exists z, num_aggregate Debug (e_add e_pi e_one) = Ok z /\ num_aggregate Strict (e_add e_pi e_one) <> Ok z.
Proof. eexists. split; [vm_compute; reflexivity|]. vm_compute. discriminate. Qed.
