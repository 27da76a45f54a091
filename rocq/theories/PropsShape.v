(** * PropsShape: growth of derivatives (C56), names do not matter (C57) *)
From Coq Require Import ZArith List String Bool Lia.
From Verif Require Import Base Float Rational SmartNum Ast Compute Limit Spec SpecTree SpecShape.
From Verif Require Import BaseProofs TreeProofs TreeProofs2 TreeProofs3 RealTaylor ShapeProofs.
From Verif Require Import PropsTree.
Import ListNotations.
Open Scope string_scope.
Open Scope nat_scope.

(** ** C56 derivatives grow at most quadratically, their nesting at most four-fold *)
Theorem c56_size m e to d : wf e -> derivative m e to = Ok (ROk d) -> size d <= 2 * (size e * size e).
Proof.
  intros W H. unfold derivative in H. destruct (to_variable to) as [x|]; [|discriminate]. inv_bind H. injection H as <-.
  exact (deriv_size m x e W _ Hb).
Qed.
Print Assumptions c56_size.

Theorem c56_depth m e to d : wf e -> derivative m e to = Ok (ROk d) -> depth d <= 4 * depth e.
Proof.
  intros W H. unfold derivative in H. destruct (to_variable to) as [x|]; [|discriminate]. inv_bind H. injection H as <-.
  exact (deriv_depth m x e W _ Hb).
Qed.
Print Assumptions c56_depth.

Theorem c56_aggregate_depth m e z : wf e -> num_aggregate m e = Ok z -> depth z <= depth e.
Proof. intros W. exact (agg_depth m e W z). Qed.
Print Assumptions c56_aggregate_depth.

(** n-fold derivatives, hence Taylor residuals *)
Lemma sq_mono a b : a <= b -> a * a <= b * b. Proof. nia. Qed.
Theorem c56_iterated m x n e d : wf e -> deriv_n m x n e = Ok d ->
  2 * size d <= (2 * size e) ^ (2 ^ n) /\ depth d <= 4 ^ n * depth e.
Proof.
  revert e d. induction n as [|n IH]; intros e d W H.
  - injection H as <-. rewrite Nat.pow_1_r. cbn. lia.
  - cbn [deriv_n] in H. inv_bind H. destruct (IH a d (deriv_wf _ _ _ _ W Hb) H) as [H1 H2].
    pose proof (deriv_size m x e W a Hb) as H3. pose proof (deriv_depth m x e W a Hb) as H4. split.
    + eapply Nat.le_trans; [exact H1|]. replace (2 ^ S n) with (2 * 2 ^ n) by reflexivity.
      rewrite Nat.pow_mul_r. apply Nat.pow_le_mono_l. rewrite Nat.pow_2_r. nia.
    + eapply Nat.le_trans; [exact H2|]. replace (4 ^ S n) with (4 * 4 ^ n) by reflexivity.
      replace (4 * 4 ^ n * depth e) with (4 ^ n * (4 * depth e)) by lia. apply Nat.mul_le_mono_l. exact H4.
Qed.
Print Assumptions c56_iterated.
Theorem c56_residual m e x at_ n t : wf e -> taylor_expansion m e (e_var x) at_ (Z.of_nat n) = Ok (ROk t) ->
  2 * size (ex_residual t) <= (2 * size e) ^ (2 ^ S n).
Proof.
  intros W H. apply c31_shape in H as (_ & _ & _ & _ & H & _). exact (proj1 (c56_iterated m x (S n) e _ W H)).
Qed.
Print Assumptions c56_residual.

(** the quadratic order is reached: x*(x*(...*x)) *)
Fixpoint monomial (n : nat) : expr := match n with O => ex_x | S k => e_mul ex_x (monomial k) end.
Fixpoint dmonomial (n : nat) : expr :=
  match n with
  | O => e_one
  | S O => e_add ex_x ex_x
  | S k => e_add (monomial k) (e_mul ex_x (dmonomial k))
  end.
Lemma agg_mono_fix m n : num_aggregate m (monomial n) = Ok (monomial n).
Proof.
  induction n as [|n IH]; [reflexivity|]. cbn [monomial]. unfold e_mul. rewrite agg_mk2 by reflexivity.
  rewrite IH. cbn [num_aggregate ex_x e_var bind]. destruct n; reflexivity.
Qed.
Lemma agg_dmono_fix m n : num_aggregate m (dmonomial n) = Ok (dmonomial n).
Proof.
  induction n as [|n IH]; [reflexivity|]. destruct n as [|n]; [reflexivity|].
  change (dmonomial (S (S n))) with (e_add (monomial (S n)) (e_mul ex_x (dmonomial (S n)))).
  unfold e_add at 1. rewrite agg_mk2 by reflexivity. unfold e_mul at 1. rewrite agg_mk2 by reflexivity.
  rewrite IH, agg_mono_fix. cbn [num_aggregate ex_x e_var bind]. destruct n; reflexivity.
Qed.
Theorem c56_quadratic m n : exists d,
  derivative m (monomial n) ex_x = Ok (ROk d) /\ size (monomial n) = 2 * n + 1 /\ n * n <= size d.
Proof.
  assert (deriv m "x" (monomial n) = Ok (dmonomial n)) as E.
  { induction n as [|n IH]; [reflexivity|]. cbn [monomial]. unfold e_mul. rewrite deriv_mk2 by reflexivity. rewrite IH.
    cbn [bind]. change (deriv m "x" ex_x) with (@Ok expr e_one). cbn [bind raw2].
    unfold e_add. rewrite agg_mk2 by reflexivity. unfold e_mul. rewrite !agg_mk2 by reflexivity.
    rewrite agg_mono_fix, agg_dmono_fix. cbn [num_aggregate ex_x e_var bind].
    destruct n as [|[|n]]; reflexivity. }
  assert (forall k, size (monomial k) = 2 * k + 1) as S1.
  { induction k as [|k IHk]; [reflexivity|]. cbn [monomial]. unfold e_mul. rewrite size_mk2, IHk. cbn. lia. }
  assert (forall k, k * k <= size (dmonomial k)) as S2.
  { induction k as [|k IHk]; [cbn; lia|]. destruct k as [|k]; [cbn; lia|].
    change (dmonomial (S (S k))) with (e_add (monomial (S k)) (e_mul ex_x (dmonomial (S k)))).
    unfold e_add, e_mul at 1. rewrite !size_mk2, S1. nia. }
  exists (dmonomial n). split; [|split; [apply S1|apply S2]].
  unfold derivative. cbn [to_variable root ex_x e_var]. rewrite E. reflexivity.
Qed.
Print Assumptions c56_quadratic.

Example c56_example : wf (monomial 5) /\ exists d, derivative Debug (monomial 5) ex_x = Ok (ROk d) /\ size (monomial 5) = 11 /\ size d = 39.
Proof.
  split.
  - cbn [monomial]. unfold e_mul. repeat first [apply wf_mk2; [reflexivity| |]|apply wf_var].
  - eexists. split; [vm_compute; reflexivity|split; reflexivity].
Qed.

(** ** C57 variable names do not matter *)
(** on every tree, for every renaming [s] that keeps different names different: computing
    on renamed input gives the renamed output *)
Theorem c57_aggregate s m e : num_aggregate m (rename s e) = on_ok (rename s) (num_aggregate m e).
Proof. apply agg_ren. Qed.
Print Assumptions c57_aggregate.
Theorem c57_substitute s e u v : injective s ->
  substitute (rename s e) (rename s u) (rename s v) = on_result (rename s) (fun r => r) (substitute e u v).
Proof.
  intros Hs. unfold substitute. rewrite to_variable_ren. destruct (to_variable u); [|reflexivity]. cbn [option_map on_result].
  rewrite subst_ren by exact Hs. reflexivity.
Qed.
Print Assumptions c57_substitute.
Theorem c57_derivative s m e to : injective s ->
  derivative m (rename s e) (rename s to) =
  on_ok (on_result (rename s) (fun r => match r with DerivativeError e => DerivativeError (rename s e) end)) (derivative m e to).
Proof.
  intros Hs. unfold derivative. rewrite to_variable_ren. destruct (to_variable to); [|reflexivity]. cbn [option_map].
  rewrite deriv_ren by exact Hs. rewrite bind_on_ok, on_ok_bind. reflexivity.
Qed.
Print Assumptions c57_derivative.
Theorem c57_taylor s m e of_ at_ order : injective s ->
  taylor_expansion m (rename s e) (rename s of_) (rename s at_) order =
  on_ok (on_result (rename_expansion s) (fun r => mkTaylorError (rename s (te_expr r)) (te_reason r)))
    (taylor_expansion m e of_ at_ order).
Proof.
  intros Hs. unfold taylor_expansion. rewrite to_variable_ren. destruct (to_variable of_) as [x|]; [|reflexivity]. cbn [option_map].
  unfold taylor_var. rewrite (taylor_loop_ren s Hs m x at_ _ _ _ e []). rewrite bind_on_ok, !on_ok_bind.
  destruct (taylor_loop m x at_ (Z.to_nat (order + 1)) 0 (sn_of_i64 1) e []) as [[c r]| | |]; reflexivity.
Qed.
Print Assumptions c57_taylor.
Theorem c57_limit s fuel m e of_ to order : injective s ->
  limit fuel m (rename s e) (rename s of_) (rename s to) order =
  on_ok (on_result (rename_limit s) (fun r => r)) (limit fuel m e of_ to order).
Proof.
  intros Hs. unfold limit. rewrite to_variable_ren. destruct (to_variable of_) as [x|]; [|reflexivity]. cbn [option_map].
  apply limit_var_ren. exact Hs.
Qed.
Print Assumptions c57_limit.

(** merging two names is not harmless: d(x*y)/dx with y renamed to x *)
Example c57_merge : let s := fun _ => "x" in
  derivative Debug (rename s (e_mul ex_x ex_y)) (rename s ex_x) <>
  on_ok (on_result (rename s) (fun r => r)) (derivative Debug (e_mul ex_x ex_y) ex_x).
Proof. intros s. vm_compute. discriminate. Qed.
(** an injective renaming: a prefix *)
Example c57_example : injective (fun y => "v_" ++ y)%string /\
  rename (fun y => "v_" ++ y)%string (e_mul ex_x (e_sin ex_y)) = e_mul (e_var "v_x") (e_sin (e_var "v_y")).
Proof. split; [|reflexivity]. intros y z H. cbn in H. congruence. Qed.
