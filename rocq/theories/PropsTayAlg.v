(** * PropsTayAlg: Taylor coefficients of sums, products, quotients and derivatives (C73) *)
From Coq Require Import ZArith List String Bool Reals Lra Lia.
From Verif Require Import Base Float Rational SmartNum Ast Compute.
From Verif Require Import Spec SpecTree SpecR SpecBigO SpecTayAlg.
From Verif Require Import BaseProofs NumProofs NumProofs2 TreeProofs TreeProofs2 TreeProofs3 RealProofs RealDeriv RealDeriv2 RealTaylor.
From Verif Require Import PropsTree PropsReal PropsBigO.
Import ListNotations.
Open Scope R_scope.

Lemma poly_bound u n h : Rabs h <= 1 ->
  Rabs (sum_f_R0 (fun k => u k * h ^ k) n) <= sum_f_R0 (fun k => Rabs (u k)) n.
Proof.
  intros Hh. eapply Rle_trans; [apply sum_f_R0_triangle|]. apply sum_Rle. intros k _.
  rewrite Rabs_mult, <- RPow_abs. rewrite <- (Rmult_1_r (Rabs (u k))) at 2.
  apply Rmult_le_compat_l; [apply Rabs_pos|]. rewrite <- (pow1 k). apply pow_incr. split; [apply Rabs_pos|exact Hh].
Qed.
Lemma abs_pow_le h k n : Rabs h <= 1 -> (n <= k)%nat -> Rabs (h ^ k) <= Rabs h ^ n.
Proof.
  intros Hh L. rewrite <- RPow_abs. replace k with (n + (k - n))%nat by lia. rewrite pow_add.
  rewrite <- (Rmult_1_r (Rabs h ^ n)) at 2. apply Rmult_le_compat_l; [apply pow_le, Rabs_pos|].
  rewrite <- (pow1 (k - n)). apply pow_incr. split; [apply Rabs_pos|exact Hh].
Qed.

Lemma prod_split u v n h : exists rest,
  sum_f_R0 (fun k => u k * h ^ k) n * sum_f_R0 (fun k => v k * h ^ k) n
  = sum_f_R0 (fun k => cauchy u v k * h ^ k) n + rest /\
  (Rabs h <= 1 -> Rabs rest <= 
     sum_f_R0 (fun k => sum_f_R0 (fun l => Rabs (u (S (l + k)) * v (n - l)%nat)) (Nat.pred (n - k))) (Nat.pred n) * Rabs h ^ S n).
Proof.
  destruct n as [|n].
  - exists 0. split; [cbn; unfold cauchy; cbn; ring|]. intros H. rewrite Rabs_R0. cbn [sum_f_R0 Nat.pred Nat.sub].
    apply Rmult_le_pos; [apply Rabs_pos|apply pow_le, Rabs_pos].
  - eexists. split.
    + rewrite cauchy_finite by lia. f_equal. apply sum_eq. intros k Hk. unfold cauchy.
      rewrite (Rmult_comm _ (h ^ k)), scal_sum. apply sum_eq. intros j Hj.
      replace (h ^ k) with (h ^ j * h ^ (k - j)) by (rewrite <- pow_add; f_equal; lia). ring.
    + intros Hh. rewrite (Rmult_comm _ (Rabs h ^ S (S n))), scal_sum.
      eapply Rle_trans; [apply sum_f_R0_triangle|]. apply sum_Rle. intros k Hk.
      rewrite Rmult_comm, scal_sum.
      eapply Rle_trans; [apply sum_f_R0_triangle|]. apply sum_Rle. intros l Hl.
      replace (u (S (l + k)) * h ^ S (l + k) * (v (S n - l)%nat * h ^ (S n - l)))
        with (u (S (l + k)) * v (S n - l)%nat * h ^ (S (l + k) + (S n - l))) by (rewrite pow_add; ring).
      rewrite Rabs_mult. apply Rmult_le_compat_l; [apply Rabs_pos|]. apply abs_pow_le; [exact Hh|lia].
Qed.

Lemma tr_sub rho x at_ a f h : subterm f h -> taylor_regular rho x at_ a h -> taylor_regular rho x at_ a f.
Proof.
  intros S (H1 & H2 & H3). split; [|split; [|exact H3]].
  - intros u b K. apply H1. exact (subterm_trans _ _ _ K S).
  - intros u K. apply H2. destruct K as [K|K]; [left|right]; exact (subterm_trans _ _ _ K S).
Qed.

Lemma big_O_add rho x f g a u v n :
  big_O rho x f a (polynomial u n a) (S n) -> big_O rho x g a (polynomial v n a) (S n) ->
  big_O rho x (e_add f g) a (polynomial (fun k => u k + v k) n a) (S n).
Proof.
  intros (C & e1 & E1 & B1) (D & e2 & E2 & B2). exists (C + D), (Rmin e1 e2). split; [now apply Rmin_glb_lt|].
  intros y Hy. destruct (B1 y) as (p & Ep & P); [eapply Rlt_le_trans; [exact Hy|apply Rmin_l]|].
  destruct (B2 y) as (q & Eq & Q); [eapply Rlt_le_trans; [exact Hy|apply Rmin_r]|].
  exists (p + q). split; [unfold e_add; rewrite eval_mk2, Ep, Eq; reflexivity|].
  unfold polynomial in *.
  replace (sum_f_R0 (fun k => (u k + v k) * (y - a) ^ k) n) with
    (sum_f_R0 (fun k => u k * (y - a) ^ k) n + sum_f_R0 (fun k => v k * (y - a) ^ k) n).
  2:{ rewrite <- plus_sum. apply sum_eq. intros. ring. }
  match goal with |- Rabs (p + q - (?s + ?t)) <= _ => replace (p + q - (s + t)) with ((p - s) + (q - t)) by ring end.
  eapply Rle_trans; [apply Rabs_triang|]. rewrite Rmult_plus_distr_r. now apply Rplus_le_compat.
Qed.
Lemma big_O_neg rho x f a u n :
  big_O rho x f a (polynomial u n a) (S n) -> big_O rho x (e_neg f) a (polynomial (fun k => - u k) n a) (S n).
Proof.
  intros (C & e1 & E1 & B1). exists C, e1. split; [exact E1|].
  intros y Hy. destruct (B1 y Hy) as (p & Ep & P). exists (- p). split; [unfold e_neg; rewrite eval_mk1, Ep; reflexivity|].
  unfold polynomial in *.
  replace (sum_f_R0 (fun k => - u k * (y - a) ^ k) n) with (- sum_f_R0 (fun k => u k * (y - a) ^ k) n).
  2:{ replace (- sum_f_R0 (fun k => u k * (y - a) ^ k) n) with ((-1) * sum_f_R0 (fun k => u k * (y - a) ^ k) n) by ring.
      rewrite scal_sum. apply sum_eq. intros. ring. }
  match goal with |- Rabs (- p - - ?s) <= _ => replace (- p - - s) with (- (p - s)) by ring end.
  now rewrite Rabs_Ropp.
Qed.

Lemma prod_remainder (P Q p q C D M N h : R) (n : nat) : Rabs h <= 1 ->
  Rabs (P - p) <= C * Rabs h ^ n -> Rabs (Q - q) <= D * Rabs h ^ n -> Rabs p <= M -> Rabs q <= N ->
  Rabs (P * Q - p * q) <= (Rabs C * (N + Rabs D) + M * Rabs D) * Rabs h ^ n.
Proof.
  intros Hh H1 H2 H3 H4.
  assert (0 <= Rabs h ^ n <= 1) as Hp.
  { split; [apply pow_le, Rabs_pos|]. rewrite <- (pow1 n). apply pow_incr. split; [apply Rabs_pos|exact Hh]. }
  assert (Rabs (P - p) <= Rabs C * Rabs h ^ n) as K1.
  { eapply Rle_trans; [exact H1|]. apply Rmult_le_compat_r; [apply Hp|apply RRle_abs]. }
  assert (Rabs (Q - q) <= Rabs D * Rabs h ^ n) as K2.
  { eapply Rle_trans; [exact H2|]. apply Rmult_le_compat_r; [apply Hp|apply RRle_abs]. }
  assert (Rabs Q <= N + Rabs D) as KQ.
  { replace Q with (q + (Q - q)) by ring. eapply Rle_trans; [apply Rabs_triang|]. apply Rplus_le_compat; [exact H4|].
    eapply Rle_trans; [exact K2|]. rewrite <- (Rmult_1_r (Rabs D)) at 2. apply Rmult_le_compat_l; [apply Rabs_pos|apply Hp]. }
  replace (P * Q - p * q) with ((P - p) * Q + p * (Q - q)) by ring.
  eapply Rle_trans; [apply Rabs_triang|]. rewrite !Rabs_mult, Rmult_plus_distr_r. apply Rplus_le_compat.
  - replace (Rabs C * (N + Rabs D) * Rabs h ^ n) with (Rabs C * Rabs h ^ n * (N + Rabs D)) by ring.
    apply Rmult_le_compat; auto using Rabs_pos.
  - rewrite Rmult_assoc. apply Rmult_le_compat; auto using Rabs_pos.
Qed.

(** a function whose value is the product of two others near [a] *)
Lemma big_O_prod rho x f g h a u v n :
  big_O rho x f a (polynomial u n a) (S n) -> big_O rho x g a (polynomial v n a) (S n) ->
  (exists eps, 0 < eps /\ forall y p q, Rabs (y - a) < eps -> eval (upd rho x y) f = Some p -> eval (upd rho x y) g = Some q ->
     eval (upd rho x y) h = Some (p * q)) ->
  big_O rho x h a (polynomial (cauchy u v) n a) (S n).
Proof.
  intros (C & e1 & E1 & B1) (D & e2 & E2 & B2) (e3 & E3 & B3).
  set (M := sum_f_R0 (fun k => Rabs (u k)) n). set (N := sum_f_R0 (fun k => Rabs (v k)) n).
  set (K := sum_f_R0 (fun k => sum_f_R0 (fun l => Rabs (u (S (l + k)) * v (n - l)%nat)) (Nat.pred (n - k))) (Nat.pred n)).
  exists (Rabs C * (N + Rabs D) + M * Rabs D + K), (Rmin (Rmin e1 e2) (Rmin e3 1)).
  split; [repeat apply Rmin_glb_lt; lra|]. intros y Hy.
  assert (Rabs (y - a) < e1 /\ Rabs (y - a) < e2 /\ Rabs (y - a) < e3 /\ Rabs (y - a) < 1) as (Y1 & Y2 & Y3 & Y4).
  { repeat split; (eapply Rlt_le_trans; [exact Hy|]).
    - eapply Rle_trans; [apply Rmin_l|apply Rmin_l].
    - eapply Rle_trans; [apply Rmin_l|apply Rmin_r].
    - eapply Rle_trans; [apply Rmin_r|apply Rmin_l].
    - eapply Rle_trans; [apply Rmin_r|apply Rmin_r]. }
  destruct (B1 y Y1) as (p & Ep & P), (B2 y Y2) as (q & Eq & Q). exists (p * q). split; [now apply B3|].
  assert (Rabs (y - a) <= 1) as Y5 by lra.
  destruct (prod_split u v n (y - a)) as (rest & Hs & Hr). specialize (Hr Y5). fold K in Hr.
  unfold polynomial in *.
  pose proof (prod_remainder p q _ _ C D M N (y - a) (S n) Y5 P Q (poly_bound u n _ Y5) (poly_bound v n _ Y5)) as HP.
  match type of Hs with ?a = ?s + rest => replace (p * q - s) with ((p * q - a) + rest) by (rewrite Hs; ring) end.
  eapply Rle_trans; [apply Rabs_triang|]. rewrite (Rmult_plus_distr_r _ K). now apply Rplus_le_compat.
Qed.

Lemma coefs_big_O rho x at_ a e n t :
  wf e -> wf at_ -> eval rho at_ = Some a -> taylor_regular rho x at_ a e -> defined (upd rho x a) e ->
  taylor_expansion Strict e (e_var x) at_ (Z.of_nat n) = Ok (ROk t) ->
  exists u, big_O rho x e a (polynomial u n a) (S n) /\ forall k, (k <= n)%nat -> coef_is rho t k (u k).
Proof.
  intros We Wa Ea Hr Hd H. pose proof (c69_big_O rho x at_ a e n t We Wa Ea Hr Hd H) as B.
  eexists. split; [exact B|]. exact (c69_unique rho x at_ a e n t _ We Wa Ea Hr Hd H B).
Qed.
Lemma coef_is_fun rho t k u v : coef_is rho t k u -> coef_is rho t k v -> u = v.
Proof. intros (c & H & E) (c' & H' & E'). congruence. Qed.

(** ** C73 *)

(** the coefficients of a sum are the sums of the coefficients *)
Theorem c73_sum rho x at_ a f g n tf tg th :
  wf f -> wf g -> wf at_ -> eval rho at_ = Some a ->
  taylor_regular rho x at_ a (e_add f g) -> defined (upd rho x a) (e_add f g) ->
  taylor_expansion Strict f (e_var x) at_ (Z.of_nat n) = Ok (ROk tf) ->
  taylor_expansion Strict g (e_var x) at_ (Z.of_nat n) = Ok (ROk tg) ->
  taylor_expansion Strict (e_add f g) (e_var x) at_ (Z.of_nat n) = Ok (ROk th) ->
  forall k, (k <= n)%nat -> exists u v, coef_is rho tf k u /\ coef_is rho tg k v /\ coef_is rho th k (u + v).
Proof.
  intros Wf Wg Wa Ea Hr Hd Hf Hg Hh.
  assert (defined (upd rho x a) f /\ defined (upd rho x a) g) as [Df Dg].
  { destruct Hd as [v E]. unfold e_add in E. rewrite eval_mk2 in E.
    destruct (eval (upd rho x a) f) as [p|] eqn:Ef; [|discriminate E].
    destruct (eval (upd rho x a) g) as [q|] eqn:Eg; [|discriminate E]. split; eexists; eassumption. }
  destruct (coefs_big_O rho x at_ a f n tf Wf Wa Ea) as (u & Bu & Cu); [|exact Df|exact Hf|].
  { eapply tr_sub; [|exact Hr]. apply (sub_child _ _ _ f); [left; reflexivity|apply sub_refl]. }
  destruct (coefs_big_O rho x at_ a g n tg Wg Wa Ea) as (v & Bv & Cv); [|exact Dg|exact Hg|].
  { eapply tr_sub; [|exact Hr]. apply (sub_child _ _ _ g); [right; left; reflexivity|apply sub_refl]. }
  intros k Hk. exists (u k), (v k). split; [now apply Cu|]. split; [now apply Cv|].
  refine (c69_unique rho x at_ a (e_add f g) n th _ _ Wa Ea Hr Hd Hh (big_O_add _ _ _ _ _ _ _ _ Bu Bv) k Hk).
  apply wf_mk2; [reflexivity|assumption|assumption].
Qed.
Print Assumptions c73_sum.

Theorem c73_neg rho x at_ a f n tf th :
  wf f -> wf at_ -> eval rho at_ = Some a ->
  taylor_regular rho x at_ a (e_neg f) -> defined (upd rho x a) (e_neg f) ->
  taylor_expansion Strict f (e_var x) at_ (Z.of_nat n) = Ok (ROk tf) ->
  taylor_expansion Strict (e_neg f) (e_var x) at_ (Z.of_nat n) = Ok (ROk th) ->
  forall k, (k <= n)%nat -> exists u, coef_is rho tf k u /\ coef_is rho th k (- u).
Proof.
  intros Wf Wa Ea Hr Hd Hf Hh.
  assert (defined (upd rho x a) f) as Df.
  { destruct Hd as [v E]. unfold e_neg in E. rewrite eval_mk1 in E.
    destruct (eval (upd rho x a) f) as [p|] eqn:Ef; [|discriminate E]. eexists; eassumption. }
  destruct (coefs_big_O rho x at_ a f n tf Wf Wa Ea) as (u & Bu & Cu); [|exact Df|exact Hf|].
  { eapply tr_sub; [|exact Hr]. apply (sub_child _ _ _ f); [left; reflexivity|apply sub_refl]. }
  intros k Hk. exists (u k). split; [now apply Cu|].
  refine (c69_unique rho x at_ a (e_neg f) n th _ _ Wa Ea Hr Hd Hh (big_O_neg _ _ _ _ _ _ Bu) k Hk).
  apply wf_mk1; [reflexivity|assumption].
Qed.
Print Assumptions c73_neg.

(** the coefficients of a product are those of the product of the two polynomials *)
Theorem c73_product rho x at_ a f g n tf tg th :
  wf f -> wf g -> wf at_ -> eval rho at_ = Some a ->
  taylor_regular rho x at_ a (e_mul f g) -> defined (upd rho x a) (e_mul f g) ->
  taylor_expansion Strict f (e_var x) at_ (Z.of_nat n) = Ok (ROk tf) ->
  taylor_expansion Strict g (e_var x) at_ (Z.of_nat n) = Ok (ROk tg) ->
  taylor_expansion Strict (e_mul f g) (e_var x) at_ (Z.of_nat n) = Ok (ROk th) ->
  exists u v, (forall k, (k <= n)%nat -> coef_is rho tf k (u k)) /\ (forall k, (k <= n)%nat -> coef_is rho tg k (v k)) /\
    forall k, (k <= n)%nat -> coef_is rho th k (cauchy u v k).
Proof.
  intros Wf Wg Wa Ea Hr Hd Hf Hg Hh.
  assert (defined (upd rho x a) f /\ defined (upd rho x a) g) as [Df Dg].
  { destruct Hd as [v E]. unfold e_mul in E. rewrite eval_mk2 in E.
    destruct (eval (upd rho x a) f) as [p|] eqn:Ef; [|discriminate E].
    destruct (eval (upd rho x a) g) as [q|] eqn:Eg; [|discriminate E]. split; eexists; eassumption. }
  destruct (coefs_big_O rho x at_ a f n tf Wf Wa Ea) as (u & Bu & Cu); [|exact Df|exact Hf|].
  { eapply tr_sub; [|exact Hr]. apply (sub_child _ _ _ f); [left; reflexivity|apply sub_refl]. }
  destruct (coefs_big_O rho x at_ a g n tg Wg Wa Ea) as (v & Bv & Cv); [|exact Dg|exact Hg|].
  { eapply tr_sub; [|exact Hr]. apply (sub_child _ _ _ g); [right; left; reflexivity|apply sub_refl]. }
  exists u, v. split; [exact Cu|]. split; [exact Cv|]. intros k Hk.
  refine (c69_unique rho x at_ a (e_mul f g) n th _ _ Wa Ea Hr Hd Hh (big_O_prod _ _ _ _ _ _ _ _ _ Bu Bv _) k Hk).
  - apply wf_mk2; [reflexivity|assumption|assumption].
  - exists 1. split; [lra|]. intros y p q _ Ep Eq. unfold e_mul. rewrite eval_mk2, Ep, Eq. reflexivity.
Qed.
Print Assumptions c73_product.

(** a quotient's polynomial times the divisor's gives the dividend's, up to the order *)
Theorem c73_quotient rho x at_ a f g n tf tg tq :
  wf f -> wf g -> wf at_ -> eval rho at_ = Some a ->
  taylor_regular rho x at_ a (e_div f g) -> defined (upd rho x a) (e_div f g) ->
  taylor_expansion Strict f (e_var x) at_ (Z.of_nat n) = Ok (ROk tf) ->
  taylor_expansion Strict g (e_var x) at_ (Z.of_nat n) = Ok (ROk tg) ->
  taylor_expansion Strict (e_div f g) (e_var x) at_ (Z.of_nat n) = Ok (ROk tq) ->
  exists u v, (forall k, (k <= n)%nat -> coef_is rho tq k (u k)) /\ (forall k, (k <= n)%nat -> coef_is rho tg k (v k)) /\
    forall k, (k <= n)%nat -> coef_is rho tf k (cauchy u v k).
Proof.
  intros Wf Wg Wa Ea Hr Hd Hf Hg Hq.
  assert (defined (upd rho x a) f /\ defined (upd rho x a) g) as [Df Dg].
  { destruct Hd as [v E]. unfold e_div in E. rewrite eval_mk2 in E.
    destruct (eval (upd rho x a) f) as [p|] eqn:Ef; [|discriminate E].
    destruct (eval (upd rho x a) g) as [q|] eqn:Eg; [|discriminate E]. split; eexists; eassumption. }
  assert (taylor_regular rho x at_ a f) as Rf.
  { eapply tr_sub; [|exact Hr]. apply (sub_child _ _ _ f); [left; reflexivity|apply sub_refl]. }
  destruct (coefs_big_O rho x at_ a (e_div f g) n tq) as (u & Bu & Cu);
    [apply wf_mk2; [reflexivity|assumption|assumption]|exact Wa|exact Ea|exact Hr|exact Hd|exact Hq|].
  destruct (coefs_big_O rho x at_ a g n tg Wg Wa Ea) as (v & Bv & Cv); [|exact Dg|exact Hg|].
  { eapply tr_sub; [|exact Hr]. apply (sub_child _ _ _ g); [right; left; reflexivity|apply sub_refl]. }
  exists u, v. split; [exact Cu|]. split; [exact Cv|]. intros k Hk.
  refine (c69_unique rho x at_ a f n tf _ Wf Wa Ea Rf Df Hf (big_O_prod _ _ _ _ _ _ _ _ _ Bu Bv _) k Hk).
  exists 1. split; [lra|]. intros y p q _ Ep Eq. unfold e_div in Ep. rewrite eval_mk2, Eq in Ep.
  destruct (eval (upd rho x y) f) as [r|]; [|discriminate Ep]. cbn [obind ev2] in Ep.
  destruct (Req_EM_T q 0) as [|Nz]; [discriminate Ep|]. injection Ep as <-. f_equal. field. exact Nz.
Qed.
Print Assumptions c73_quotient.

(** the expansion of the derivative is the derivative of the expansion *)
Theorem c73_derivative rho x at_ a f d n tf td :
  wf f -> wf at_ -> eval rho at_ = Some a ->
  taylor_regular rho x at_ a f -> defined (upd rho x a) f ->
  derivative Strict f (e_var x) = Ok (ROk d) ->
  taylor_expansion Strict f (e_var x) at_ (Z.of_nat (S n)) = Ok (ROk tf) ->
  taylor_expansion Strict d (e_var x) at_ (Z.of_nat n) = Ok (ROk td) ->
  forall k, (k <= n)%nat -> exists u, coef_is rho tf (S k) u /\ coef_is rho td k (INR (S k) * u).
Proof.
  intros Wf Wa Ea Hr Hd HD Hf Ht k Hk.
  assert (S n <= 20)%nat as Hn.
  { destruct (Nat.le_gt_cases (S n) 20) as [L|L]; [exact L|]. exfalso.
    exact (proj2 (c34_debug_never_returns f (e_var x) at_ (Z.of_nat (S n)) tf ltac:(lia)) Hf). }
  unfold derivative in HD. cbn [to_variable e_var root] in HD.
  destruct (deriv Strict x f) as [d'| | |] eqn:E; try discriminate HD. injection HD as ->.
  pose proof (taylor_regular_tguard _ _ _ _ _ Hr) as (Rf & Rest).
  assert (deriv_n Strict x 1 f = Ok d) as E1 by (cbn [deriv_n]; rewrite E; reflexivity).
  destruct (deriv_n_correct _ rho x f Wf 1 d E1 a (conj Rf Hd)) as (Rd & Ed & _).
  pose proof (deriv_wf _ _ _ _ Wf E) as Wd.
  assert (defined (upd rho x a) d) as Dd by (eexists; exact Ed).
  apply c31_shape in Ht as (_ & _ & _ & _ & _ & Hc).
  destruct (Hc k Hk) as (dk & s & ck & H1 & H2 & H3 & H4).
  assert (deriv_n Strict x (S k) f = Ok dk) as H1' by (cbn [deriv_n]; rewrite E; exact H1).
  pose proof (taylor_coef rho x at_ a d dk s ck k Wd Wa Ea (conj Rd Rest) Dd H1 H2 ltac:(lia) H3) as Ec.
  destruct (deriv_n_correct _ rho x f Wf (S k) dk H1' a (conj Rf Hd)) as (_ & X1 & _).
  destruct (deriv_n_correct _ rho x d Wd k dk H1 a (conj Rd Dd)) as (_ & X2 & _).
  rewrite X1 in X2. injection X2 as X. rewrite <- X in Ec.
  destruct (c32_coefficients rho x at_ a f (S n) tf Wf Wa Ea Hr Hd Hf (S k) ltac:(lia)) as (cf & N & Ef & _).
  eexists. split; [exists cf; split; [exact N|exact Ef]|]. exists ck. split; [exact H4|]. rewrite Ec. f_equal.
  cbn [Derive.Derive_n]. rewrite fact_simpl, mult_INR. generalize (Derive.Derive (Derive.Derive_n (evalx rho x f) k) a).
  intros z. field. split; [apply INR_fact_neq_0|]. apply not_0_INR. lia.
Qed.
Print Assumptions c73_derivative.

(** exp(x) * (exp(x) * x^2) at 2: the product rule of coefficients applies to order 2 *)
Example c73_example rho :
  let f := e_exp ex_x in let h := e_mul f ex_tay in
  wf f /\ wf ex_tay /\ wf (e_of_i64 2) /\ eval rho (e_of_i64 2) = Some 2 /\
  taylor_regular rho "x" (e_of_i64 2) 2 h /\ defined (upd rho "x" 2) h /\
  (exists t, taylor_expansion Strict f ex_x (e_of_i64 2) 2 = Ok (ROk t)) /\
  (exists t, taylor_expansion Strict ex_tay ex_x (e_of_i64 2) 2 = Ok (ROk t)) /\
  (exists t, taylor_expansion Strict h ex_x (e_of_i64 2) 2 = Ok (ROk t)).
Proof.
  intros f h. destruct (c69_example rho) as (W & T & D & _).
  assert (wf f) as Wf by (apply wf_mk1; [reflexivity|apply wf_var]).
  refine (conj Wf (conj W (conj _ (conj _ (conj _ (conj _ _)))))).
  - apply wf_i64; reflexivity.
  - unfold e_of_i64, e_num. rewrite eval_num, num_R_int. reflexivity.
  - destruct T as (T1 & T2 & T3). split; [|split; [|exact T3]].
    + intros u b S. apply T1. inversion S as [|? ? ? ? I S1]; subst. destruct I as [<- | [<- | []]]; [|exact S1].
      inversion S1 as [|? ? ? ? I S2]; subst. destruct I as [<- | []]. inversion S2 as [|? ? ? ? I _]; subst. destruct I.
    + intros u S. apply T2. destruct S as [S|S].
      * left. inversion S as [|? ? ? ? I S1]; subst. destruct I as [<- | [<- | []]]; [|exact S1].
        inversion S1 as [|? ? ? ? I S2]; subst. destruct I as [<- | []]. inversion S2 as [|? ? ? ? I _]; subst. destruct I.
      * right. inversion S as [|? ? ? ? I S1]; subst. destruct I as [<- | [<- | []]]; [|exact S1].
        inversion S1 as [|? ? ? ? I S2]; subst. destruct I as [<- | []]. inversion S2 as [|? ? ? ? I _]; subst. destruct I.
  - destruct D as [v Ev]. unfold defined, h, f, e_mul, e_exp, ex_x, e_var. rewrite eval_mk2, eval_mk1, eval_var, Ev. cbn. eauto.
  - repeat split;
      match goal with |- exists t, ?X = _ => destruct X as [[t|]| | |] eqn:E; [exists t; reflexivity|exfalso; vm_compute in E; discriminate..] end.
Qed.
