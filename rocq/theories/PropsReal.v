(** * PropsReal: theorems about the mathematical meaning of expressions
      (C20, C21, C22, C26, C29, C32, C33, C35) *)
From Coq Require Import ZArith QArith List String Bool Lia Lra.
From Coq Require Import Reals Qreals.
From Coquelicot Require Import Coquelicot.
From Verif Require Import Base Float Rational SmartNum Ast Compute Spec SpecTree SpecR.
From Verif Require Import BaseProofs NumProofs NumProofs2 TreeProofs TreeProofs2 TreeProofs3 TreeProofs4 TreeProofs5.
From Verif Require Import RealProofs RealDeriv RealDeriv2 RealTaylor PropsTree.
Import ListNotations.
Open Scope R_scope.
Open Scope string_scope.
Open Scope res_scope.

(** ** C20 num_aggregate preserves the value *)
Theorem c20_value_preserved rho e z v :
  wf e -> avoids_bad_rules e ->
  num_aggregate Strict e = Ok z -> eval rho e = Some v ->
  eval rho z = Some v /\ (forall m, num_aggregate m e = Ok z).
Proof.
  intros W Ha H Hv. split; [exact (agg_sound rho e W Ha z v H Hv)|].
  intros [| |]; [apply (agg_mono Strict Debug I e z H)|apply (agg_mono Strict Release I e z H)|exact H].
Qed.
Print Assumptions c20_value_preserved.

(** the guard is not needed at all without powers and cosines *)
Theorem c20_no_power_no_cos rho e z v :
  wf e -> ~ has_op OPow e -> ~ has_op OCos e ->
  num_aggregate Strict e = Ok z -> eval rho e = Some v -> eval rho z = Some v.
Proof.
  intros W Hp Hc H Hv. refine (agg_sound rho e W _ z v H Hv). split.
  - intros a b a' Hs. exfalso. apply Hp. exists (gen_op OPow), [a; b]. split; [reflexivity|exact Hs].
  - intros a a' Hs. exfalso. apply Hc. exists (gen_op OCos), [a]. split; [reflexivity|exact Hs].
Qed.
Print Assumptions c20_no_power_no_cos.

(** (0 + 1*x) ^ (2+1) / (4-2): the guard holds, the run is lossless, and it does simplify *)
Definition ex_agg : expr :=
  e_div (e_pow (e_add e_zero (e_mul e_one ex_x)) (e_add (e_of_i64 2) e_one)) (e_sub (e_of_i64 4) (e_of_i64 2)).
Example c20_example :
  wf ex_agg /\ avoids_bad_rules ex_agg /\
  num_aggregate Strict ex_agg = Ok (e_div (e_pow ex_x (e_of_i64 3)) (e_of_i64 2)) /\
  forall rho, 0 < rho "x" -> exists v, eval rho ex_agg = Some v.
Proof.
  assert (wf ex_agg) as W.
  { unfold ex_agg, e_div, e_pow, e_add, e_mul, e_sub.
    repeat first [apply wf_mk2; [reflexivity| |]|apply wf_var|apply wf_num'; apply sn_of_i64_ok; reflexivity]. }
  split; [exact W|]. split; [|split].
  - unfold ex_agg. split.
    + intros a b a' Hs Ha.
      apply subterm_mk2 in Hs as [E|[Hs|Hs]]; [discriminate E| |].
      * apply subterm_mk2 in Hs as [E|[Hs|Hs]].
        -- apply mk2_inj in E as (_ & -> & ->). vm_compute in Ha. injection Ha as <-.
           repeat split; try reflexivity. intros c [=].
        -- exfalso. apply subterm_mk2 in Hs as [E|[Hs|Hs]]; [discriminate E|apply subterm_num in Hs; discriminate|].
           apply subterm_mk2 in Hs as [E|[Hs|Hs]]; [discriminate E|apply subterm_num in Hs; discriminate|].
           apply subterm_var in Hs. discriminate.
        -- exfalso. apply subterm_mk2 in Hs as [E|[Hs|Hs]]; [discriminate E|apply subterm_num in Hs; discriminate..].
      * exfalso. apply subterm_mk2 in Hs as [E|[Hs|Hs]]; [discriminate E|apply subterm_num in Hs; discriminate..].
    + intros a a' Hs. exfalso.
      assert (has_op OCos ex_agg) as H by (exists (gen_op OCos), [a]; split; [reflexivity|exact Hs]).
      unfold ex_agg, e_div, e_pow, e_add, e_mul, e_sub in H.
      repeat (rewrite has_op_mk2 in H).
      assert (forall n, ~ has_op OCos (e_num n)) as Nn.
      { intros n (op & c & D & K). apply subterm_num in K. discriminate. }
      assert (~ has_op OCos ex_x) as Nx. { intros (op & c & D & K). apply subterm_var in K. discriminate. }
      pose proof (Nn (sn_of_i64 0)). pose proof (Nn (sn_of_i64 1)). pose proof (Nn (sn_of_i64 2)). pose proof (Nn (sn_of_i64 4)).
      unfold e_zero, e_one, e_of_i64 in *.
      repeat match goal with K : _ \/ _ |- _ => destruct K as [K|K] end; try discriminate; tauto.
  - vm_compute. reflexivity.
  - intros rho Hx. unfold ex_agg, e_div, e_pow, e_add, e_mul, e_sub.
    repeat rewrite eval_mk2. rewrite eval_zero, eval_one. unfold ex_x, e_var, e_of_i64, e_num.
    rewrite !eval_num, eval_var, !num_R_int. cbn [obind ev2]. rewrite powR_pos by lra. cbn [obind].
    destruct (Req_EM_T (4 - 2) 0); [lra|]. eauto.
Qed.

(** ** C21 the power rules and cos(pi) are wrong *)
(** num_aggregate preserves the value of every defined expression: FALSE, in four ways *)
Definition aggregate_preserves_values : Prop :=
  forall rho e z v, wf e -> num_aggregate Strict e = Ok z -> eval rho e = Some v -> eval rho z = Some v.

(** what the rules do, for every exponent, argument and build *)
Theorem c21_wrong_rules m u r r' :
  num_aggregate m r = Ok r' ->
  num_aggregate m (e_pow e_zero r) = Ok e_one /\
  num_aggregate m (e_pow e_one r) = Ok r' /\
  num_aggregate m (e_pow (e_ln (e_var u)) r) = Ok (e_var u) /\
  num_aggregate m (e_cos e_pi) = Ok e_one.
Proof.
  intros H. unfold e_pow, e_ln, e_cos. rewrite !agg_mk2, agg_mk1 by reflexivity. rewrite H.
  repeat split.
Qed.
Print Assumptions c21_wrong_rules.

Theorem c21_refuted_zero_base rho : 
  exists e z, wf e /\ num_aggregate Strict e = Ok z /\ eval rho e = Some 0 /\ eval rho z = Some 1.
Proof.
  exists (e_pow e_zero (e_of_i64 2)), e_one.
  refine (conj _ (conj _ (conj _ _))).
  - apply wf_mk2; [reflexivity|apply wf_zero|apply wf_num', sn_of_i64_ok; reflexivity].
  - vm_compute. reflexivity.
  - unfold e_pow. rewrite eval_mk2, eval_zero. unfold e_of_i64, e_num. rewrite eval_num, num_R_int.
    cbn [obind ev2]. unfold powR. destruct (Rlt_dec 0 0); [lra|]. destruct (Req_EM_T 0 0); [|lra].
    destruct (Rlt_dec 0 2); [reflexivity|lra].
  - apply eval_one.
Qed.
Print Assumptions c21_refuted_zero_base.

Theorem c21_refuted_one_base rho :
  exists e z, wf e /\ num_aggregate Strict e = Ok z /\ eval rho e = Some 1 /\ eval rho z = Some 2.
Proof.
  exists (e_pow e_one (e_of_i64 2)), (e_of_i64 2).
  refine (conj _ (conj _ (conj _ _))).
  - apply wf_mk2; [reflexivity|apply wf_one|apply wf_num', sn_of_i64_ok; reflexivity].
  - vm_compute. reflexivity.
  - unfold e_pow. rewrite eval_mk2, eval_one. unfold e_of_i64, e_num. rewrite eval_num, num_R_int.
    cbn [obind ev2]. rewrite powR_pos by lra. f_equal. unfold Rpower. rewrite ln_1, Rmult_0_r. apply exp_0.
  - unfold e_of_i64, e_num. rewrite eval_num. apply num_R_int.
Qed.
Print Assumptions c21_refuted_one_base.

(** ln(x)^2 at x = e is 1, the result x is e *)
Theorem c21_refuted_ln_base rho : rho "x" = exp 1 ->
  exists e z, wf e /\ num_aggregate Strict e = Ok z /\ eval rho e = Some 1 /\ eval rho z = Some (exp 1) /\ exp 1 <> 1.
Proof.
  intros Hx. exists (e_pow (e_ln ex_x) (e_of_i64 2)), ex_x.
  refine (conj _ (conj _ (conj _ (conj _ _)))).
  - apply wf_mk2; [reflexivity|apply wf_mk1; [reflexivity|apply wf_var]|apply wf_num', sn_of_i64_ok; reflexivity].
  - vm_compute. reflexivity.
  - unfold e_pow, e_ln. rewrite eval_mk2, eval_mk1. unfold ex_x, e_var, e_of_i64, e_num.
    rewrite eval_num, num_R_int, eval_var, Hx. cbn [obind ev1]. pose proof (exp_pos 1).
    destruct (Rlt_dec 0 (exp 1)); [|lra]. cbn [obind ev2]. rewrite ln_exp, powR_pos by lra.
    f_equal. unfold Rpower. rewrite ln_1, Rmult_0_r. apply exp_0.
  - unfold ex_x, e_var. rewrite eval_var, Hx. reflexivity.
  - pose proof (exp_ineq1 1 ltac:(lra)). lra.
Qed.
Print Assumptions c21_refuted_ln_base.

Theorem c21_refuted_cos_pi rho :
  exists e z, wf e /\ num_aggregate Strict e = Ok z /\ eval rho e = Some (-1) /\ eval rho z = Some 1.
Proof.
  exists (e_cos e_pi), e_one.
  refine (conj _ (conj _ (conj _ _))).
  - apply wf_mk1; [reflexivity|]. apply wf_num'. split; [exact I|reflexivity].
  - vm_compute. reflexivity.
  - unfold e_cos. rewrite eval_mk1. unfold e_pi, e_num. rewrite eval_num. unfold num_R. cbn [sn_pi ntag obind ev1].
    rewrite cos_PI. reflexivity.
  - apply eval_one.
Qed.
Print Assumptions c21_refuted_cos_pi.

Theorem c21_refuted : ~ aggregate_preserves_values.
Proof.
  intros H. destruct (c21_refuted_zero_base (fun _ => 0)) as (e & z & W & Hz & H0 & H1).
  rewrite (H _ _ _ _ W Hz H0) in H1. injection H1 as H1. lra.
Qed.
Print Assumptions c21_refuted.

(** ** C22 num_aggregate invents values *)
Definition aggregate_number_implies_defined : Prop :=
  forall rho e n, wf e -> num_aggregate Strict e = Ok (e_num n) -> exists v, eval rho e = Some v.

(** 0 divided by anything (even 0) is 0; exp(ln(u)) is u for every aggregated u *)
Theorem c22_wrong_rules m r r' n :
  num_aggregate m r = Ok r' -> is_num r' = false -> sn_is_e n = false -> sn_is_one n = false ->
  num_aggregate m (e_div e_zero r) = Ok e_zero /\
  num_aggregate m (e_exp (e_ln (e_num n))) = Ok (e_num n).
Proof.
  intros Hr Hn He H1. unfold e_div, e_exp, e_ln. split.
  - rewrite agg_mk2 by reflexivity. rewrite Hr, agg_zero. cbn. rewrite Hn. reflexivity.
  - rewrite agg_mk1, agg_mk1 by reflexivity. cbn. rewrite He, H1. reflexivity.
Qed.
Print Assumptions c22_wrong_rules.

Theorem c22_refuted_div rho : exists e n, wf e /\
  num_aggregate Strict e = Ok (e_num n) /\ eval rho e = None.
Proof.
  exists (e_div e_zero e_zero), sn_zero. refine (conj _ (conj _ _)).
  - apply wf_mk2; [reflexivity|apply wf_zero|apply wf_zero].
  - vm_compute. reflexivity.
  - unfold e_div. rewrite eval_mk2, eval_zero. cbn [obind ev2].
    destruct (Req_EM_T 0 0); [reflexivity|lra].
Qed.
Print Assumptions c22_refuted_div.

Theorem c22_refuted_exp_ln rho : exists e n, wf e /\
  num_aggregate Strict e = Ok (e_num n) /\ eval rho e = None.
Proof.
  exists (e_exp (e_ln (e_of_i64 (-1)))), (sn_of_i64 (-1)). refine (conj _ (conj _ _)).
  - apply wf_mk1; [reflexivity|]. apply wf_mk1; [reflexivity|]. apply wf_num', sn_of_i64_ok; reflexivity.
  - vm_compute. reflexivity.
  - unfold e_exp, e_ln. rewrite eval_mk1, eval_mk1. unfold e_of_i64, e_num. rewrite eval_num, num_R_int.
    cbn [obind ev1]. destruct (Rlt_dec 0 (-1)); [lra|reflexivity].
Qed.
Print Assumptions c22_refuted_exp_ln.

Theorem c22_refuted : ~ aggregate_number_implies_defined.
Proof.
  intros H. destruct (c22_refuted_div (fun _ => 0)) as (e & n & W & Hz & H0).
  destruct (H (fun _ => 0) e n W Hz) as [v Hv]. congruence.
Qed.
Print Assumptions c22_refuted.

(** ** C26 substitution *)
Theorem c26_semantic rho e x v z :
  wf e -> substitute e (e_var x) v = ROk z ->
  (forall w, eval rho v = Some w -> eval rho z = eval (upd rho x w) e) /\
  (eval rho v = None -> occurs x e -> eval rho z = None) /\
  (~ occurs x e -> eval rho z = eval rho e).
Proof.
  intros W H. injection H as <-. split; [|split].
  - intros w Hw. apply eval_subst. exact Hw.
  - intros Hv Ho. apply eval_subst_undef; assumption.
  - intros Hn. destruct (eval rho v) as [w|] eqn:E.
    + rewrite (eval_subst rho x v w e E). apply eval_ext. intros y Hy. apply upd_other. congruence.
    + rewrite subst_absent; [reflexivity|exact Hn].
Qed.
Print Assumptions c26_semantic.

(** x*y + sin(x) with x := y+1 *)
Example c26_example rho : exists z,
  substitute (e_add (e_mul ex_x ex_y) (e_sin ex_x)) ex_x (e_add ex_y e_one) = ROk z /\
  eval rho z = Some ((rho "y" + 1) * rho "y" + sin (rho "y" + 1)).
Proof.
  eexists. split; [reflexivity|].
  change (eval rho (mk2 OAdd (mk2 OMul (mk2 OAdd ex_y e_one) ex_y) (mk1 OSin (mk2 OAdd ex_y e_one))) =
    Some ((rho "y" + 1) * rho "y" + sin (rho "y" + 1))).
  repeat (rewrite eval_mk2 || rewrite eval_mk1). rewrite eval_one. unfold ex_y, e_var. rewrite eval_var. reflexivity.
Qed.

(** ** C29 derivative *)
Theorem c29_derivative_correct rho x t0 e d v :
  wf e -> regular (upd rho x t0) x e ->
  eval (upd rho x t0) e = Some v ->
  derivative Strict e (e_var x) = Ok (ROk d) ->
  exists v', eval (upd rho x t0) d = Some v' /\
    (exists eps, 0 < eps /\ forall t, Rabs (t - t0) < eps -> defined (upd rho x t) e) /\
    derivable_pt_lim (evalx rho x e) t0 v'.
Proof.
  intros W Hr Hv H. unfold derivative in H. cbn [to_variable root e_var] in H. inv_bind H.
  injection H as ->. apply regular_rgen in Hr.
  destruct (deriv_correct _ rho x t0 e W Hr _ _ Hb Hv) as (v' & Hv' & [eps Hl] & Hd).
  exists v'. split; [exact Hv'|]. split.
  - exists (pos eps). split; [apply cond_pos|]. intros t Ht. eexists. apply Hl. exact Ht.
  - apply is_derive_Reals. exact Hd.
Qed.
Print Assumptions c29_derivative_correct.

(** and that is what both real builds return *)
Theorem c29_builds e x d m : derivative Strict e x = Ok (ROk d) -> derivative m e x = Ok (ROk d).
Proof.
  intros H. destruct (c12_expressions e x x 0 0) as (_ & [_ B] & _).
  destruct (B _ H) as [B1 B2]. destruct m; assumption.
Qed.
Print Assumptions c29_builds.

(** x^3 * sin(x*y) + ln(x) / (x-2) differentiated by x at x = 5 *)
Definition ex_diff : expr :=
  e_add (e_mul (e_pow ex_x (e_of_i64 3)) (e_sin (e_mul ex_x ex_y)))
        (e_div (e_ln ex_x) (e_sub ex_x (e_of_i64 2))).
Lemma npi_var y : ~ has_pi (e_var y).
Proof. intros (n & c & H & Hs). apply subterm_var in Hs. discriminate. Qed.
Lemma wf_i64 z : in_i64 z = true -> wf (e_of_i64 z).
Proof. intros H. apply wf_num', sn_of_i64_ok, H. Qed.
Example c29_example rho : 
  wf ex_diff /\ regular (upd rho "x" 5) "x" ex_diff /\ defined (upd rho "x" 5) ex_diff /\
  exists d, derivative Strict ex_diff ex_x = Ok (ROk d).
Proof.
  split; [|split; [|split]].
  - unfold ex_diff, e_add, e_mul, e_pow, e_sin, e_div, e_ln, e_sub.
    repeat first [apply wf_mk2; [reflexivity| |]|apply wf_mk1; [reflexivity|]|apply wf_var|apply wf_i64; reflexivity].
  - apply regular_rgen. unfold ex_diff, e_add, e_mul, e_pow, e_sin, e_div, e_ln, e_sub, e_of_i64, ex_x, ex_y, e_num, e_var. reg.
    + exists 5. rewrite eval_var, upd_same. refine (conj eq_refl (conj _ (conj _ _))); [lra|left; lra|].
      left. exists "x". auto.
    + intros _. rewrite has_pi_mk2. intros [H|H]; exact (npi_var _ H).
  - unfold ex_diff, defined, e_add, e_mul, e_pow, e_sin, e_div, e_ln, e_sub, e_of_i64, ex_x, ex_y, e_num, e_var.
    repeat (rewrite eval_mk2 || rewrite eval_mk1). rewrite !eval_var, !eval_num, !num_R_int, upd_same.
    cbn [obind ev1 ev2]. rewrite powR_pos by lra. destruct (Rlt_dec 0 5); [|lra]. cbn [obind].
    destruct (Req_EM_T (5 - 2) 0); [lra|]. cbn [obind ev2]. eexists. reflexivity.
  - destruct (derivative Strict ex_diff ex_x) as [[d|]| | |] eqn:E;
      [exists d; reflexivity|exfalso; vm_compute in E; discriminate..].
Qed.

(** x^2 at a negative point also works (integer exponent, base nonzero) *)
Example c29_example_neg rho : regular (upd rho "x" (-3)) "x" (e_pow ex_x (e_of_i64 2)).
Proof.
  apply regular_rgen. unfold e_pow, e_of_i64, ex_x, e_num, e_var. reg.
  exists (-3). rewrite eval_var, upd_same. refine (conj eq_refl (conj _ (conj _ _))); [lra| |].
  - right. intros Ho. apply occurs_num in Ho. exact Ho.
  - left. exists "x". auto.
Qed.

(** ** C32 Taylor coefficients *)
Theorem c32_coefficients rho x at_ a e n t :
  wf e -> wf at_ -> eval rho at_ = Some a ->
  taylor_regular rho x at_ a e -> defined (upd rho x a) e ->
  taylor_expansion Strict e (e_var x) at_ (Z.of_nat n) = Ok (ROk t) ->
  forall k, (k <= n)%nat -> exists ck, nth_error (ex_coef t) k = Some ck /\
    eval rho ck = Some (Derive_n (evalx rho x e) k a / INR (fact k)) /\
    ex_derive_n (evalx rho x e) k a.
Proof.
  intros We Wat Ha Hg Hd H k Hk.
  assert (n <= 20)%nat as Hn.
  { destruct (Nat.le_gt_cases n 20) as [L|L]; [exact L|]. exfalso.
    exact (proj2 (c34_debug_never_returns e (e_var x) at_ (Z.of_nat n) t ltac:(lia)) H). }
  apply c31_shape in H as (_ & _ & _ & _ & _ & Hc).
  destruct (Hc k Hk) as (d & s & ck & H1 & H2 & H3 & H4). exists ck. split; [exact H4|].
  pose proof (taylor_regular_tguard _ _ _ _ _ Hg) as Hg'. split.
  - exact (taylor_coef rho x at_ a e d s ck k We Wat Ha Hg' Hd H1 H2 ltac:(lia) H3).
  - exact (proj2 (proj2 (deriv_n_correct _ rho x e We k d H1 a (conj (proj1 Hg') Hd)))).
Qed.
Print Assumptions c32_coefficients.

(** ** C33 Lagrange remainder *)
(** the value of an expression, 0 where undefined *)
Definition value (rho : string -> R) (e : expr) : R := match eval rho e with Some v => v | None => 0 end.

Theorem c33_lagrange rho x at_ a e n t y :
  wf e -> wf at_ -> eval rho at_ = Some a ->
  taylor_regular rho x at_ a e -> 
  (forall s, Rmin a y <= s <= Rmax a y -> regular (upd rho x s) x e /\ defined (upd rho x s) e) ->
  taylor_expansion Strict e (e_var x) at_ (Z.of_nat n) = Ok (ROk t) -> y <> a ->
  exists z, Rmin a y < z < Rmax a y /\ defined (upd rho x z) (ex_residual t) /\
    eval (upd rho x y) e = Some (
      sum_f_R0 (fun k => value rho (nth k (ex_coef t) e_zero) * (y - a) ^ k) n
      + value (upd rho x z) (ex_residual t) * (y - a) ^ (S n) / INR (fact (S n))).
Proof.
  intros We Wat Ha Hg Hi H Ny.
  assert (Rmin a y <= a <= Rmax a y) as Ia. { split; [apply Rmin_l|apply Rmax_l]. }
  assert (Rmin a y <= y <= Rmax a y) as Iy. { split; [apply Rmin_r|apply Rmax_r]. }
  destruct (Hi a Ia) as [_ Da]. pose proof (c32_coefficients rho x at_ a e n t We Wat Ha Hg Da H) as Hc.
  apply c31_shape in H as (_ & _ & _ & _ & Hres & _).
  set (V := fun _ : string => True). 
  assert (forall s, Rmin a y <= s <= Rmax a y -> good V rho x e s) as Hgood.
  { intros s Hs. destruct (Hi s Hs) as [R D]. split; [apply regular_rgen; exact R|exact D]. }
  assert (forall k, (k <= S n)%nat -> exists d, deriv_n Strict x k e = Ok d) as Hk.
  { assert (forall j e', (exists d, deriv_n Strict x j e' = Ok d) -> forall k, (k <= j)%nat ->
      exists d, deriv_n Strict x k e' = Ok d) as P.
    { induction j as [|j IH]; intros e' [d Hd'] k Hkj.
      - assert (k = 0%nat) as -> by lia. exists e'. reflexivity.
      - destruct k as [|k]; [exists e'; reflexivity|]. cbn [deriv_n] in *. inv_bind Hd'. rewrite Hb.
        cbn [bind]. apply IH; [eauto|lia]. }
    intros k Hk. apply (P (S n) e); [eauto|exact Hk]. }
  destruct (taylor_lagrange (evalx rho x e) n a y Ny) as (z & Hz & E).
  { intros s Hs. generalize (good_open V rho x e s We (Hgood s Hs)). apply filter_imp.
    intros s' G k Hkn. destruct (Hk k Hkn) as [d Hd].
    exact (proj2 (proj2 (deriv_n_correct V rho x e We k d Hd s' G))). }
  exists z. split; [exact Hz|].
  assert (Rmin a y <= z <= Rmax a y) as Iz by lra.
  destruct (deriv_n_correct V rho x e We (S n) _ Hres z (Hgood z Iz)) as (_ & Ez & _).
  split; [eexists; exact Ez|].
  destruct (Hi y Iy) as [_ [vy Hvy]]. rewrite Hvy. f_equal.
  rewrite (evalx_at _ _ _ _ _ Hvy) in E. rewrite E. f_equal.
  - apply sum_eq. intros k Hkn. destruct (Hc k Hkn) as (ck & H1 & H2 & _).
    rewrite (nth_error_nth (ex_coef t) k e_zero H1). unfold value. rewrite H2. field. apply INR_fact_neq_0.
  - unfold value. rewrite Ez. field. apply INR_fact_neq_0.
Qed.
Print Assumptions c33_lagrange.

(** exp(x) * x^2 at 2, order 3: all hypotheses hold, on [2, 3] *)
Definition ex_tay : expr := e_mul (e_exp ex_x) (e_pow ex_x (e_of_i64 2)).
Example c33_example rho :
  wf ex_tay /\ taylor_regular rho "x" (e_of_i64 2) 2 ex_tay /\
  (forall s, Rmin 2 3 <= s <= Rmax 2 3 -> regular (upd rho "x" s) "x" ex_tay /\ defined (upd rho "x" s) ex_tay) /\
  exists t, taylor_expansion Strict ex_tay ex_x (e_of_i64 2) 3 = Ok (ROk t).
Proof.
  assert (forall V : string -> Prop, (forall y, y <> "x" -> V y) -> forall s, 2 <= s -> rgen V (fun b => ~ occurs "x" b) (upd rho "x" s) ex_tay) as G.
  { intros V HV s Hs. unfold ex_tay, e_mul, e_exp, e_pow, e_of_i64, ex_x, e_num, e_var. reg.
    exists s. rewrite eval_var, upd_same. refine (conj eq_refl (conj _ (conj _ _))); [lra|left; lra|].
    right. split; [|lra]. intros (op & c & D & K). apply subterm_var in K. discriminate. }
  split; [|split; [|split]].
  - unfold ex_tay, e_mul, e_exp, e_pow.
    repeat first [apply wf_mk2; [reflexivity| |]|apply wf_mk1; [reflexivity|]|apply wf_var|apply wf_i64; reflexivity].
  - destruct (G (fun y => y <> "x") (fun y H => H) 2 ltac:(lra)) as [G1 G2].
    refine (conj G1 (conj G2 (conj _ (conj _ _)))).
    + intros (op & c & D & K). apply subterm_num in K. discriminate.
    + intros K. apply (proj1 (has_pi_num _)) in K. discriminate.
    + apply regular_rgen. apply rgen_num.
  - intros s Hs. rewrite Rmin_left, Rmax_right in Hs by lra. split.
    + apply regular_rgen. apply G; [auto|lra].
    + unfold defined, ex_tay, e_mul, e_exp, e_pow, e_of_i64, ex_x, e_num, e_var.
      repeat (rewrite eval_mk2 || rewrite eval_mk1). rewrite eval_var, upd_same, eval_num, num_R_int.
      cbn [obind ev1 ev2]. rewrite powR_pos by lra. cbn [obind ev2]. eexists. reflexivity.
  - destruct (taylor_expansion Strict ex_tay ex_x (e_of_i64 2) 3) as [[t|]| | |] eqn:E;
      [exists t; reflexivity|exfalso; vm_compute in E; discriminate..].
Qed.

(** ** C35 Taylor coefficients of powers at 0 and 1 are wrong *)
Definition taylor_coefficients_correct : Prop :=
  forall rho x at_ a e n t, wf e -> wf at_ -> eval rho at_ = Some a -> defined (upd rho x a) e ->
  taylor_expansion Strict e (e_var x) at_ (Z.of_nat n) = Ok (ROk t) ->
  forall k, (k <= n)%nat -> ex_derive_n (evalx rho x e) k a ->
    exists ck, nth_error (ex_coef t) k = Some ck /\
    eval rho ck = Some (Derive_n (evalx rho x e) k a / INR (fact k)).

(** x^2 at 1: constant coefficient 2 instead of 1 *)
Theorem c35_refuted_at_one rho : exists t c0,
  taylor_expansion Strict (e_pow ex_x (e_of_i64 2)) ex_x e_one 1 = Ok (ROk t) /\
  nth_error (ex_coef t) 0 = Some c0 /\ eval rho c0 = Some 2 /\
  eval (upd rho "x" 1) (e_pow ex_x (e_of_i64 2)) = Some 1.
Proof.
  destruct (taylor_expansion Strict (e_pow ex_x (e_of_i64 2)) ex_x e_one 1) as [[t|]| | |] eqn:E;
    [|exfalso; vm_compute in E; discriminate..].
  vm_compute in E. injection E as <-. eexists. eexists. split; [reflexivity|]. split; [reflexivity|]. split.
  - cbn [eval]. unfold num_R. cbn. f_equal. unfold Q2R. cbn. field.
  - unfold e_pow, ex_x, e_var, e_of_i64, e_num. rewrite eval_mk2, eval_var, eval_num, num_R_int, upd_same.
    cbn [obind ev2]. rewrite powR_pos by lra. f_equal. unfold Rpower. rewrite ln_1, Rmult_0_r. apply exp_0.
Qed.
Print Assumptions c35_refuted_at_one.

(** x^2 at 0: constant coefficient 1 instead of 0, and the linear one is the undefined 1/0-like fraction *)
Theorem c35_refuted_at_zero rho : exists t c0 c1,
  taylor_expansion Strict (e_pow ex_x (e_of_i64 2)) ex_x e_zero 1 = Ok (ROk t) /\
  nth_error (ex_coef t) 0 = Some c0 /\ eval rho c0 = Some 1 /\
  eval (upd rho "x" 0) (e_pow ex_x (e_of_i64 2)) = Some 0 /\
  nth_error (ex_coef t) 1 = Some c1 /\ eval rho c1 = None.
Proof.
  destruct (taylor_expansion Strict (e_pow ex_x (e_of_i64 2)) ex_x e_zero 1) as [[t|]| | |] eqn:E;
    [|exfalso; vm_compute in E; discriminate..].
  vm_compute in E. injection E as <-. do 3 eexists. split; [reflexivity|]. split; [reflexivity|].
  split; [|split; [|split]].
  - cbn [eval]. unfold num_R. cbn. f_equal. unfold Q2R. cbn. field.
  - unfold e_pow, ex_x, e_var, e_of_i64, e_num. rewrite eval_mk2, eval_var, eval_num, num_R_int, upd_same.
    cbn [obind ev2]. unfold powR. destruct (Rlt_dec 0 0); [lra|]. destruct (Req_EM_T 0 0); [|lra].
    destruct (Rlt_dec 0 2); [reflexivity|lra].
  - reflexivity.
  - reflexivity.
Qed.
Print Assumptions c35_refuted_at_zero.

Theorem c35_refuted : ~ taylor_coefficients_correct.
Proof.
  intros H. destruct (c35_refuted_at_one (fun _ => 0)) as (t & c0 & H1 & H2 & H3 & H4).
  destruct (H (fun _ => 0) "x" e_one 1 (e_pow ex_x (e_of_i64 2)) 1%nat t) with (k := 0%nat) as (ck & K1 & K2).
  - apply wf_mk2; [reflexivity|apply wf_var|apply wf_i64; reflexivity].
  - apply wf_one.
  - apply eval_one.
  - eexists. exact H4.
  - exact H1.
  - lia.
  - exact I.
  - rewrite H2 in K1. injection K1 as <-. rewrite H3 in K2. cbn [Derive_n] in K2.
    rewrite (evalx_at _ _ _ _ _ H4) in K2. injection K2 as K2. cbn in K2. lra.
Qed.
Print Assumptions c35_refuted.
