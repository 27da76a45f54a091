(** * RealProofs: num_aggregate and substitute preserve the real value *)
From Coq Require Import ZArith QArith List String Bool Lia Lra.
From Coq Require Import Reals Qreals.
From Verif Require Import Base Float Rational SmartNum Ast Compute Spec SpecTree SpecR.
From Verif Require Import BaseProofs NumProofs NumProofs2 TreeProofs TreeProofs2 TreeProofs3 TreeProofs4.
Import ListNotations.
Open Scope R_scope.
Open Scope res_scope.

(** ** evaluation equations *)
Definition obind {A B} (o : option A) (f : A -> option B) : option B :=
  match o with Some a => f a | None => None end.

Lemma eval_mk1 rho t a : eval rho (mk1 t a) = obind (eval rho a) (ev1 t).
Proof. unfold mk1. cbn [eval map]. rewrite descriptor_gen. destruct (eval rho a); reflexivity. Qed.
Lemma eval_mk2 rho t a b :
  eval rho (mk2 t a b) = obind (eval rho a) (fun u => obind (eval rho b) (ev2 t u)).
Proof.
  unfold mk2. cbn [eval map]. rewrite descriptor_gen.
  destruct (eval rho a), (eval rho b); reflexivity.
Qed.
Lemma eval_num rho n : eval rho (Expr (Operand (Num n)) []) = num_R n. Proof. reflexivity. Qed.
Lemma eval_var rho x : eval rho (Expr (Operand (Var x)) []) = Some (rho x). Proof. reflexivity. Qed.
Lemma num_R_int z : num_R (sn_of_i64 z) = Some (IZR z).
Proof.
  unfold num_R, sn_of_i64, sn_of_val, val_of_i64. cbn [ntag nval val_Q].
  assert (option_map Q2R (Some (inject_Z z)) = Some (IZR z)) as E.
  { cbn. f_equal. unfold Q2R. cbn. field. }
  destruct (val_is_one (Integer z)); [exact E|]. destruct (val_is_zero (Integer z)); exact E.
Qed.
Lemma eval_zero rho : eval rho e_zero = Some 0. Proof. apply num_R_int. Qed.
Lemma eval_one rho : eval rho e_one = Some 1. Proof. apply num_R_int. Qed.
Lemma eval_e rho : eval rho e_e = Some (exp 1). Proof. reflexivity. Qed.

Lemma eval1_inv rho t a v : eval rho (mk1 t a) = Some v ->
  exists u, eval rho a = Some u /\ ev1 t u = Some v.
Proof. rewrite eval_mk1. destruct (eval rho a); cbn; [eauto|discriminate]. Qed.
Lemma eval2_some rho t a b v : eval rho (mk2 t a b) = Some v ->
  exists u w, eval rho a = Some u /\ eval rho b = Some w /\ ev2 t u w = Some v.
Proof.
  rewrite eval_mk2. destruct (eval rho a), (eval rho b); cbn; try discriminate. eauto.
Qed.

(** ** numbers *)
Lemma num_R_exact x : approx x = false -> num_R x = option_map Q2R (val_Q (nval x)).
Proof. unfold approx, sn_is_pi, sn_is_e, num_R. destruct (ntag x); try discriminate; reflexivity. Qed.
Lemma num_R_Q x a : approx x = false -> num_R x = Some a ->
  exists q, val_Q (nval x) = Some q /\ a = Q2R q.
Proof.
  intros H. rewrite num_R_exact by assumption. destruct (val_Q (nval x)) as [q|]; [|discriminate].
  intros [= <-]. eauto.
Qed.
Lemma approx_wrap v : approx (wrap_val v) = false.
Proof. unfold wrap_val. destruct (val_is_zero v); [reflexivity|]. destruct (val_is_one v); reflexivity. Qed.

Lemma num_R_zero x a : num_ok x -> sn_is_zero x = true -> num_R x = Some a -> a = 0.
Proof.
  intros Hx Hz H. assert (approx x = false) as Ha.
  { unfold approx, sn_is_zero, sn_is_pi, sn_is_e in *. destruct (ntag x); try discriminate; reflexivity. }
  apply num_R_Q in H as (q & Hq & ->); [|assumption].
  pose proof (zero_Q x q Hx Hz Hq) as E. apply Qeq_eqR in E. rewrite E. apply RMicromega.Q2R_0.
Qed.
Lemma num_R_one x a : num_ok x -> sn_is_one x = true -> num_R x = Some a -> a = 1.
Proof.
  intros Hx Hz H. assert (approx x = false) as Ha.
  { unfold approx, sn_is_one, sn_is_pi, sn_is_e in *. destruct (ntag x); try discriminate; reflexivity. }
  apply num_R_Q in H as (q & Hq & ->); [|assumption].
  pose proof (one_Q x q Hx Hz Hq) as E. apply Qeq_eqR in E. rewrite E. apply RMicromega.Q2R_1.
Qed.
Lemma zero_num_R x : num_ok x -> sn_is_zero x = true -> num_R x = Some 0.
Proof.
  intros Hx Hz. destruct (is_zero_exact x Hx) as [H _]. destruct (H Hz) as (q & Hq & E).
  assert (approx x = false) as Ha.
  { unfold approx, sn_is_zero, sn_is_pi, sn_is_e in *. destruct (ntag x); try discriminate; reflexivity. }
  rewrite num_R_exact by assumption. rewrite exact_Q_match in Hq.
  destruct (nval x) eqn:V; try discriminate; rewrite Hq; cbn; f_equal;
    apply Qeq_eqR in E; rewrite E; apply RMicromega.Q2R_0.
Qed.

Lemma num_R_res x q a : approx x = false -> val_Q (nval x) = Some q -> (q == a)%Q -> num_R x = Some (Q2R a).
Proof. intros H Hq E. rewrite num_R_exact, Hq by assumption. cbn. f_equal. apply Qeq_eqR. assumption. Qed.

Lemma guard_strict b r v : guard Strict b r = Ok v -> b = false /\ r = Ok v.
Proof. unfold guard. destruct b; cbn; [discriminate|auto]. Qed.

Lemma num_R_neg x z a : num_ok x -> sn_neg Strict x = Ok z -> num_R x = Some a -> num_R z = Some (- a).
Proof.
  intros Hx H Ha. pose proof H as H'. unfold sn_neg in H'. inv_bind H'.
  apply guard_strict in Hb as [Hap _]. injection H' as Hz.
  apply num_R_Q in Ha as (q & Hq & ->); [|assumption].
  destruct (sn_neg_strict x z q Hx H Hq) as (r & Hr & E).
  rewrite (num_R_res z r (- q)); try assumption; [|subst z; apply approx_wrap].
  f_equal. apply Q2R_opp.
Qed.

Ltac strict_num H Hz :=
  inv_bind H; match goal with Hb : guard Strict _ _ = Ok _ |- _ =>
    let Hap := fresh "Hap" in apply guard_strict in Hb as [Hap _] end; injection H as Hz.

Lemma num_R_add x y z a b : num_ok x -> num_ok y -> sn_add Strict x y = Ok z ->
  num_R x = Some a -> num_R y = Some b -> num_R z = Some (a + b).
Proof.
  intros Hx Hy H Ha Hb. pose proof H as H'. unfold sn_add in H'.
  destruct (sn_is_zero x) eqn:Zx.
  { injection H' as <-. rewrite (num_R_zero x a Hx Zx Ha), Rplus_0_l. assumption. }
  destruct (sn_is_zero y) eqn:Zy.
  { injection H' as <-. rewrite (num_R_zero y b Hy Zy Hb), Rplus_0_r. assumption. }
  strict_num H' Hz. apply orb_false_iff in Hap as [Hax Hay].
  apply num_R_Q in Ha as (p & Hp & ->); [|assumption].
  apply num_R_Q in Hb as (q & Hq & ->); [|assumption].
  destruct (sn_add_strict x y z Hx Hy H p q Hp Hq) as (r & Hr & E).
  rewrite (num_R_res z r (p + q)); try assumption; [|subst z; apply approx_wrap].
  f_equal. apply Q2R_plus.
Qed.
Lemma num_R_sub x y z a b : num_ok x -> num_ok y -> sn_sub Strict x y = Ok z ->
  num_R x = Some a -> num_R y = Some b -> num_R z = Some (a - b).
Proof.
  intros Hx Hy H Ha Hb. pose proof H as H'. unfold sn_sub in H'.
  destruct (sn_is_zero x) eqn:Zx.
  { rewrite (num_R_zero x a Hx Zx Ha). replace (0 - b) with (- b) by ring.
    exact (num_R_neg y z b Hy H' Hb). }
  destruct (sn_is_zero y) eqn:Zy.
  { injection H' as <-. rewrite (num_R_zero y b Hy Zy Hb), Rminus_0_r. assumption. }
  strict_num H' Hz. apply orb_false_iff in Hap as [Hax Hay].
  apply num_R_Q in Ha as (p & Hp & ->); [|assumption].
  apply num_R_Q in Hb as (q & Hq & ->); [|assumption].
  destruct (sn_sub_strict x y z Hx Hy H p q Hp Hq) as (r & Hr & E).
  rewrite (num_R_res z r (p - q)); try assumption; [|subst z; apply approx_wrap].
  f_equal. apply Q2R_minus.
Qed.

Lemma approx_val_zero x : num_ok x -> val_is_zero (nval x) = true -> approx x = false.
Proof.
  intros Hx Hz. rewrite <- is_zero_val in Hz by assumption.
  unfold approx, sn_is_zero, sn_is_pi, sn_is_e in *. destruct (ntag x); try discriminate; reflexivity.
Qed.

Lemma num_R_mul x y z a b : num_ok x -> num_ok y -> sn_mul Strict x y = Ok z ->
  num_R x = Some a -> num_R y = Some b -> num_R z = Some (a * b).
Proof.
  intros Hx Hy H Ha Hb. pose proof H as H'. unfold sn_mul in H'.
  destruct (sn_is_one x) eqn:Zx.
  { injection H' as <-. rewrite (num_R_one x a Hx Zx Ha), Rmult_1_l. assumption. }
  destruct (sn_is_one y) eqn:Zy.
  { injection H' as <-. rewrite (num_R_one y b Hy Zy Hb), Rmult_1_r. assumption. }
  inv_bind H'. apply guard_strict in Hb0 as [Hap Hv]. injection H' as Hz.
  destruct (val_is_zero (nval x) || val_is_zero (nval y)) eqn:Vz.
  { unfold val_mul in Hv. rewrite Vz in Hv. injection Hv as <-. subst z.
    change (num_R (wrap_val (Integer 0)) = Some (a * b)).
    assert (a * b = 0) as ->.
    { apply orb_true_iff in Vz as [V|V].
      - rewrite <- is_zero_val in V by assumption. rewrite (num_R_zero x a Hx V Ha). ring.
      - rewrite <- is_zero_val in V by assumption. rewrite (num_R_zero y b Hy V Hb). ring. }
    apply zero_num_R; [|reflexivity]. exact (sn_of_i64_ok 0 eq_refl). }
  rewrite andb_true_r in Hap. apply orb_false_iff in Hap as [Hax Hay].
  apply num_R_Q in Ha as (p & Hp & ->); [|assumption].
  apply num_R_Q in Hb as (q & Hq & ->); [|assumption].
  destruct (sn_mul_strict x y z Hx Hy H p q Hp Hq) as (r & Hr & E).
  rewrite (num_R_res z r (p * q)); try assumption; [|subst z; apply approx_wrap].
  f_equal. apply Q2R_mult.
Qed.

Lemma Q2R_nonzero q : Q2R q <> 0 -> ~ (q == 0)%Q.
Proof. intros H E. apply H. apply Qeq_eqR in E. rewrite E. apply RMicromega.Q2R_0. Qed.

Lemma num_R_div x y z a b : num_ok x -> num_ok y -> sn_div Strict x y = Ok z ->
  num_R x = Some a -> num_R y = Some b -> b <> 0 -> num_R z = Some (a / b).
Proof.
  intros Hx Hy H Ha Hb Hb0. pose proof H as H'. unfold sn_div in H'.
  inv_bind H'. apply guard_strict in Hb1 as [Hap Hv]. injection H' as Hz.
  destruct (val_is_zero (nval x)) eqn:Vz.
  { unfold val_div in Hv. rewrite Vz in Hv. injection Hv as <-. subst z.
    rewrite <- is_zero_val in Vz by assumption. rewrite (num_R_zero x a Hx Vz Ha).
    unfold Rdiv. rewrite Rmult_0_l. apply zero_num_R; [|reflexivity]. exact (sn_of_i64_ok 0 eq_refl). }
  rewrite andb_true_r in Hap. apply orb_false_iff in Hap as [Hax Hay].
  apply num_R_Q in Ha as (p & Hp & ->); [|assumption].
  apply num_R_Q in Hb as (q & Hq & ->); [|assumption].
  apply Q2R_nonzero in Hb0.
  destruct (sn_div_strict x y z p q Hx Hy H Hp Hq Hb0) as (r & Hr & E).
  rewrite (num_R_res z r (p / q)); try assumption; [|subst z; apply approx_wrap].
  f_equal. apply Q2R_div. assumption.
Qed.

(** ** the rules *)
Lemma is_zero_inv e : is_zero e = true -> exists n c, e = Expr (Operand (Num n)) c /\ sn_is_zero n = true.
Proof. destruct e as [[op|[n|x]] c]; try discriminate. intros H. exists n, c. auto. Qed.
Lemma is_one_inv e : is_one e = true -> exists n c, e = Expr (Operand (Num n)) c /\ sn_is_one n = true.
Proof. destruct e as [[op|[n|x]] c]; try discriminate. intros H. exists n, c. auto. Qed.
Lemma is_pi_inv e : is_pi e = true -> exists n c, e = Expr (Operand (Num n)) c /\ sn_is_pi n = true.
Proof. destruct e as [[op|[n|x]] c]; try discriminate. intros H. exists n, c. auto. Qed.
Lemma is_e_inv e : is_e e = true -> exists n c, e = Expr (Operand (Num n)) c /\ sn_is_e n = true.
Proof. destruct e as [[op|[n|x]] c]; try discriminate. intros H. exists n, c. auto. Qed.

Lemma wf_num_inv n c : wf (Expr (Operand (Num n)) c) -> num_ok n /\ c = [].
Proof. intros W. inversion W; subst. auto. Qed.

Lemma eval_is_zero rho e v : wf e -> is_zero e = true -> eval rho e = Some v -> v = 0.
Proof.
  intros W H. apply is_zero_inv in H as (n & c & -> & Hz). apply wf_num_inv in W as [Hn ->].
  rewrite eval_num. apply num_R_zero; assumption.
Qed.
Lemma eval_is_one rho e v : wf e -> is_one e = true -> eval rho e = Some v -> v = 1.
Proof.
  intros W H. apply is_one_inv in H as (n & c & -> & Hz). apply wf_num_inv in W as [Hn ->].
  rewrite eval_num. apply num_R_one; assumption.
Qed.
Lemma eval_is_pi rho e v : is_pi e = true -> eval rho e = Some v -> v = PI.
Proof.
  intros H. apply is_pi_inv in H as (n & c & -> & Hz). cbn [eval]. unfold num_R, sn_is_pi in *.
  destruct (ntag n); try discriminate. intros [= <-]. reflexivity.
Qed.
Lemma eval_is_e rho e v : is_e e = true -> eval rho e = Some v -> v = exp 1.
Proof.
  intros H. apply is_e_inv in H as (n & c & -> & Hz). cbn [eval]. unfold num_R, sn_is_e in *.
  destruct (ntag n); try discriminate. intros [= <-]. reflexivity.
Qed.

Lemma ln_exp_1 : ln (exp 1) = 1. Proof. apply ln_exp. Qed.

(** a node with operator of arity 1 in a well-formed tree *)
Lemma wf_last1 op k c : arity (descriptor op) = 1%nat -> wf (Expr (Operator op) (k ++ [c])) ->
  k = [] /\ Expr (Operator op) (k ++ [c]) = mk1 (descriptor op) c /\ wf c.
Proof.
  intros Ha W. apply wf_op_inv in W as (Hop & [(_ & a & E & Wa)|(E & _)]); [|congruence].
  apply (app_inj_tail k []) in E as [-> ->]. split; [reflexivity|]. split; [|assumption].
  unfold mk1. rewrite <- Hop. reflexivity.
Qed.

Lemma ar1_sound rho t a z u v : wf a -> ar1 Strict t a z ->
  (t = OCos -> is_pi a = false) ->
  eval rho a = Some u -> ev1 t u = Some v -> eval rho z = Some v.
Proof.
  intros W H Hcos Hu Hv. destruct H.
  - apply wf_num_inv in W as [Hn ->]. rewrite eval_num in Hu. cbn in Hv. injection Hv as <-.
    change (num_R v0 = Some (- u)). exact (num_R_neg _ _ _ Hn H Hu).
  - destruct (wf_last1 op r c ltac:(rewrite H; reflexivity) W) as (-> & E & Wc).
    rewrite E, H in Hu. apply eval1_inv in Hu as (w & Hw & Hu). cbn in Hu, Hv.
    injection Hu as <-. injection Hv as <-. rewrite Ropp_involutive. assumption.
  - unfold e_neg. rewrite eval_mk1, Hu. exact Hv.
  - rewrite eval_zero. cbn in Hv. injection Hv as <-. f_equal. symmetry.
    apply orb_true_iff in H as [H|H].
    + rewrite (eval_is_zero _ _ _ W H Hu). apply sin_0.
    + rewrite (eval_is_pi _ _ _ H Hu). apply sin_PI.
  - unfold e_sin. rewrite eval_mk1, Hu. exact Hv.
  - rewrite eval_one. cbn in Hv. injection Hv as <-. f_equal. symmetry.
    rewrite (Hcos eq_refl), orb_false_r in H. rewrite (eval_is_zero _ _ _ W H Hu). apply cos_0.
  - unfold e_cos. rewrite eval_mk1, Hu. exact Hv.
  - rewrite eval_one. cbn in Hv. injection Hv as <-. f_equal. symmetry.
    rewrite (eval_is_zero _ _ _ W H Hu). apply exp_0.
  - rewrite eval_e. cbn in Hv. injection Hv as <-. f_equal. symmetry.
    rewrite (eval_is_one _ _ _ W H0 Hu). reflexivity.
  - destruct (wf_last1 op r c ltac:(rewrite H; reflexivity) W) as (-> & E & Wc).
    rewrite E, H in Hu. apply eval1_inv in Hu as (w & Hw & Hu). cbn in Hu, Hv.
    destruct (Rlt_dec 0 w); [|discriminate]. injection Hu as <-. injection Hv as <-.
    rewrite exp_ln by assumption. assumption.
  - unfold e_exp. rewrite eval_mk1, Hu. exact Hv.
  - rewrite eval_one. rewrite (eval_is_e _ _ _ H Hu) in Hv. cbn in Hv.
    destruct (Rlt_dec 0 (exp 1)); [|discriminate]. injection Hv as <-. rewrite ln_exp. reflexivity.
  - rewrite eval_zero. rewrite (eval_is_one _ _ _ W H0 Hu) in Hv. cbn in Hv.
    destruct (Rlt_dec 0 1); [|discriminate]. injection Hv as <-. rewrite ln_1. reflexivity.
  - destruct (wf_last1 op r c ltac:(rewrite H; reflexivity) W) as (-> & E & Wc).
    rewrite E, H in Hu. apply eval1_inv in Hu as (w & Hw & Hu). cbn in Hu, Hv.
    injection Hu as <-. destruct (Rlt_dec 0 (exp w)); [|discriminate]. injection Hv as <-.
    rewrite ln_exp. assumption.
  - unfold e_ln. rewrite eval_mk1, Hu. exact Hv.
Qed.

Lemma ev2_div a b v : ev2 ODiv a b = Some v -> b <> 0 /\ v = a / b.
Proof. cbn. destruct (Req_EM_T b 0); [discriminate|]. intros [= <-]. auto. Qed.

Lemma ar2_sound rho t l r z u w v : wf l -> wf r -> ar2 Strict t l r z ->
  (t = OPow -> is_zero l = false /\ is_one l = false /\ root_is OLn l = false) ->
  eval rho l = Some u -> eval rho r = Some w -> ev2 t u w = Some v -> eval rho z = Some v.
Proof.
  intros Wl Wr H Hpow Hu Hw Hv. destruct H.
  - apply wf_num_inv in Wl as [Hx ->], Wr as [Hy ->]. rewrite eval_num in Hu, Hw.
    change (num_R v0 = Some v). destruct H as [->|[->|[->| ->]]]; cbn [sn_op] in H0.
    + injection Hv as <-. exact (num_R_add _ _ _ _ _ Hx Hy H0 Hu Hw).
    + injection Hv as <-. exact (num_R_sub _ _ _ _ _ Hx Hy H0 Hu Hw).
    + injection Hv as <-. exact (num_R_mul _ _ _ _ _ Hx Hy H0 Hu Hw).
    + apply ev2_div in Hv as [Hw0 ->]. exact (num_R_div _ _ _ _ _ Hx Hy H0 Hu Hw Hw0).
  - injection Hv as <-. rewrite (eval_is_zero _ _ _ Wl H0 Hu), Rplus_0_l. assumption.
  - injection Hv as <-. rewrite (eval_is_zero _ _ _ Wr H1 Hw), Rplus_0_r. assumption.
  - unfold e_add. rewrite eval_mk2, Hu, Hw. exact Hv.
  - injection Hv as <-. rewrite (eval_is_zero _ _ _ Wl H0 Hu). unfold e_neg. rewrite eval_mk1, Hw.
    cbn. f_equal. ring.
  - injection Hv as <-. rewrite (eval_is_zero _ _ _ Wr H1 Hw), Rminus_0_r. assumption.
  - unfold e_sub. rewrite eval_mk2, Hu, Hw. exact Hv.
  - injection Hv as <-. rewrite eval_zero. f_equal. apply orb_true_iff in H0 as [H0|H0].
    + rewrite (eval_is_zero _ _ _ Wl H0 Hu). ring.
    + rewrite (eval_is_zero _ _ _ Wr H0 Hw). ring.
  - injection Hv as <-. rewrite (eval_is_one _ _ _ Wl H1 Hu), Rmult_1_l. assumption.
  - injection Hv as <-. rewrite (eval_is_one _ _ _ Wr H2 Hw), Rmult_1_r. assumption.
  - unfold e_mul. rewrite eval_mk2, Hu, Hw. exact Hv.
  - apply ev2_div in Hv as [Hw0 ->]. rewrite eval_zero. rewrite (eval_is_zero _ _ _ Wl H0 Hu).
    f_equal. unfold Rdiv. ring.
  - unfold e_div. rewrite eval_mk2, Hu, Hw. exact Hv.
  - destruct (Hpow eq_refl) as (K & _ & _). congruence.
  - destruct (Hpow eq_refl) as (_ & K & _). congruence.
  - destruct (Hpow eq_refl) as (_ & _ & K). unfold root_is in K. cbn [root] in K. rewrite H in K. discriminate.
  - unfold e_pow. rewrite eval_mk2, Hu, Hw. exact Hv.
Qed.

(** ** num_aggregate *)
Lemma root_is_ln l : wf l -> (forall c, l <> e_ln c) -> root_is OLn l = false.
Proof.
  intros W H. unfold root_is. destruct l as [[op|o] c]; [|reflexivity]. cbn [root].
  destruct (descriptor op) eqn:D; try reflexivity. exfalso.
  apply wf_op_inv in W as (Hop & [(_ & a & -> & _)|(E & _)]); [|rewrite D in E; discriminate].
  apply (H a). unfold e_ln, mk1. rewrite <- D, <- Hop. reflexivity.
Qed.

Lemma avoids_sub e s : avoids_bad_rules e -> subterm s e -> avoids_bad_rules s.
Proof.
  intros [H1 H2] Hs. split.
  - intros a b a' Hsub. apply H1 with b. eapply subterm_trans; eassumption.
  - intros a a' Hsub. apply H2. eapply subterm_trans; eassumption.
Qed.
Lemma sub_mk1 t a : subterm a (mk1 t a).
Proof. eapply sub_child; [left; reflexivity|constructor]. Qed.
Lemma sub_mk2_l t a b : subterm a (mk2 t a b).
Proof. eapply sub_child; [left; reflexivity|constructor]. Qed.
Lemma sub_mk2_r t a b : subterm b (mk2 t a b).
Proof. eapply sub_child; [right; left; reflexivity|constructor]. Qed.

Lemma agg_sound rho e : wf e -> avoids_bad_rules e -> forall z v,
  num_aggregate Strict e = Ok z -> eval rho e = Some v -> eval rho z = Some v.
Proof.
  intros W. pattern e. revert e W. apply wf_ind1.
  - intros n _ _ z v [= <-] H. exact H.
  - intros x _ z v [= <-] H. exact H.
  - intros t a Ha Wa IH Hg z v H Hv. rewrite agg_mk1 in H by assumption. inv_bind H.
    apply eval1_inv in Hv as (u & Hu & Hv).
    apply rule1_ar in H; [|assumption].
    eapply ar1_sound; [|exact H| | |exact Hv].
    + exact (agg_wf _ _ _ Wa Hb).
    + intros ->. apply (proj2 Hg) with a; [constructor|exact Hb].
    + apply IH; [|reflexivity|assumption] || apply IH; try assumption.
      eapply avoids_sub; [exact Hg|apply sub_mk1].
  - intros t a b Ha Wa Wb IHa IHb Hg z v H Hv. rewrite agg_mk2 in H by assumption. do 2 inv_bind H.
    apply eval2_some in Hv as (u & w & Hu & Hw & Hv).
    apply rule2_ar in H; [|assumption].
    eapply ar2_sound; [| |exact H| | | |exact Hv].
    + exact (agg_wf _ _ _ Wa Hb0).
    + exact (agg_wf _ _ _ Wb Hb).
    + intros ->. destruct (proj1 Hg a b a1 (sub_refl _) Hb0) as (K1 & K2 & K3).
      split; [assumption|]. split; [assumption|]. apply root_is_ln; [|assumption].
      exact (agg_wf _ _ _ Wa Hb0).
    + apply IHa; try assumption. eapply avoids_sub; [exact Hg|apply sub_mk2_l].
    + apply IHb; try assumption. eapply avoids_sub; [exact Hg|apply sub_mk2_r].
Qed.

(** ** substitution *)
Lemma upd_same rho x v : upd rho x v x = v.
Proof. unfold upd. rewrite String.eqb_refl. reflexivity. Qed.
Lemma upd_other rho x v y : y <> x -> upd rho x v y = rho y.
Proof. intros H. unfold upd. apply String.eqb_neq in H. rewrite H. reflexivity. Qed.

Lemma eval_subst rho x v vv e : eval rho v = Some vv -> eval rho (subst x v e) = eval (upd rho x vv) e.
Proof.
  intros Hv. induction e as [r c IH] using expr_ind'. cbn [subst]. destruct r as [op|[n|y]].
  - cbn [eval]. f_equal. rewrite map_map. apply map_ext_in. intros a Ha.
    rewrite Forall_forall in IH. apply IH. assumption.
  - reflexivity.
  - cbn [eval]. unfold upd. destruct (String.eqb y x); [assumption|reflexivity].
Qed.
Lemma eval_subst_undef rho x v e : wf e -> eval rho v = None -> occurs x e -> eval rho (subst x v e) = None.
Proof.
  intros W Hv. pattern e. revert e W. apply wf_ind1.
  - intros n _ H. apply occurs_num in H. destruct H.
  - intros y H. apply occurs_var in H. subst. cbn. rewrite String.eqb_refl. assumption.
  - intros t a _ _ IH H. rewrite occurs_mk1 in H. rewrite subst_mk1, eval_mk1, IH by assumption. reflexivity.
  - intros t a b _ _ _ IHa IHb H. rewrite occurs_mk2 in H. rewrite subst_mk2, eval_mk2.
    destruct H as [H|H]; [rewrite IHa by assumption; reflexivity|].
    rewrite IHb by assumption. destruct (eval rho (subst x v a)); reflexivity.
Qed.
(** the value depends only on the variables that occur *)
Lemma eval_ext rho rho' e : (forall x, occurs x e -> rho x = rho' x) -> eval rho e = eval rho' e.
Proof.
  induction e as [r c IH] using expr_ind'. intros H. destruct r as [op|[n|y]]; cbn [eval].
  - f_equal. apply map_ext_in. intros a Ha. rewrite Forall_forall in IH. apply IH; [assumption|].
    intros x Hx. apply H. eapply occurs_child; eassumption.
  - reflexivity.
  - f_equal. apply H. exists c. constructor.
Qed.
