(** * PropsOrder: Taylor expansions beyond order 65 in release builds (C34) *)
From Coq Require Import ZArith QArith Qreals List String Bool Lia Lra Reals.
From Coq Require Import Floats.SpecFloat.
From Verif Require Import Base Float Rational SmartNum Ast Compute Spec SpecTree SpecR.
From Verif Require Import BaseProofs NumProofs NumProofs2 TreeProofs TreeProofs2 RealProofs RealTaylor PropsNum PropsTree PropsStd.
Import ListNotations.
Open Scope Z_scope.

Lemma fin_div_zero f : f_val (f_div f (f_of_Z 0)) = None.
Proof. destruct f as [s|s| |s p e]; reflexivity. Qed.

(** a number divided by the integer 0 is the number 0 or has no value *)
Lemma div_zero_value n v : num_ok n -> sn_div Release n (sn_of_i64 0) = Ok v -> sn_is_zero v = true \/ num_R v = None.
Proof.
  intros K H. pose proof (sn_of_i64_ok 0 eq_refl) as K0. pose proof (sn_div_ok Release _ _ _ K K0 H) as Kv.
  destruct (sn_is_zero n) eqn:Z.
  - left. rewrite is_zero_val in Z by assumption. unfold sn_div, guard in H. cbn [is_strict andb] in H. unfold val_div in H. rewrite Z in H.
    injection H as <-. reflexivity.
  - right. destruct (nval n) as [i|r|f] eqn:E.
    1,2: assert (undefined_fraction v) as (q & Q & D) by (apply (div_zero_undefined Release n (sn_of_i64 0)); auto; [intros f; rewrite E|intros f]; discriminate);
      unfold num_R; destruct Kv as (_ & T); rewrite Q in T; destruct (ntag v); try discriminate; cbn [val_Q]; rewrite Q; cbn [val_Q]; rewrite D; reflexivity.
    unfold sn_div, guard in H. cbn [is_strict andb] in H. unfold val_div in H. rewrite E in H. cbn [val_is_zero nval sn_of_i64 sn_of_val val_of_i64] in H.
    unfold m_of_Z, m_div in H. cbn in H. injection H as <-. unfold num_R. cbn [ntag nval wrap_val val_is_zero val_is_one val_Q option_map].
    destruct f as [s|s| |s p e]; reflexivity.
Qed.

(** ** C34: from order 66 on (release builds; 66! is 0 modulo 2^64) a coefficient is the number
    0 or has no value, whatever the expression, the point and the variables are *)
Theorem c34_release_beyond_65 e x at_ n t k c : wf e -> wf at_ ->
  taylor_expansion Release e (e_var x) at_ (Z.of_nat n) = Ok (ROk t) -> (66 <= k <= n)%nat ->
  nth_error (ex_coef t) k = Some c -> is_zero c = true \/ forall rho, eval rho c = None.
Proof.
  intros We Wa H (K & Kn) N. destruct (c31_shape _ _ _ _ _ _ H) as (_ & _ & _ & _ & _ & C).
  destruct (C k Kn) as (d & s & ck & D & S & A & N'). assert (ck = c) as -> by congruence. clear C N'.
  rewrite factZ_Zfact, wrap_fact_66 in A by exact K.
  assert (wf d) as Wd by (apply (deriv_n_wf Release x k e d We D)).
  assert (wf s) as Ws by (apply (agg_wf Release (subst x at_ d)); [apply subst_wf; assumption|exact S]).
  unfold e_div in A. rewrite agg_mk2 in A by reflexivity. cbn [num_aggregate e_of_i64 e_num bind] in A. inv_bind A. rename a into l, Hb into L.
  assert (wf l) as Wl by (apply (agg_wf Release s); assumption).
  apply rule2_ar in A; [|reflexivity]. inversion A; subst; clear A.
  - inversion Wl as [n0 Kn0| |]; subst. cbn [sn_op] in *.
    match goal with V : sn_div Release _ _ = Ok _ |- _ => destruct (div_zero_value _ _ Kn0 V) as [Z|Z] end.
    + left. exact Z.
    + right. intros rho. unfold e_num. rewrite eval_num. exact Z.
  - left. reflexivity.
  - right. intros rho. unfold e_div. rewrite eval_mk2, eval_num, num_R_int. destruct (eval rho l) as [v|]; [|reflexivity].
    cbn [obind ev2]. destruct (Req_EM_T 0 0) as [_|F]; [reflexivity|exfalso; apply F; reflexivity].
Qed.
Print Assumptions c34_release_beyond_65.

(** Witness: x * e^x around the symbol a, order 66: coefficient 66 is an expression divided by 0. *)
Example c34_beyond_witness : exists t c, taylor_expansion Release (e_mul (e_var "x") (e_exp (e_var "x"))) (e_var "x") (e_var "a") (Z.of_nat 66) = Ok (ROk t) /\
  nth_error (ex_coef t) 66 = Some (e_div c e_zero).
Proof. do 2 eexists. split; vm_compute; reflexivity. Qed.
