(** * PropsUndefTay: Taylor expansions around points where the function has no value (C103) *)
From Coq Require Import ZArith QArith Qreals Reals Lra List String Bool Lia.
From Verif Require Import Base Float Rational SmartNum Ast Compute Limit Spec SpecTree SpecR SpecExact SpecHeight SpecUndef.
From Verif Require Import BaseProofs NumProofs TreeProofs TreeProofs2 TreeProofs3 RealProofs PropsNum PropsTree PropsReal PropsHeight.
From Verif Require Import RealTaylor PropsStd PropsTayPow PropsUndef.
Import List ListNotations.
Open Scope Z_scope.

Lemma keeps_div rho s k : k <> 0 -> keeps_domain rho s -> keeps_domain rho (e_div s (e_of_i64 k)).
Proof.
  intros Hk (H1 & H2 & H3).
  assert (eval rho (e_of_i64 k) = Some (IZR k)) as V.
  { unfold e_of_i64, e_num. rewrite eval_num. apply num_R_int. }
  split; [|split].
  - intros a b H. unfold e_div in H. apply subterm_mk2 in H as [[=]|[H|H]]; [auto|].
    apply sub_leaf in H. discriminate H.
  - intros a b H. unfold e_div in H. apply subterm_mk2 in H as [H|[H|H]]; [|auto|apply sub_leaf in H; discriminate H].
    injection H as -> ->. split; intros _.
    + exists (IZR k). split; [exact V|]. apply not_0_IZR. exact Hk.
    + exists (IZR k). exact V.
  - intros a u H. unfold e_div in H. apply subterm_mk2 in H as [[=]|[H|H]]; [apply H3; exact H|].
    apply sub_leaf in H. discriminate H.
Qed.

Lemma avoids_div s k : avoids_bad_rules s -> avoids_bad_rules (e_div s (e_of_i64 k)).
Proof.
  intros [H1 H2]. split.
  - intros a b a' H. unfold e_div in H. apply subterm_mk2 in H as [[=]|[H|H]]; [apply (H1 a b a' H)|].
    apply sub_leaf in H. discriminate H.
  - intros a a' H. unfold e_div in H. apply subterm_mk2 in H as [[=]|[H|H]]; [apply (H2 a a' H)|].
    apply sub_leaf in H. discriminate H.
Qed.

(** Coefficient k has a value exactly where the k-th derivative has one at the point: it is
    that value divided by k!.  [d] is the k-th derivative, [s] what it simplifies to at the
    point. *)
Theorem c103_coefficient_defined rho x at_ a e n t k d s :
  wf e -> wf at_ -> eval rho at_ = Some a ->
  taylor_expansion Strict e (e_var x) at_ (Z.of_nat n) = Ok (ROk t) -> (k <= n)%nat ->
  deriv_n Strict x k e = Ok d -> num_aggregate Strict (subst x at_ d) = Ok s ->
  avoids_bad_rules (subst x at_ d) -> keeps_domain rho (subst x at_ d) ->
  avoids_bad_rules s -> keeps_domain rho s ->
  exists ck, nth_error (ex_coef t) k = Some ck /\
    eval rho ck = option_map (fun v => v / INR (fact k))%R (eval (upd rho x a) d).
Proof.
  intros We Wat Ha H Hk Hd Hs A1 K1 A2 K2.
  assert (n <= 20)%nat as Hn.
  { destruct (Nat.le_gt_cases n 20) as [L|L]; [exact L|]. exfalso.
    exact (proj2 (c34_debug_never_returns e (e_var x) at_ (Z.of_nat n) t ltac:(lia)) H). }
  apply c31_shape in H as (_ & _ & _ & _ & _ & Hc).
  destruct (Hc k Hk) as (d' & s' & ck & H1 & H2 & H3 & H4). exists ck. split; [exact H4|].
  rewrite Hd in H1. injection H1 as <-. rewrite Hs in H2. injection H2 as <-.
  rewrite c31_factorial in H3 by lia.
  pose proof (deriv_n_wf _ _ _ _ _ We Hd) as Wd. pose proof (subst_wf x at_ d Wd Wat) as Ws.
  pose proof (agg_wf _ _ _ Ws Hs) as Ws'. assert (0 < factZ k) as P by (unfold factZ; pose proof (lt_O_fact k); lia).
  assert (factZ k <> 0) as NZ by lia.
  assert (in_i64 (factZ k) = true) as I.
  { rewrite <- (c31_factorial k) by lia. apply in_i64_iff, wrap_i64_range. }
  rewrite (c22_same_domain rho _ _ (wf_mk2 ODiv s (e_of_i64 (factZ k)) eq_refl Ws' (wf_i64 _ I))
             (avoids_div s _ A2) (keeps_div rho s (factZ k) NZ K2) H3).
  unfold e_div. rewrite eval_mk2. rewrite (c22_same_domain rho _ _ Ws A1 K1 Hs).
  rewrite (eval_subst rho x at_ a d Ha).
  unfold e_of_i64, e_num. rewrite eval_num, num_R_int.
  destruct (eval (upd rho x a) d) as [v|]; [|reflexivity]. cbn [obind option_map ev2].
  assert (IZR (factZ k) = INR (fact k)) as E by (unfold factZ; symmetry; apply INR_IZR_INZ).
  rewrite E. destruct (Req_EM_T (INR (fact k)) 0) as [Z0|_]; [|reflexivity].
  exfalso. rewrite <- E in Z0. apply eq_IZR in Z0. lia.
Qed.
Print Assumptions c103_coefficient_defined.

(** The constant coefficient: at the point of expansion it has the value of the function, and
    none where the function has none. *)
Theorem c103_constant_coefficient rho x at_ a e n t s :
  wf e -> wf at_ -> eval rho at_ = Some a ->
  taylor_expansion Strict e (e_var x) at_ (Z.of_nat n) = Ok (ROk t) ->
  num_aggregate Strict (subst x at_ e) = Ok s ->
  avoids_bad_rules (subst x at_ e) -> keeps_domain rho (subst x at_ e) ->
  avoids_bad_rules s -> keeps_domain rho s ->
  exists c0, nth_error (ex_coef t) 0 = Some c0 /\ eval rho c0 = eval (upd rho x a) e.
Proof.
  intros We Wat Ha H Hs A1 K1 A2 K2.
  destruct (c103_coefficient_defined rho x at_ a e n t 0 e s We Wat Ha H (Nat.le_0_l n) eq_refl Hs A1 K1 A2 K2) as (c & E & V).
  exists c. split; [exact E|]. rewrite V. destruct (eval (upd rho x a) e) as [v|]; [|reflexivity].
  cbn [option_map fact INR]. f_equal. unfold Rdiv. rewrite Rinv_1. ring.
Qed.
Print Assumptions c103_constant_coefficient.

(** Without the guard it fails: in a release build every expansion of exp(ln x), of every
    order, around every integer k <= 0 has the constant coefficient k, although the function
    has no value there. *)
Theorem c103_refuted rho x k n : - 2 ^ 63 < k <= 0 ->
  exists t c, taylor_expansion Release (e_exp (e_ln (e_var x))) (e_var x) (e_of_i64 k) (Z.of_nat n) = Ok (ROk t) /\
    nth_error (ex_coef t) 0 = Some c /\ eval rho c = Some (IZR k) /\
    eval (upd rho x (IZR k)) (e_exp (e_ln (e_var x))) = None.
Proof.
  intros Hk. assert (in_i64 k = true) as I by (apply in_i64_iff; unfold two63; lia).
  assert (wf (e_exp (e_ln (e_var x)))) as W by (apply wf_mk1; [reflexivity|]; apply wf_mk1; [reflexivity|apply wf_var]).
  destruct (c31_release_returns _ x (e_of_i64 k) (Z.of_nat n) W (wf_i64 k I)) as (t & T).
  pose proof T as T'. apply c31_shape in T' as (_ & _ & _ & _ & _ & K).
  destruct (K 0%nat (Nat.le_0_l _)) as (d & s & c & E1 & E2 & E3 & E4).
  exists t, c. split; [exact T|]. split; [exact E4|].
  cbn [deriv_n] in E1. injection E1 as <-.
  assert (num_aggregate Release (subst x (e_of_i64 k) (e_exp (e_ln (e_var x)))) = Ok (e_of_i64 k)) as S.
  { assert (subst x (e_of_i64 k) (e_exp (e_ln (e_var x))) = e_exp (e_ln (e_of_i64 k))) as ->.
    { unfold e_exp, e_ln, e_var. cbn [subst mk1 map]. rewrite String.eqb_refl. reflexivity. }
    unfold e_exp, e_ln. rewrite agg_mk1, agg_mk1 by reflexivity.
    change (num_aggregate Release (e_of_i64 k)) with (Ok (e_of_i64 k)). cbn [bind].
    destruct k as [|p|p]; [reflexivity|lia|reflexivity]. }
  rewrite S in E2. injection E2 as <-. change (wrap_i64 (factZ 0)) with 1 in E3.
  destruct (over_one Release k rho (or_intror eq_refl)) as (c' & A & V); [lia|].
  rewrite A in E3. injection E3 as <-. split; [exact V|].
  unfold e_exp, e_ln, e_var. rewrite !eval_mk1, eval_var, upd_same. cbn [obind ev1].
  assert (IZR k <= 0)%R as L by (apply IZR_le; lia).
  destruct (Rlt_dec 0 (IZR k)); [lra|reflexivity].
Qed.
Print Assumptions c103_refuted.

(** *** the hypotheses are met: ln x around -1, where it has no value; order 1 *)
Example c103_example rho :
  let e := e_ln (e_var "x"%string) in let at_ := e_of_i64 (-1) in let s := e_ln (e_of_i64 (-1)) in
  wf e /\ wf at_ /\ eval rho at_ = Some (-1)%R /\
  (exists t, taylor_expansion Strict e (e_var "x"%string) at_ (Z.of_nat 1) = Ok (ROk t)) /\
  deriv_n Strict "x"%string 0 e = Ok e /\ num_aggregate Strict (subst "x"%string at_ e) = Ok s /\
  avoids_bad_rules s /\ keeps_domain rho s /\ subst "x"%string at_ e = s /\
  eval (upd rho "x"%string (-1)) e = None.
Proof.
  intros e at_ s.
  assert (forall u, subterm u s -> u = s \/ u = at_) as Hs.
  { intros u H. unfold s, e_ln in H. apply subterm_mk1 in H as [H|H]; [auto|]. apply sub_leaf in H. auto. }
  refine (conj _ (conj _ (conj _ (conj _ (conj _ (conj _ (conj _ (conj _ (conj _ _))))))))).
  - apply wf_mk1; [reflexivity|apply wf_var].
  - apply wf_i64. reflexivity.
  - unfold at_, e_of_i64, e_num. rewrite eval_num. apply num_R_int.
  - eexists. vm_compute. reflexivity.
  - reflexivity.
  - vm_compute. reflexivity.
  - split; intros ? ? * H; exfalso; apply Hs in H as [H|H]; discriminate H.
  - split; [|split]; intros ? ? H; exfalso; apply Hs in H as [H|H]; discriminate H.
  - reflexivity.
  - unfold e, e_ln, e_var. rewrite eval_mk1, eval_var, upd_same. cbn [obind ev1].
    destruct (Rlt_dec 0 (-1)); [lra|reflexivity].
Qed.
