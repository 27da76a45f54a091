(** * IntProofs: on integer expressions the debug build loses nothing *)
From Coq Require Import ZArith List String Bool Lia.
From Verif Require Import Base Float Rational SmartNum Ast Compute Spec SpecTree SpecInt.
From Verif Require Import BaseProofs NumProofs NumProofs2 TreeProofs TreeProofs2 TreeProofs3 TreeProofs4 TreeProofs5.
Import ListNotations.
Open Scope Z_scope.
Open Scope res_scope.

(** ** numbers *)
Lemma ovf_i64_DS z w : ovf_i64 Debug z = Ok w -> ovf_i64 Strict z = Ok w /\ w = z /\ in_i64 z = true.
Proof. unfold ovf_i64. destruct (in_i64 z); intros [= <-]. auto. Qed.
Lemma ovf_u64_DS z w : ovf_u64 Debug z = Ok w -> ovf_u64 Strict z = Ok w /\ w = z /\ in_u64 z = true.
Proof. unfold ovf_u64. destruct (in_u64 z); intros [= <-]. auto. Qed.

Lemma wrap_val_int z : wrap_val (Integer z) = sn_of_i64 z.
Proof.
  unfold wrap_val, sn_of_i64, sn_of_val, val_of_i64. cbn [val_is_zero val_is_one].
  destruct (Z.eqb_spec z 0) as [->|]; [reflexivity|]. destruct (Z.eqb_spec z 1) as [->|]; reflexivity.
Qed.
Lemma approx_int z : approx (sn_of_i64 z) = false.
Proof.
  unfold approx, sn_of_i64, sn_of_val, sn_is_pi, sn_is_e, val_of_i64. cbn [ntag].
  destruct (val_is_one (Integer z)), (val_is_zero (Integer z)); reflexivity.
Qed.
Lemma guard_false m r : guard m false r = r.
Proof. unfold guard. rewrite andb_false_r. reflexivity. Qed.

Lemma nval_int z : nval (sn_of_i64 z) = Integer z. Proof. reflexivity. Qed.

Definition intnum (n : snum) : Prop := exists z, in_i64 z = true /\ n = sn_of_i64 z.

Lemma sn_neg_DS n v : intnum n -> sn_neg Debug n = Ok v -> sn_neg Strict n = Ok v /\ intnum v.
Proof.
  intros (z & Hz & ->). unfold sn_neg. rewrite approx_int, !guard_false. cbn [sn_of_i64 sn_of_val val_of_i64 nval val_neg].
  unfold i64_neg. intros H. inv_bind H. injection H as <-. inv_bind Hb. injection Hb as <-.
  apply ovf_i64_DS in Hb0 as (E & -> & I). rewrite E. cbn [bind]. rewrite wrap_val_int. split; [reflexivity|].
  exists (- z). auto.
Qed.
Lemma sn_op_DS t n k v : intnum n -> intnum k -> t <> ODiv -> t = OAdd \/ t = OSub \/ t = OMul \/ t = ODiv ->
  sn_op Debug t n k = Ok v -> sn_op Strict t n k = Ok v /\ intnum v.
Proof.
  intros Hn Hk Nd Ht. pose proof Hn as Hn0. pose proof Hk as Hk0.
  destruct Hn as (y & Hy & ->), Hk as (z & Hz & ->).
  destruct Ht as [-> | [-> | [-> | ->]]]; [| | |congruence]; cbn [sn_op].
  - unfold sn_add. destruct (sn_is_zero (sn_of_i64 y)); [intros [= <-]; auto|].
    destruct (sn_is_zero (sn_of_i64 z)); [intros [= <-]; auto|].
    rewrite !approx_int. cbn [orb]. rewrite !guard_false. cbn [sn_of_i64 sn_of_val val_of_i64 nval val_add].
    unfold i64_add. intros H. inv_bind H. injection H as <-. inv_bind Hb. injection Hb as <-.
    apply ovf_i64_DS in Hb0 as (E & -> & I). rewrite E. cbn [bind]. rewrite wrap_val_int. split; [reflexivity|].
    exists (y + z). auto.
  - unfold sn_sub. destruct (sn_is_zero (sn_of_i64 y)); [apply sn_neg_DS; exists z; auto|].
    destruct (sn_is_zero (sn_of_i64 z)); [intros [= <-]; auto|].
    rewrite !approx_int. cbn [orb]. rewrite !guard_false. cbn [sn_of_i64 sn_of_val val_of_i64 nval val_sub].
    unfold i64_sub. intros H. inv_bind H. injection H as <-. inv_bind Hb. injection Hb as <-.
    apply ovf_i64_DS in Hb0 as (E & -> & I). rewrite E. cbn [bind]. rewrite wrap_val_int. split; [reflexivity|].
    exists (y - z). auto.
  - unfold sn_mul. destruct (sn_is_one (sn_of_i64 y)); [intros [= <-]; auto|].
    destruct (sn_is_one (sn_of_i64 z)); [intros [= <-]; auto|].
    rewrite !approx_int. cbn [orb andb]. rewrite !guard_false, !nval_int.
    unfold val_mul. destruct (val_is_zero (Integer y) || val_is_zero (Integer z)).
    + cbn [bind]. intros [= <-]. split; [reflexivity|]. exists 0. auto.
    + unfold i64_mul. intros H. inv_bind H. injection H as <-. inv_bind Hb. injection Hb as <-.
      apply ovf_i64_DS in Hb0 as (E & -> & I). rewrite E. cbn [bind]. rewrite wrap_val_int. split; [reflexivity|].
      exists (y * z). auto.
Qed.
Lemma rat_of_i64_DS z r : in_i64 z = true -> rat_of_i64 Debug z = Ok r -> rat_of_i64 Strict z = Ok r.
Proof.
  intros Hz. unfold rat_of_i64, i64_abs. intros H. inv_bind H. inv_bind H.
  apply ovf_i64_DS in Hb as (E & -> & I). rewrite E. cbn [bind].
  unfold cast_u64 in *. apply in_i64_iff in I.
  assert (in_u64 (Z.abs z) = true) as U. { apply in_u64_iff. unfold two63, two64 in *. lia. }
  rewrite U in *. injection Hb0 as <-. cbn [bind]. exact H.
Qed.
Lemma sn_div_DS n k v : intnum n -> intnum k -> sn_div Debug n k = Ok v -> sn_div Strict n k = Ok v.
Proof.
  intros (y & Hy & ->) (z & Hz & ->). unfold sn_div. rewrite !approx_int. cbn [orb andb]. rewrite !guard_false, !nval_int.
  unfold val_div. destruct (val_is_zero (Integer y)); [auto|].
  intros H. inv_bind H. inv_bind Hb. inv_bind Hb. inv_bind Hb.
  rewrite (rat_of_i64_DS y _ Hy Hb0). cbn [bind]. rewrite (rat_of_i64_DS z _ Hz Hb1). cbn [bind].
  unfold rat_div, i64_mul, u64_mul in *. inv_bind Hb2. inv_bind Hb2. inv_bind Hb2.
  apply ovf_i64_DS in Hb3 as (E1 & -> & _). apply ovf_u64_DS in Hb4 as (E2 & -> & _). apply ovf_u64_DS in Hb5 as (E3 & -> & _).
  rewrite E1. cbn [bind]. rewrite E2. cbn [bind]. rewrite E3. cbn [bind].
  injection Hb2 as <-. injection Hb as <-. exact H.
Qed.

(** ** trees *)
Lemma ie_wf e : int_expr e -> wf e.
Proof.
  induction 1; try (apply wf_mk2; [reflexivity|assumption..]); try (apply wf_mk1; [reflexivity|assumption]).
  - apply wf_num', sn_of_i64_ok. assumption.
  - apply wf_var.
Qed.
Lemma ie_zero : int_expr e_zero. Proof. exact (ie_num 0 eq_refl). Qed.
Lemma ie_one : int_expr e_one. Proof. exact (ie_num 1 eq_refl). Qed.

Lemma ie_num_inv n k : int_expr (Expr (Operand (Num n)) k) -> intnum n /\ k = [].
Proof. intros H. inversion H; subst. split; [eexists; split; [eassumption|reflexivity]|reflexivity]. Qed.
Lemma ie_of_intnum n : intnum n -> int_expr (e_num n).
Proof. intros (z & Hz & ->). exact (ie_num z Hz). Qed.
Lemma intnum_not_pi n : intnum n -> sn_is_pi n = false /\ sn_is_e n = false.
Proof.
  intros (z & _ & ->). pose proof (approx_int z) as H. unfold approx in H. apply orb_false_iff in H. exact H.
Qed.
Lemma ie_not_pi e : int_expr e -> is_pi e = false /\ is_e e = false.
Proof.
  intros H. destruct e as [[op|[n|x]] k]; try (split; reflexivity). apply ie_num_inv in H as [H _].
  exact (intnum_not_pi n H).
Qed.
Lemma app1_inv {A} (r : list A) c a : (r ++ [c] = [a] -> r = [] /\ c = a)%list.
Proof. destruct r as [|b [|d r]]; intros [= ]; subst; auto. Qed.

(** simplified forms: a number, or something no second pass can turn into a number *)
Inductive wnf : expr -> Prop :=
| wn_num n : intnum n -> wnf (e_num n)
| wn_var x : wnf (e_var x)
| wn_neg a : wnf a -> is_num a = false -> wnf (e_neg a)
| wn_sin a : wnf a -> is_zero a = false -> wnf (e_sin a)
| wn_cos a : wnf a -> is_zero a = false -> wnf (e_cos a)
| wn_exp a : wnf a -> is_num a = false -> wnf (e_exp a)
| wn_ln a : wnf a -> is_num a = false -> wnf (e_ln a)
| wn_add a b : wnf a -> wnf b -> is_num a && is_num b = false -> wnf (e_add a b)
| wn_sub a b : wnf a -> wnf b -> is_num a && is_num b = false -> wnf (e_sub a b)
| wn_mul a b : wnf a -> wnf b -> is_num a && is_num b = false -> is_zero a || is_zero b = false -> wnf (e_mul a b)
| wn_div a b : wnf a -> wnf b -> is_num b = false -> is_zero a = false -> wnf (e_div a b)
| wn_pow a b : wnf a -> wnf b -> is_num a = false -> wnf (e_pow a b).

Lemma nonnum_nonzero e : is_num e = false -> is_zero e = false /\ is_one e = false /\ is_pi e = false /\ is_e e = false.
Proof. destruct e as [[op|[n|x]] k]; try discriminate; repeat split; reflexivity. Qed.
Lemma zero_num e : is_zero e = true -> is_num e = true.
Proof. destruct e as [[op|[n|x]] k]; try discriminate; reflexivity. Qed.
Lemma one_num e : is_one e = true -> is_num e = true.
Proof. destruct e as [[op|[n|x]] k]; try discriminate; reflexivity. Qed.
Lemma nonnum_e_num n : is_num (e_num n) = true. Proof. reflexivity. Qed.

Lemma wnf_inv1 op r c t : wnf (Expr (Operator op) (r ++ [c])) -> descriptor op = t -> t = ONeg \/ t = OLn \/ t = OExp ->
  r = [] /\ wnf c /\ is_num c = false.
Proof.
  intros H D Ht. inversion H; subst; cbn in Ht; try (destruct Ht as [Ht|[Ht|Ht]]; discriminate Ht);
    match goal with E : [_] = (_ ++ [_])%list |- _ => symmetry in E; apply app1_inv in E as [-> ->] end; auto.
Qed.
Lemma wnf_not_pi e : wnf e -> is_pi e = false /\ is_e e = false.
Proof.
  intros H. destruct H; try (split; reflexivity). exact (intnum_not_pi n H).
Qed.
Lemma wn_zero : wnf e_zero. Proof. apply (wn_num sn_zero). exists 0. auto. Qed.
Lemma wn_one : wnf e_one. Proof. apply (wn_num sn_one). exists 1. auto. Qed.

(** one rule applied to simplified operands gives a simplified result *)
Lemma wnf_rule1 t a z : ar1 Debug t a z -> wnf a -> (t = OExp \/ t = OLn -> is_num a = false) -> wnf z.
Proof.
  intros H W Hn. destruct H.
  - inversion W; subst. apply wn_num. apply (proj2 (sn_neg_DS _ _ H1 H)).
  - exact (proj1 (proj2 (wnf_inv1 _ _ _ _ W H (or_introl eq_refl)))).
  - apply wn_neg; assumption.
  - apply wn_zero.
  - apply wn_sin; [assumption|]. apply orb_false_iff in H. tauto.
  - apply wn_one.
  - apply wn_cos; [assumption|]. apply orb_false_iff in H. tauto.
  - apply wn_one.
  - apply one_num in H0. rewrite Hn in H0 by auto. discriminate.
  - refine (proj1 (proj2 (wnf_inv1 _ _ _ _ W H _))). auto.
  - apply wn_exp; auto.
  - apply wn_one.
  - apply wn_zero.
  - refine (proj1 (proj2 (wnf_inv1 _ _ _ _ W H _))). auto.
  - apply wn_ln; auto.
Qed.
Lemma wnf_rule2 t l r z : ar2 Debug t l r z -> wnf l -> wnf r -> (t = ODiv -> is_num r = false) ->
  (t = OPow -> is_num l = false) -> wnf z.
Proof.
  intros H Wl Wr Hd Hp. destruct H; try assumption; try apply wn_zero; try apply wn_one.
  - inversion Wl; inversion Wr; subst. apply wn_num.
    assert (t <> ODiv) as Nd. { intros ->. specialize (Hd eq_refl). discriminate. }
    refine (proj2 (sn_op_DS t x y v _ _ Nd H H0)); assumption.
  - apply wn_add; assumption.
  - apply wn_neg; [assumption|]. apply zero_num in H0. rewrite H0 in H. exact H.
  - apply wn_sub; assumption.
  - apply wn_mul; assumption.
  - apply wn_div; auto.
  - refine (proj1 (proj2 (wnf_inv1 _ _ _ _ Wl H _))). auto.
  - apply wn_pow; auto.
Qed.

(** the same rule is lossless *)
Lemma eval1_DS t a z : arity t = 1%nat -> wnf a -> eval_rule Debug t [Ok a] = Ok z -> eval_rule Strict t [Ok a] = Ok z.
Proof.
  intros Ht W H. destruct t; try discriminate; try exact H.
  cbn [eval_rule] in *. unfold neg_eval_rule in *. cbn -[sn_neg e_neg e_num is_num] in *.
  destruct (is_num a) eqn:N; [|exact H]. inversion W; subst; try discriminate N.
  cbn -[sn_neg] in *. inv_bind H. destruct (sn_neg_DS _ _ H0 Hb) as [E _]. rewrite E. exact H.
Qed.
Lemma eval2_DS t l r z : arity t = 2%nat -> wnf l -> wnf r ->
  eval_rule Debug t [Ok l; Ok r] = Ok z -> eval_rule Strict t [Ok l; Ok r] = Ok z.
Proof.
  intros Ht Wl Wr H. destruct t; try discriminate; try exact H; cbn [eval_rule] in *;
    unfold add_eval_rule, sub_eval_rule, mul_eval_rule, div_eval_rule in *;
    cbn -[sn_add sn_sub sn_mul sn_div e_add e_sub e_mul e_div e_num is_num is_zero is_one to_smart_num_unwrap e_of_i64] in *;
    (destruct (is_num l && is_num r) eqn:N; [|exact H]);
    apply andb_true_iff in N as [N1 N2]; inversion Wl; subst; try discriminate N1; inversion Wr; subst; try discriminate N2;
    cbn -[sn_add sn_sub sn_mul sn_div] in *; inv_bind H.
  - destruct (sn_op_DS OAdd _ _ _ H0 H1 ltac:(discriminate) ltac:(auto) Hb) as [E _]. cbn [sn_op] in E. rewrite E. exact H.
  - destruct (sn_op_DS OSub _ _ _ H0 H1 ltac:(discriminate) ltac:(auto) Hb) as [E _]. cbn [sn_op] in E. rewrite E. exact H.
  - destruct (sn_op_DS OMul _ _ _ H0 H1 ltac:(discriminate) ltac:(auto) Hb) as [E _]. cbn [sn_op] in E. rewrite E. exact H.
  - rewrite (sn_div_DS _ _ _ H0 H1 Hb). exact H.
Qed.

(** a second pass keeps numbers numbers and non-numbers non-numbers *)
Lemma wnf_agg z : wnf z -> forall z', num_aggregate Debug z = Ok z' ->
  wnf z' /\ (is_num z = true -> z' = z) /\ (is_num z = false -> is_num z' = false).
Proof.
  induction 1; intros z' E.
  - injection E as <-. split; [apply wn_num; assumption|]. split; [reflexivity|discriminate].
  - injection E as <-. split; [apply wn_var|]. split; [discriminate|reflexivity].
  - unfold e_neg in E. rewrite agg_mk1 in E by reflexivity. inv_bind E. apply rule1_ar in E; [|reflexivity].
    destruct (IHwnf _ Hb) as (W & _ & Nn). specialize (Nn H0). split; [apply (wnf_rule1 _ _ _ E W); intros [?|?]; discriminate|].
    split; [discriminate|]. intros _. inversion E; subst; try reflexivity; [discriminate Nn|].
    exact (proj2 (proj2 (wnf_inv1 _ _ _ _ W H1 (or_introl eq_refl)))).
  - unfold e_sin in E. rewrite agg_mk1 in E by reflexivity. inv_bind E. apply rule1_ar in E; [|reflexivity].
    destruct (IHwnf _ Hb) as (W & Nm & Nn). split; [apply (wnf_rule1 _ _ _ E W); intros [?|?]; discriminate|].
    split; [discriminate|]. intros _. inversion E; subst; [|reflexivity]. exfalso.
    destruct (wnf_not_pi _ W) as [Pi _]. rewrite Pi, orb_false_r in H1.
    destruct (is_num a) eqn:N; [rewrite (Nm eq_refl) in H1; congruence|].
    apply zero_num in H1. rewrite (Nn eq_refl) in H1. discriminate.
  - unfold e_cos in E. rewrite agg_mk1 in E by reflexivity. inv_bind E. apply rule1_ar in E; [|reflexivity].
    destruct (IHwnf _ Hb) as (W & Nm & Nn). split; [apply (wnf_rule1 _ _ _ E W); intros [?|?]; discriminate|].
    split; [discriminate|]. intros _. inversion E; subst; [|reflexivity]. exfalso.
    destruct (wnf_not_pi _ W) as [Pi _]. rewrite Pi, orb_false_r in H1.
    destruct (is_num a) eqn:N; [rewrite (Nm eq_refl) in H1; congruence|].
    apply zero_num in H1. rewrite (Nn eq_refl) in H1. discriminate.
  - unfold e_exp in E. rewrite agg_mk1 in E by reflexivity. inv_bind E. apply rule1_ar in E; [|reflexivity].
    destruct (IHwnf _ Hb) as (W & _ & Nn). specialize (Nn H0). destruct (nonnum_nonzero _ Nn) as (N0 & N1 & _).
    split; [apply (wnf_rule1 _ _ _ E W); auto|]. split; [discriminate|]. intros _.
    inversion E; subst; try reflexivity; try congruence.
    refine (proj2 (proj2 (wnf_inv1 _ _ _ _ W H1 _))). auto.
  - unfold e_ln in E. rewrite agg_mk1 in E by reflexivity. inv_bind E. apply rule1_ar in E; [|reflexivity].
    destruct (IHwnf _ Hb) as (W & _ & Nn). specialize (Nn H0). destruct (nonnum_nonzero _ Nn) as (N0 & N1 & N2 & N3).
    split; [apply (wnf_rule1 _ _ _ E W); auto|]. split; [discriminate|]. intros _.
    inversion E; subst; try reflexivity; try congruence.
    refine (proj2 (proj2 (wnf_inv1 _ _ _ _ W H1 _))). auto.
  - unfold e_add in E. rewrite agg_mk2 in E by reflexivity. do 2 inv_bind E. apply rule2_ar in E; [|reflexivity].
    destruct (IHwnf2 _ Hb) as (Wr & Mr & Nr). destruct (IHwnf1 _ Hb0) as (Wl & Ml & Nl).
    split; [apply (wnf_rule2 _ _ _ _ E Wl Wr); discriminate|]. split; [discriminate|]. intros _.
    assert (is_num a1 && is_num a0 = false) as NN.
    { apply andb_false_iff in H1. apply andb_false_iff. destruct H1; auto. }
    inversion E; subst; try reflexivity.
    + discriminate NN.
    + apply zero_num in H3. rewrite H3 in H2. exact H2.
    + apply zero_num in H4. rewrite H4, andb_true_r in H2. exact H2.
  - unfold e_sub in E. rewrite agg_mk2 in E by reflexivity. do 2 inv_bind E. apply rule2_ar in E; [|reflexivity].
    destruct (IHwnf2 _ Hb) as (Wr & Mr & Nr). destruct (IHwnf1 _ Hb0) as (Wl & Ml & Nl).
    split; [apply (wnf_rule2 _ _ _ _ E Wl Wr); discriminate|]. split; [discriminate|]. intros _.
    assert (is_num a1 && is_num a0 = false) as NN.
    { apply andb_false_iff in H1. apply andb_false_iff. destruct H1; auto. }
    inversion E; subst; try reflexivity.
    + discriminate NN.
    + apply zero_num in H4. rewrite H4, andb_true_r in H2. exact H2.
  - unfold e_mul in E. rewrite agg_mk2 in E by reflexivity. do 2 inv_bind E. apply rule2_ar in E; [|reflexivity].
    destruct (IHwnf2 _ Hb) as (Wr & Mr & Nr). destruct (IHwnf1 _ Hb0) as (Wl & Ml & Nl).
    split; [apply (wnf_rule2 _ _ _ _ E Wl Wr); discriminate|]. split; [discriminate|]. intros _.
    assert (is_num a1 && is_num a0 = false) as NN.
    { apply andb_false_iff in H1. apply andb_false_iff. destruct H1; auto. }
    assert (is_zero a1 = false /\ is_zero a0 = false) as [Z1 Z0].
    { apply orb_false_iff in H2 as [Za Zb]. split.
      - destruct (is_num a) eqn:N; [rewrite (Ml eq_refl); exact Za|]. exact (proj1 (nonnum_nonzero _ (Nl eq_refl))).
      - destruct (is_num b) eqn:N; [rewrite (Mr eq_refl); exact Zb|]. exact (proj1 (nonnum_nonzero _ (Nr eq_refl))). }
    inversion E; subst; try reflexivity.
    + discriminate NN.
    + rewrite Z1, Z0 in H4. discriminate.
    + apply one_num in H5. rewrite H5 in NN. exact NN.
    + apply one_num in H6. rewrite H6, andb_true_r in NN. exact NN.
  - unfold e_div in E. rewrite agg_mk2 in E by reflexivity. do 2 inv_bind E. apply rule2_ar in E; [|reflexivity].
    destruct (IHwnf2 _ Hb) as (Wr & Mr & Nr). destruct (IHwnf1 _ Hb0) as (Wl & Ml & Nl). specialize (Nr H1).
    split; [apply (wnf_rule2 _ _ _ _ E Wl Wr); [auto|discriminate]|]. split; [discriminate|]. intros _.
    assert (is_zero a1 = false) as Z1.
    { destruct (is_num a) eqn:N; [rewrite (Ml eq_refl); assumption|]. exact (proj1 (nonnum_nonzero _ (Nl eq_refl))). }
    inversion E; subst; try reflexivity; try congruence. discriminate Nr.
  - unfold e_pow in E. rewrite agg_mk2 in E by reflexivity. do 2 inv_bind E. apply rule2_ar in E; [|reflexivity].
    destruct (IHwnf2 _ Hb) as (Wr & Mr & Nr). destruct (IHwnf1 _ Hb0) as (Wl & Ml & Nl). specialize (Nl H1).
    destruct (nonnum_nonzero _ Nl) as (N0 & N1 & _).
    split; [apply (wnf_rule2 _ _ _ _ E Wl Wr); [discriminate|auto]|]. split; [discriminate|]. intros _.
    inversion E; subst; try reflexivity; try congruence; try discriminate Nl.
    refine (proj2 (proj2 (wnf_inv1 _ _ _ _ Wl H2 _))). auto.
Qed.
Lemma wnf_not_constant z : wnf z -> is_num z = false -> not_constant z.
Proof. intros W N z' E. exact (proj2 (proj2 (wnf_agg z W z' E)) N). Qed.

Lemma wnf_ie z : wnf z -> int_expr z.
Proof.
  induction 1.
  - apply ie_of_intnum. assumption.
  - apply ie_var.
  - apply ie_neg; assumption.
  - apply ie_sin; assumption.
  - apply ie_cos; assumption.
  - apply ie_exp; [assumption|]. apply wnf_not_constant; assumption.
  - apply ie_ln; [assumption|]. apply wnf_not_constant; assumption.
  - apply ie_add; assumption.
  - apply ie_sub; assumption.
  - apply ie_mul; assumption.
  - apply ie_div; [assumption..|]. apply wnf_not_constant; assumption.
  - apply ie_pow; try assumption. apply wnf_not_constant; assumption.
Qed.

(** simplification of an integer expression *)
Lemma ie_agg e : int_expr e -> forall z, num_aggregate Debug e = Ok z -> num_aggregate Strict e = Ok z /\ wnf z.
Proof.
  induction 1; intros z' E;
    try (unfold e_neg, e_sin, e_cos, e_exp, e_ln in *; rewrite agg_mk1 in * by reflexivity; inv_bind E;
         destruct (IHint_expr _ Hb) as [S W]; rewrite S; cbn [bind]; split;
         [apply eval1_DS; [reflexivity|exact W|exact E]|];
         apply rule1_ar in E; [|reflexivity]; apply (wnf_rule1 _ _ _ E W);
         first [intros [?|?]; discriminate | intros _; auto]);
    try (unfold e_add, e_sub, e_mul, e_div, e_pow in *; rewrite agg_mk2 in * by reflexivity; do 2 inv_bind E;
         destruct (IHint_expr2 _ Hb) as [Sr Wr]; destruct (IHint_expr1 _ Hb0) as [Sl Wl]; rewrite Sr, Sl; cbn [bind]; split;
         [apply eval2_DS; [reflexivity|exact Wl|exact Wr|exact E]|];
         apply rule2_ar in E; [|reflexivity]; apply (wnf_rule2 _ _ _ _ E Wl Wr);
         first [discriminate | intros _; auto]).
  - injection E as <-. split; [reflexivity|]. apply wn_num. exists z. auto.
  - injection E as <-. split; [reflexivity|apply wn_var].
Qed.

Lemma nc_sq v : int_expr v -> not_constant v -> not_constant (e_mul v v).
Proof.
  intros I Nc z E. unfold e_mul in E. rewrite agg_mk2 in E by reflexivity. do 2 inv_bind E. apply rule2_ar in E; [|reflexivity].
  pose proof (Nc _ Hb) as N. rewrite Hb in Hb0. injection Hb0 as <-. destruct (nonnum_nonzero _ N) as (N0 & N1 & _).
  inversion E; subst; try congruence; try reflexivity; try discriminate N. rewrite N0 in *. discriminate.
Qed.

(** derivative of an integer expression *)
Lemma ie_raw1_agg x t a d : deriv Debug x (mk1 t a) = Ok d -> arity t = 1%nat ->
  (forall d, deriv Debug x a = Ok d -> deriv Strict x a = Ok d /\ int_expr d) ->
  (forall da, int_expr da -> int_expr (raw1 t a da)) ->
  deriv Strict x (mk1 t a) = Ok d /\ int_expr d.
Proof.
  intros E Ht IH Hr. rewrite deriv_mk1 in * by assumption. inv_bind E. destruct (IH _ Hb) as [S I]. rewrite S. cbn [bind].
  destruct (ie_agg _ (Hr _ I) _ E) as [S' W]. split; [exact S'|apply wnf_ie; exact W].
Qed.
Lemma ie_raw2_agg x t a b d : deriv Debug x (mk2 t a b) = Ok d -> arity t = 2%nat ->
  (forall d, deriv Debug x a = Ok d -> deriv Strict x a = Ok d /\ int_expr d) ->
  (forall d, deriv Debug x b = Ok d -> deriv Strict x b = Ok d /\ int_expr d) ->
  (forall da db, int_expr da -> int_expr db -> int_expr (raw2 t a b da db)) ->
  deriv Strict x (mk2 t a b) = Ok d /\ int_expr d.
Proof.
  intros E Ht IHa IHb Hr. rewrite deriv_mk2 in * by assumption. do 2 inv_bind E.
  destruct (IHb _ Hb) as [Sb Ib]. destruct (IHa _ Hb0) as [Sa Ia]. rewrite Sb, Sa. cbn [bind].
  destruct (ie_agg _ (Hr _ _ Ia Ib) _ E) as [S' W]. split; [exact S'|apply wnf_ie; exact W].
Qed.
Lemma ie_deriv x e : int_expr e -> forall d, deriv Debug x e = Ok d -> deriv Strict x e = Ok d /\ int_expr d.
Proof.
  induction 1; intros d E;
    try (refine (ie_raw1_agg x _ a d E eq_refl IHint_expr _); intros da Ida; cbn [raw1]);
    try (refine (ie_raw2_agg x _ a b d E eq_refl IHint_expr1 IHint_expr2 _); intros da db Ida Idb; cbn [raw2]).
  - injection E as <-. split; [reflexivity|apply ie_zero].
  - unfold e_var in *. rewrite deriv_var in *. injection E as <-. split; [reflexivity|].
    destruct (String.eqb x x0); [apply ie_one|apply ie_zero].
  - apply ie_neg; assumption.
  - apply ie_mul; [apply ie_cos|]; assumption.
  - apply ie_mul; [apply ie_neg, ie_sin|]; assumption.
  - apply ie_mul; [|apply ie_exp]; assumption.
  - apply ie_div; assumption.
  - apply ie_add; assumption.
  - apply ie_sub; assumption.
  - apply ie_add; apply ie_mul; assumption.
  - apply ie_div; [apply ie_sub; apply ie_mul; assumption|apply ie_mul; assumption|apply nc_sq; assumption].
  - apply ie_mul; [apply ie_pow; assumption|]. apply ie_add.
    + apply ie_mul; [assumption|apply ie_ln; assumption].
    + apply ie_div; [apply ie_mul; assumption|assumption..].
Qed.
Lemma ie_deriv_n x k : forall e, int_expr e -> forall d, deriv_n Debug x k e = Ok d -> deriv_n Strict x k e = Ok d /\ int_expr d.
Proof.
  induction k; intros e I d E; cbn [deriv_n] in *.
  - injection E as <-. auto.
  - inv_bind E. destruct (ie_deriv x e I _ Hb) as [S J]. rewrite S. cbn [bind]. exact (IHk _ J _ E).
Qed.

(** ** polynomials and trigonometric functions *)
Lemma tp_ie e : trig_poly e -> int_expr e.
Proof. induction 1; constructor; assumption. Qed.
Lemma tp_ops e t : trig_poly e -> In t [OExp; OLn; ODiv; OPow] -> ~ has_op t e.
Proof.
  intros H Ht (op & c & D & Hs). revert Hs. induction H; intros Hs; inversion Hs; subst; cbn in *;
    repeat match goal with
      | H : False |- _ => exact H
      | H : _ \/ _ |- _ => destruct H; subst
      | H : In _ [] |- _ => destruct H
      end; auto; try discriminate.
Qed.
Lemma ie_tp e : int_expr e -> (forall t, In t [OExp; OLn; ODiv; OPow] -> ~ has_op t e) -> trig_poly e.
Proof.
  induction 1; intros Ho;
    try (exfalso; refine (Ho _ _ (has_op_root _ _)); cbn; auto; fail);
    constructor; try assumption;
    match goal with H : (forall t, In t _ -> ~ has_op t ?x) -> trig_poly ?x |- trig_poly ?x => apply H end;
    intros t Ht Hh; apply (Ho t Ht); eapply has_op_child; try exact Hh; cbn; auto.
Qed.
Lemma tp_agg e z : trig_poly e -> num_aggregate Debug e = Ok z -> trig_poly z.
Proof.
  intros T E. apply ie_tp; [apply wnf_ie; exact (proj2 (ie_agg _ (tp_ie _ T) _ E))|].
  intros t Ht Hh. destruct (agg_ops _ _ _ _ E Hh) as [Hh' | [-> _]].
  - exact (tp_ops _ _ T Ht Hh').
  - cbn in Ht. intuition discriminate.
Qed.
Lemma tp_deriv x e : trig_poly e -> forall d, deriv Debug x e = Ok d -> trig_poly d.
Proof.
  induction 1; intros d E;
    try (unfold e_neg, e_sin, e_cos in E; rewrite deriv_mk1 in E by reflexivity; inv_bind E; specialize (IHtrig_poly _ Hb);
         refine (tp_agg _ _ _ E); cbn [raw1]);
    try (unfold e_add, e_sub, e_mul in E; rewrite deriv_mk2 in E by reflexivity; do 2 inv_bind E; specialize (IHtrig_poly2 _ Hb);
         specialize (IHtrig_poly1 _ Hb0); refine (tp_agg _ _ _ E); cbn [raw2]).
  - injection E as <-. exact (tp_num 0 eq_refl).
  - unfold e_var in E. rewrite deriv_var in E. injection E as <-.
    destruct (String.eqb x x0); [exact (tp_num 1 eq_refl)|exact (tp_num 0 eq_refl)].
  - apply tp_neg; assumption.
  - apply tp_mul; [apply tp_cos|]; assumption.
  - apply tp_mul; [apply tp_neg, tp_sin|]; assumption.
  - apply tp_add; assumption.
  - apply tp_sub; assumption.
  - apply tp_add; apply tp_mul; assumption.
Qed.
Lemma tp_subst x v e : trig_poly e -> trig_poly v -> trig_poly (subst x v e).
Proof.
  intros H Hv. induction H; try (constructor; assumption).
  cbn. destruct (String.eqb x0 x); [assumption|apply tp_var].
Qed.

(** Taylor expansion: the coefficients may be fractions, but nothing is lost *)
Lemma taylor_loop_DS x at_ : trig_poly at_ -> forall n k f r c p,
  0 <= k -> k + Z.of_nat n <= 1000 -> intnum f -> trig_poly r ->
  taylor_loop Debug x at_ n k f r c = Ok p -> taylor_loop Strict x at_ n k f r c = Ok p.
Proof.
  intros Ta. induction n; intros k f r c p K0 K If Tr H; cbn [taylor_loop] in *; [exact H|].
  do 5 inv_bind H.
  assert (in_i64 (Z.max k 1) = true) as I. { apply in_i64_iff. unfold two63. lia. }
  unfold sn_of_u64, val_of_u64, cast_i64 in *. rewrite I in *. cbn [bind] in *. injection Hb as <-.
  assert (intnum (sn_of_val (Integer (Z.max k 1)))) as Ik. { exists (Z.max k 1). auto. }
  destruct (sn_op_DS OMul _ _ _ If Ik ltac:(discriminate) ltac:(auto) Hb0) as [E0 I0]. cbn [sn_op] in E0. rewrite E0. cbn [bind].
  pose proof (tp_subst x at_ r Tr Ta) as Ts. destruct (ie_agg _ (tp_ie _ Ts) _ Hb1) as [E1 W1]. rewrite E1. cbn [bind].
  assert (num_aggregate Strict (e_div a1 (e_num a0)) = Ok a2) as E2.
  { unfold e_div in *. rewrite agg_mk2 in * by reflexivity. cbn [num_aggregate e_num bind] in *.
    inv_bind Hb2. destruct (ie_agg _ (wnf_ie _ W1) _ Hb) as [S2 W2]. rewrite S2. cbn [bind].
    apply eval2_DS; [reflexivity|exact W2|apply wn_num; exact I0|exact Hb2]. }
  rewrite E2. cbn [bind]. destruct (ie_deriv x r (tp_ie _ Tr) _ Hb3) as [E3 _]. rewrite E3. cbn [bind].
  apply IHn; [lia|lia|exact I0|exact (tp_deriv x r Tr _ Hb3)|exact H].
Qed.
