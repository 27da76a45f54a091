(** * PropsEntire: limits that always exist (C58) *)
From Coq Require Import ZArith QArith List String Bool Lia.
From Coq Require Import Reals Lra.
From Verif Require Import Base Float Rational SmartNum Ast Compute Limit Spec SpecTree SpecShape SpecR SpecLim SpecLim2.
From Verif Require Import BaseProofs RationalProofs NumProofs NumProofs2 TreeProofs TreeProofs2 TreeProofs3 TreeProofs4 TreeProofs5
  LimTerm LimTerm2 ShapeProofs.
From Verif Require Import PropsTree.
Import ListNotations.
Open Scope string_scope.
Open Scope Z_scope.

Lemma entire_wf x e : entire x e -> wf e.
Proof.
  induction 1 as [n H|y|a b Ha IHa Hb IHb|a b Ha IHa Hb IHb|a Ha|a Ha|a n Ha IHa Hn Hz|a y Ha IHa Ny].
  - constructor. exact H.
  - constructor.
  - apply wf_mk2; [reflexivity|assumption|assumption].
  - apply wf_mk2; [reflexivity|assumption|assumption].
  - apply wf_mk1; [reflexivity|assumption].
  - apply wf_mk1; [reflexivity|assumption].
  - apply wf_mk2; [reflexivity|assumption|constructor; exact Hn].
  - apply wf_mk2; [reflexivity|assumption|constructor].
Qed.

(** values, never an error, Infinity or BoundedFluctuation *)
Definition fin (l : lres) : Prop :=
  match l with ROk Infinitesimal => True | ROk (Normal z) => wf z | _ => False end.
Definition outcome (m : mode) (r : res lres) : Prop :=
  safe m r /\ forall l, r = Ok l -> fin l.

Lemma out_ok m l : fin l -> outcome m (Ok l).
Proof. intros H. split; [destruct m; exact I|]. intros l' [= <-]. exact H. Qed.
Lemma out_bind {A} m (r : res A) k : safe m r -> (forall a, r = Ok a -> outcome m (k a)) -> outcome m (bind r k).
Proof.
  intros S H. destruct r as [a| | |]; cbn [bind].
  - apply H. reflexivity.
  - split; [exact S|discriminate].
  - split; [exact S|discriminate].
  - split; [exact S|discriminate].
Qed.
Lemma out_qbind m r (k : lexpr -> res lres) : outcome m r -> (forall a, fin (ROk a) -> outcome m (k a)) -> outcome m (qbind r k).
Proof.
  intros [S F] H. apply out_bind; [exact S|]. intros [a|e] E; specialize (F _ E); [apply H; exact F|destruct F].
Qed.

Lemma limit_entire m x to ord e : wf to -> 0 <= ord -> entire x e ->
  forall fuel, (depth e <= fuel)%nat -> outcome m (limit_var fuel m x to ord e).
Proof.
  intros Wt Ho. induction 1 as [n H|y|a b Ha IHa Hb IHb|a b Ha IHa Hb IHb|a Ha|a Ha|a n Ha IHa Hn Hz|a y Ha IHa Ny];
    intros fuel L; (destruct fuel as [|fuel]; [cbn in L; lia|]); cbn [limit_var];
    (apply out_qbind; [|intros [| | |z] F; try (apply out_ok; exact F);
      apply out_bind; [apply agg_safe; exact F|intros z' E; apply out_ok; exact (agg_wf _ _ _ F E)]]).
  - apply out_ok. constructor. exact H.
  - unfold limit_rule. cbn [root e_var]. destruct (String.eqb y x); [destruct (is_zero to)|]; apply out_ok; [exact I|exact Wt|constructor].
  - unfold e_add in L. rewrite depth_mk2 in L.
    unfold limit_rule, add_limit_expr_rule. cbn [root e_add mk2 gen_op descriptor child pop_unwrap pop bind].
    apply out_qbind; [apply IHb; lia|]. intros lb Fb. apply out_qbind; [apply IHa; lia|]. intros la Fa.
    destruct la, lb; cbn [l_add fin] in *; try (destruct Fa; fail); try (destruct Fb; fail); apply out_ok; cbn [fin]; try assumption.
    apply wf_mk2; [reflexivity|assumption|assumption].
  - unfold e_mul in L. rewrite depth_mk2 in L.
    unfold limit_rule, mul_limit_expr_rule. cbn [root e_mul mk2 gen_op descriptor child pop_unwrap pop bind].
    apply out_qbind; [apply IHb; lia|]. intros lb Fb. apply out_qbind; [apply IHa; lia|]. intros la Fa.
    destruct la, lb; cbn [l_mul fin] in *; try (destruct Fa; fail); try (destruct Fb; fail); apply out_ok; cbn [fin]; try exact I.
    apply wf_mk2; [reflexivity|assumption|assumption].
  - unfold limit_rule. cbn [root e_sin mk1 gen_op descriptor]. unfold sin_limit_expr_rule. destruct (is_zero to); [apply out_ok; exact I|].
    assert (wf (subst x to (e_sin a))) as W by (apply subst_wf; [apply wf_mk1; [reflexivity|exact Ha]|exact Wt]).
    unfold subst_limit. apply out_bind; [apply agg_safe; exact W|]. intros z E. apply out_ok.
    destruct (is_zero z); [exact I|exact (agg_wf _ _ _ W E)].
  - unfold limit_rule. cbn [root e_cos mk1 gen_op descriptor]. unfold cos_limit_expr_rule.
    assert (wf (subst x to (e_cos a))) as W by (apply subst_wf; [apply wf_mk1; [reflexivity|exact Ha]|exact Wt]).
    unfold subst_limit. apply out_bind; [apply agg_safe; exact W|]. intros z E. apply out_ok.
    destruct (is_zero z); [exact I|exact (agg_wf _ _ _ W E)].
  - unfold e_div in L. rewrite depth_mk2 in L. pose proof (depth_1 a) as La. destruct fuel as [|fuel]; [lia|].
    unfold limit_rule, div_limit_expr_rule. cbn [root e_div mk2 gen_op descriptor child pop_unwrap pop bind].
    replace (Z.to_nat (ord + 1)) with (S (Z.to_nat ord)) by lia. cbn [div_loop].
    apply out_qbind; [apply IHa; lia|]. intros la Fa.
    change (limit_var (S fuel) m x to ord (e_num n)) with (@Ok lres (ROk (Normal (e_num n)))). cbn [qbind bind].
    assert (is_zero (e_num n) = false) as Z by exact Hz.
    destruct la; cbn [l_div fin] in *; try (destruct Fa; fail); rewrite ?Z; apply out_ok; cbn [fin]; try exact I.
    apply wf_mk2; [reflexivity|assumption|constructor; exact Hn].
  - unfold e_div in L. rewrite depth_mk2 in L. pose proof (depth_1 a) as La. destruct fuel as [|fuel]; [lia|].
    unfold limit_rule, div_limit_expr_rule. cbn [root e_div mk2 gen_op descriptor child pop_unwrap pop bind].
    replace (Z.to_nat (ord + 1)) with (S (Z.to_nat ord)) by lia. cbn [div_loop].
    apply out_qbind; [apply IHa; lia|]. intros la Fa.
    assert (limit_var (S fuel) m x to ord (e_var y) = Ok (ROk (Normal (e_var y)))) as ->.
    { cbn [limit_var]. unfold limit_rule. cbn [root e_var]. apply String.eqb_neq in Ny. rewrite Ny. reflexivity. }
    cbn [qbind bind].
    destruct la; cbn [l_div fin] in *; try (destruct Fa; fail); cbn [is_zero lift_od root e_var od_is_zero]; apply out_ok; cbn [fin]; try exact I.
    apply wf_mk2; [reflexivity|assumption|constructor].
Qed.

(** ** C58 sums, products and constant multiples of sines, cosines and variables *)
(** a release build always returns a value, 0 or an expression, never an error *)
Theorem c58_release_returns x e to ord fuel : entire x e -> wf to -> 0 <= ord -> (depth e <= fuel)%nat ->
  exists z, limit fuel Release e (e_var x) to ord = Ok (ROk z) /\
    (z = Infinitesimal \/ exists w, z = Normal w /\ wf w).
Proof.
  intros E Wt Ho L. destruct (limit_entire Release x to ord e Wt Ho E fuel L) as [S F].
  change (limit fuel Release e (e_var x) to ord) with (limit_var fuel Release x to ord e).
  destruct (limit_var fuel Release x to ord e) as [r| | |]; try discriminate; [|destruct S].
  specialize (F r eq_refl). destruct r as [[| | |w]|]; try (destruct F; fail); eexists; eauto.
Qed.
Print Assumptions c58_release_returns.

(** a debug build returns such a value or panics (on an integer overflow while simplifying) *)
Theorem c58_debug x e to ord fuel : entire x e -> wf to -> 0 <= ord -> (depth e <= fuel)%nat ->
  limit fuel Debug e (e_var x) to ord = Panic \/
  exists z, limit fuel Debug e (e_var x) to ord = Ok (ROk z) /\
    (z = Infinitesimal \/ exists w, z = Normal w /\ wf w).
Proof.
  intros E Wt Ho L. destruct (limit_entire Debug x to ord e Wt Ho E fuel L) as [S F].
  change (limit fuel Debug e (e_var x) to ord) with (limit_var fuel Debug x to ord e).
  destruct (limit_var fuel Debug x to ord e) as [r| | |]; [|left; reflexivity|discriminate|destruct S].
  right. specialize (F r eq_refl). destruct r as [[| | |w]|]; try (destruct F; fail); eexists; eauto.
Qed.
Print Assumptions c58_debug.

(** 3*x*cos(exp(x)/y)/2 + x*x/y at y+1 *)
Definition ex_ent : expr :=
  e_add (e_div (e_mul (e_mul (e_of_i64 3) ex_x) (e_cos (e_div (e_exp ex_x) ex_y))) (e_of_i64 2)) (e_div (e_mul ex_x ex_x) ex_y).
Example c58_example : entire "x" ex_ent /\ wf (e_add ex_y e_one) /\ depth ex_ent = 7%nat /\
  exists w, limit 7 Release ex_ent ex_x (e_add ex_y e_one) 0 = Ok (ROk (Normal w)).
Proof.
  split; [|split; [|split]].
  - unfold ex_ent. apply en_add; [apply en_div_num; [|apply sn_of_i64_ok; reflexivity|reflexivity]|apply en_div_var; [|discriminate]].
    + apply en_mul; [apply en_mul; [apply en_num, sn_of_i64_ok; reflexivity|apply en_var]|].
      apply en_cos. apply wf_mk2; [reflexivity|apply wf_mk1; [reflexivity|constructor]|constructor].
    + apply en_mul; apply en_var.
  - apply wf_mk2; [reflexivity|constructor|apply wf_one].
  - reflexivity.
  - eexists. vm_compute. reflexivity.
Qed.
(** dividing by x is not in the class, and can fail *)
Example c58_outside : limit 9 Release (e_div ex_x ex_x) ex_x e_zero 0 = Ok lerr.
Proof. vm_compute. reflexivity. Qed.
