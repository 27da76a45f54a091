(** * PropsUndefInt: simplification keeps undefinedness, for integer expressions in a debug build (C22) *)
From Coq Require Import ZArith QArith Qreals Reals Lra List String Bool Lia.
From Verif Require Import Base Float Rational SmartNum Ast Compute Limit Spec SpecTree SpecR SpecInt SpecUndef.
From Verif Require Import BaseProofs NumProofs TreeProofs TreeProofs2 TreeProofs3 ExactProofs IntProofs RealProofs.
From Verif Require Import PropsNum PropsTree PropsReal PropsInt PropsUndef.
Import ListNotations.
Open Scope Z_scope.

Lemma ie_subterm e s : int_expr e -> subterm s e -> int_expr s.
Proof.
  intros I. revert s. induction I; intros s Hs;
  try (apply subterm_mk2 in Hs as [->|[Hs|Hs]]; [constructor; assumption|auto|auto]);
  try (apply subterm_mk1 in Hs as [->|Hs]; [constructor; assumption|auto]);
  apply sub_leaf in Hs; subst s.
  - apply ie_num. assumption.
  - apply ie_var.
Qed.

Lemma total_defined rho e : int_expr e -> total e -> defined rho e.
Proof.
  intros I T. unfold defined.
  assert (forall t a, total (mk1 t a) -> t <> ODiv /\ t <> OLn /\ t <> OPow /\ total a) as T1.
  { intros t a (H1 & H2 & H3). apply no_op_mk1 in H1 as [], H2 as [], H3 as []. unfold total. tauto. }
  assert (forall t a b, total (mk2 t a b) -> total a /\ total b) as T2.
  { intros t a b (H1 & H2 & H3). apply no_op_mk2 in H1 as [], H2 as [], H3 as []. unfold total. tauto. }
  induction I; unfold e_neg, e_sin, e_cos, e_exp, e_ln, e_add, e_sub, e_mul, e_div, e_pow in *.
  - eexists. unfold e_of_i64, e_num. rewrite eval_num. apply num_R_int.
  - eexists. apply eval_var.
  - destruct (T1 _ _ T) as (_ & _ & _ & K). destruct (IHI K) as [v V]. rewrite eval_mk1, V. eexists; reflexivity.
  - destruct (T1 _ _ T) as (_ & _ & _ & K). destruct (IHI K) as [v V]. rewrite eval_mk1, V. eexists; reflexivity.
  - destruct (T1 _ _ T) as (_ & _ & _ & K). destruct (IHI K) as [v V]. rewrite eval_mk1, V. eexists; reflexivity.
  - destruct (T1 _ _ T) as (_ & _ & _ & K). destruct (IHI K) as [v V]. rewrite eval_mk1, V. eexists; reflexivity.
  - destruct (T1 _ _ T) as (_ & K & _). congruence.
  - destruct (T2 _ _ _ T) as [K1 K2]. destruct (IHI1 K1) as [v V]. destruct (IHI2 K2) as [w W]. rewrite eval_mk2, V, W. eexists; reflexivity.
  - destruct (T2 _ _ _ T) as [K1 K2]. destruct (IHI1 K1) as [v V]. destruct (IHI2 K2) as [w W]. rewrite eval_mk2, V, W. eexists; reflexivity.
  - destruct (T2 _ _ _ T) as [K1 K2]. destruct (IHI1 K1) as [v V]. destruct (IHI2 K2) as [w W]. rewrite eval_mk2, V, W. eexists; reflexivity.
  - exfalso. apply (proj1 T). do 2 eexists. split; [|apply sub_refl]. apply descriptor_gen.
  - exfalso. apply (proj2 (proj2 T)). do 2 eexists. split; [|apply sub_refl]. apply descriptor_gen.
Qed.

(** In a debug build an integer expression whose factors contain no division, logarithm or
    power, whose dividends do not become 0, and whose exponents and power bases contain no
    logarithm, simplifies to an expression with exactly the same value at every point, and
    with none where it has none. *)
Theorem c22_debug_integers rho e z : int_expr e ->
  (forall a b, subterm (e_mul a b) e -> total a /\ total b) ->
  (forall a b a', subterm (e_div a b) e -> num_aggregate Debug a = Ok a' -> is_zero a' = false) ->
  (forall a, subterm (e_exp a) e -> ~ has_op OLn a) ->
  (forall a b, subterm (e_pow a b) e -> ~ has_op OLn a) ->
  num_aggregate Debug e = Ok z -> eval rho z = eval rho e.
Proof.
  intros I Hm Hd He Hp H. destruct (proj1 (c66_lossless e I) z H) as [S _].
  apply (c22_same_domain rho e z (ie_wf e I) (ie_avoids e I Hp)); [|exact S].
  split; [|split].
  - intros a b K. pose proof (ie_subterm _ _ I K) as IK. destruct (Hm a b K) as [Ta Tb].
    assert (int_expr a /\ int_expr b) as [Ia Ib].
    { split; (apply (ie_subterm _ _ IK); [apply sub_mk2_l || apply sub_mk2_r]) || (eapply ie_subterm; [exact IK|]; first [apply sub_mk2_l|apply sub_mk2_r]). }
    split; intros _; apply total_defined; assumption.
  - intros a b K. split.
    + intros (a' & Ha & Z). apply (agg_mono Strict Debug Logic.I) in Ha.
      rewrite (Hd a b a' K Ha) in Z. discriminate.
    + intros (n & Hn). apply (agg_mono Strict Debug Logic.I) in Hn.
      pose proof (ie_subterm _ _ I K) as IK. inversion IK; subst.
      match goal with N : not_constant b |- _ => specialize (N _ Hn) end. discriminate.
  - intros a u K Ha. exfalso. apply (He a K). apply (agg_mono Strict Debug Logic.I) in Ha.
    destruct (c23_operators Debug a (e_ln u) OLn Ha) as [Q|[Q _]]; [|exact Q|discriminate Q].
    do 2 eexists. split; [|apply sub_refl]. apply descriptor_gen.
Qed.
Print Assumptions c22_debug_integers.

(** *** the hypotheses are met: ln(x + 0) + 2 x, which has a value at x = 1 and none at x = 0 *)
Definition ex_undef_int : expr :=
  e_add (e_ln (e_add (e_var "x"%string) (e_of_i64 0))) (e_mul (e_of_i64 2) (e_var "x"%string)).

Lemma ex_undef_int_sub s : subterm s ex_undef_int ->
  In s [ex_undef_int; e_ln (e_add (e_var "x"%string) (e_of_i64 0)); e_add (e_var "x"%string) (e_of_i64 0);
        e_var "x"%string; e_of_i64 0; e_mul (e_of_i64 2) (e_var "x"%string); e_of_i64 2].
Proof.
  intros H. unfold ex_undef_int, e_add at 1 in H. apply subterm_mk2 in H as [->|[H|H]].
  - left; reflexivity.
  - unfold e_ln in H. apply subterm_mk1 in H as [->|H]; [right; left; reflexivity|].
    unfold e_add in H. apply subterm_mk2 in H as [->|[H|H]]; [do 2 right; left; reflexivity| |];
      apply sub_leaf in H; subst s; [do 3 right; left; reflexivity|do 4 right; left; reflexivity].
  - unfold e_mul in H. apply subterm_mk2 in H as [->|[H|H]]; [do 5 right; left; reflexivity| |];
      apply sub_leaf in H; subst s; [do 6 right; left; reflexivity|do 3 right; left; reflexivity].
Qed.

Example c22_debug_integers_example rho :
  int_expr ex_undef_int /\
  (forall a b, subterm (e_mul a b) ex_undef_int -> total a /\ total b) /\
  (forall a b a', subterm (e_div a b) ex_undef_int -> num_aggregate Debug a = Ok a' -> is_zero a' = false) /\
  (forall a, subterm (e_exp a) ex_undef_int -> ~ has_op OLn a) /\
  (forall a b, subterm (e_pow a b) ex_undef_int -> ~ has_op OLn a) /\
  num_aggregate Debug ex_undef_int = Ok (e_add (e_ln (e_var "x"%string)) (e_mul (e_of_i64 2) (e_var "x"%string))) /\
  (rho "x"%string = 0%R -> eval rho ex_undef_int = None) /\ (rho "x"%string = 1%R -> eval rho ex_undef_int <> None).
Proof.
  assert (forall o t, ~ has_op t (Expr (Operand o) [])) as L.
  { intros o t (op & c & _ & H). apply sub_leaf in H. discriminate H. }
  refine (conj _ (conj _ (conj _ (conj _ (conj _ (conj _ _)))))).
  - apply ie_add; [apply ie_ln; [apply ie_add; [apply ie_var|apply ie_num; reflexivity]|]|apply ie_mul; [apply ie_num; reflexivity|apply ie_var]].
    intros z H. vm_compute in H. injection H as <-. reflexivity.
  - intros a b H. apply ex_undef_int_sub in H. cbn [In] in H.
    destruct H as [H|[H|[H|[H|[H|[H|[H|[]]]]]]]]; try discriminate H. injection H as <- <-.
    split; (split; [|split]); apply L.
  - intros a b a' H. exfalso. apply ex_undef_int_sub in H. cbn [In] in H. decompose [or] H; try contradiction; discriminate.
  - intros a H. exfalso. apply ex_undef_int_sub in H. cbn [In] in H. decompose [or] H; try contradiction; discriminate.
  - intros a b H. exfalso. apply ex_undef_int_sub in H. cbn [In] in H. decompose [or] H; try contradiction; discriminate.
  - vm_compute. reflexivity.
  - assert (forall x, rho "x"%string = x -> eval rho ex_undef_int =
      obind (if Rlt_dec 0 (x + 0) then Some (ln (x + 0)) else None) (fun u => Some (u + 2 * x)%R)) as E.
    { intros x Hx. unfold ex_undef_int, e_add at 1. rewrite eval_mk2. unfold e_mul, e_ln, e_add. rewrite eval_mk1, !eval_mk2.
      unfold e_var, e_of_i64, e_num. rewrite !eval_num, !eval_var, !num_R_int, Hx. cbn [obind ev1 ev2].
      destruct (Rlt_dec 0 (x + 0)); reflexivity. }
    split; intros Hx; rewrite (E _ Hx).
    + destruct (Rlt_dec 0 (0 + 0)); [lra|reflexivity].
    + destruct (Rlt_dec 0 (1 + 0)); [discriminate|lra].
Qed.
