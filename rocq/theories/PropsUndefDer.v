(** * PropsUndefDer: where derivatives have values (C104) *)
From Coq Require Import ZArith QArith Qreals Reals Lra List String Bool Lia.
From Verif Require Import Base Float Rational SmartNum Ast Compute Limit Spec SpecTree SpecR SpecExact SpecHeight SpecUndef.
From Verif Require Import BaseProofs NumProofs TreeProofs TreeProofs2 TreeProofs3 RealProofs PropsNum PropsTree PropsReal PropsHeight.
From Verif Require Import RealTaylor PropsStd PropsTayPow PropsUndef PropsUndefTay.
Import List ListNotations.
Open Scope Z_scope.

(** Where the derivative has a value, so has the function: for every expression whose literals
    have values and whose logarithms are nowhere of negative numbers at this point. *)
Theorem c104_derivative_domain rho x e d :
  wf e -> derivation_keeps_domain rho x e ->
  (forall n, subterm (e_num n) e -> defined rho (e_num n)) ->
  (forall u v, subterm (e_ln u) e -> eval rho u = Some v -> (0 <= v)%R) ->
  derivative Strict e (e_var x) = Ok (ROk d) ->
  defined rho d -> defined rho e.
Proof.
  intros W. unfold derivative. cbn [to_variable root e_var]. intros Hk Hn Hl H. inv_bind H. injection H as ->.
  rename Hb into H. revert d Hk Hn Hl H. unfold defined. pattern e. revert e W. apply wf_ind1.
  - intros n _ d _ Hn _ _ _. apply Hn. constructor.
  - intros y d _ _ _ _ _. eexists. apply eval_var.
  - intros t a Ha Wa IH d Hk Hn Hl H [v V]. rewrite deriv_mk1 in H by assumption. inv_bind H. rename Hb into Da.
    pose proof (deriv_wf _ _ _ _ Wa Da) as Wda.
    assert (formula x (mk1 t a) (raw1 t a a0)) as F.
    { destruct t; try discriminate Ha; constructor; exact Da. }
    destruct (Hk _ _ (sub_refl _) F) as [K1 K2].
    rewrite (c22_same_domain rho _ _ (raw1_wf t a a0 Ha Wa Wda) K1 K2 H) in V.
    assert (forall w, eval rho a0 = Some w -> exists w', eval rho a = Some w') as IH'.
    { intros w Hw. apply (IH a0); [| | |exact Da|eauto].
      - intros s r S F'. apply (Hk s r); [|exact F']. eapply subterm_trans; [exact S|apply sub_mk1].
      - intros n S. apply Hn. eapply subterm_trans; [exact S|apply sub_mk1].
      - intros u w0 S. apply Hl. eapply subterm_trans; [exact S|apply sub_mk1]. }
    rewrite eval_mk1.
    destruct t; try discriminate Ha; cbn [raw1] in V;
      unfold e_neg, e_mul, e_cos, e_sin, e_exp, e_div in V; rewrite ?eval_mk2, ?eval_mk1 in V.
    + destruct (eval rho a0) as [w|]; [|discriminate V]. destruct (IH' w eq_refl) as [w' ->]. eexists; reflexivity.
    + destruct (eval rho a) as [w|]; [|discriminate V]. eexists; reflexivity.
    + destruct (eval rho a) as [w|]; [|discriminate V]. eexists; reflexivity.
    + destruct (eval rho a0); [|discriminate V]. destruct (eval rho a) as [w|]; [|discriminate V]. eexists; reflexivity.
    + destruct (eval rho a0); [|discriminate V]. destruct (eval rho a) as [w|] eqn:E; [|discriminate V].
      pose proof (Hl a w (sub_refl _) E) as P. cbn [obind ev2] in V. destruct (Req_EM_T w 0) as [Z|NZ]; [discriminate V|].
      cbn [obind ev1]. destruct (Rlt_dec 0 w); [eexists; reflexivity|lra].
  - intros t a b Ha Wa Wb IHa IHb d Hk Hn Hl H [v V]. rewrite deriv_mk2 in H by assumption. inv_bind H. rename Hb into Db.
    inv_bind H. rename Hb into Da.
    pose proof (deriv_wf _ _ _ _ Wa Da) as Wda. pose proof (deriv_wf _ _ _ _ Wb Db) as Wdb.
    assert (formula x (mk2 t a b) (raw2 t a b a1 a0)) as F.
    { destruct t; try discriminate Ha; constructor; assumption. }
    destruct (Hk _ _ (sub_refl _) F) as [K1 K2].
    rewrite (c22_same_domain rho _ _ (raw2_wf t a b a1 a0 Ha Wa Wb Wda Wdb) K1 K2 H) in V.
    assert (forall w, eval rho a1 = Some w -> exists w', eval rho a = Some w') as IH1.
    { intros w Hw. apply (IHa a1); [| | |exact Da|eauto].
      - intros s r S F'. apply (Hk s r); [|exact F']. eapply subterm_trans; [exact S|apply sub_mk2_l].
      - intros n S. apply Hn. eapply subterm_trans; [exact S|apply sub_mk2_l].
      - intros u w0 S. apply Hl. eapply subterm_trans; [exact S|apply sub_mk2_l]. }
    assert (forall w, eval rho a0 = Some w -> exists w', eval rho b = Some w') as IH2.
    { intros w Hw. apply (IHb a0); [| | |exact Db|eauto].
      - intros s r S F'. apply (Hk s r); [|exact F']. eapply subterm_trans; [exact S|apply sub_mk2_r].
      - intros n S. apply Hn. eapply subterm_trans; [exact S|apply sub_mk2_r].
      - intros u w0 S. apply Hl. eapply subterm_trans; [exact S|apply sub_mk2_r]. }
    destruct t; try discriminate Ha; cbn [raw2] in V.
    + unfold e_add in V. rewrite eval_mk2 in V. rewrite eval_mk2.
      destruct (eval rho a1) as [w1|]; [|discriminate V]. destruct (eval rho a0) as [w2|]; [|discriminate V].
      destruct (IH1 _ eq_refl) as [? ->]. destruct (IH2 _ eq_refl) as [? ->]. eexists; reflexivity.
    + unfold e_sub in V. rewrite eval_mk2 in V. rewrite eval_mk2.
      destruct (eval rho a1) as [w1|]; [|discriminate V]. destruct (eval rho a0) as [w2|]; [|discriminate V].
      destruct (IH1 _ eq_refl) as [? ->]. destruct (IH2 _ eq_refl) as [? ->]. eexists; reflexivity.
    + unfold e_add, e_mul in V. rewrite !eval_mk2 in V. rewrite eval_mk2.
      destruct (eval rho a1) as [w1|]; [|discriminate V]. destruct (eval rho b) as [w2|]; [|discriminate V].
      destruct (eval rho a) as [w3|]; [|discriminate V]. eexists; reflexivity.
    + unfold e_div, e_sub, e_mul in V. rewrite !eval_mk2 in V. rewrite eval_mk2.
      destruct (eval rho a1) as [w1|]; [|discriminate V]. destruct (eval rho b) as [w2|]; [|discriminate V].
      destruct (eval rho a) as [w3|]; [|discriminate V]. destruct (eval rho a0) as [w4|]; [|discriminate V].
      cbn [obind ev2] in V |- *. destruct (Req_EM_T (w2 * w2) 0) as [Z|NZ]; [discriminate V|].
      destruct (Req_EM_T w2 0) as [Z|_]; [|eexists; reflexivity]. exfalso. apply NZ. rewrite Z. ring.
    + unfold e_mul in V at 1. rewrite eval_mk2 in V. unfold e_pow in V.
      destruct (eval rho (mk2 OPow a b)) as [w|]; [|discriminate V]. eexists; reflexivity.
Qed.
Print Assumptions c104_derivative_domain.

(** Together with C29, where the expression is regular (C29) the two have values at exactly the
    same points. *)
Theorem c104_same_domain rho x t e d :
  wf e -> regular (upd rho x t) x e -> derivation_keeps_domain (upd rho x t) x e ->
  (forall n, subterm (e_num n) e -> defined (upd rho x t) (e_num n)) ->
  (forall u v, subterm (e_ln u) e -> eval (upd rho x t) u = Some v -> (0 <= v)%R) ->
  derivative Strict e (e_var x) = Ok (ROk d) ->
  (defined (upd rho x t) d <-> defined (upd rho x t) e).
Proof.
  intros W R K Hn Hl H. split.
  - exact (c104_derivative_domain _ x e d W K Hn Hl H).
  - intros [v V]. destruct (c29_derivative_correct rho x t e d v W R V H) as (v' & V' & _). exists v'. exact V'.
Qed.
Print Assumptions c104_same_domain.

(** Without the guards it fails, in every build: ln x has no value near any a < 0, its
    derivative 1/x has one at a; and the derivative of an expression without x is the literal
    0 wherever the expression itself has no value. *)
Theorem c104_refuted m rho x a : (a < 0)%R ->
  exists d, derivative m (e_ln (e_var x)) (e_var x) = Ok (ROk d) /\
    eval (upd rho x a) d = Some (1 / a)%R /\
    forall t, (Rabs (t - a) < - a)%R -> eval (upd rho x t) (e_ln (e_var x)) = None.
Proof.
  intros Ha. exists (e_div e_one (e_var x)). split; [|split].
  - unfold derivative. cbn. rewrite String.eqb_refl. destruct m; reflexivity.
  - unfold e_div, e_var. rewrite eval_mk2, eval_one, eval_var, upd_same. cbn [obind ev2].
    destruct (Req_EM_T a 0); [lra|reflexivity].
  - intros t Ht. unfold e_ln, e_var. rewrite eval_mk1, eval_var, upd_same. cbn [obind ev1].
    destruct (Rlt_dec 0 t) as [P|_]; [|reflexivity]. exfalso.
    pose proof (Rle_abs (t - a)). lra.
Qed.
Print Assumptions c104_refuted.

Theorem c104_constants_refuted rho x e : wf e -> ~ occurs x e -> eval rho e = None ->
  exists d, derivative Release e (e_var x) = Ok (ROk d) /\ eval rho d = Some 0%R.
Proof.
  intros W Hx _. exists e_zero. split; [exact (c30_constant_release e x W Hx)|apply eval_zero].
Qed.
Print Assumptions c104_constants_refuted.

(** *** the hypotheses are met: 1/x, at 0 (no value) and at 2 *)
Lemma recip_sub s x : subterm s (e_div e_one (e_var x)) -> In s [e_div e_one (e_var x); e_one; e_var x].
Proof.
  intros H. unfold e_div in H. apply subterm_mk2 in H as [->|[H|H]]; [left; reflexivity| |];
    apply sub_leaf in H; subst s; [right; left|do 2 right; left]; reflexivity.
Qed.
Lemma recip_formula_sub s x :
  subterm s (e_div (e_sub (e_mul e_zero (e_var x)) (e_mul e_one e_one)) (e_mul (e_var x) (e_var x))) ->
  In s [e_div (e_sub (e_mul e_zero (e_var x)) (e_mul e_one e_one)) (e_mul (e_var x) (e_var x));
        e_sub (e_mul e_zero (e_var x)) (e_mul e_one e_one); e_mul (e_var x) (e_var x);
        e_mul e_zero (e_var x); e_mul e_one e_one; e_zero; e_one; e_var x].
Proof.
  intros H. unfold e_div in H. apply subterm_mk2 in H as [->|[H|H]]; [left; reflexivity| |].
  - unfold e_sub in H. apply subterm_mk2 in H as [->|[H|H]]; [right; left; reflexivity| |];
      unfold e_mul in H; apply subterm_mk2 in H as [->|[H|H]]; try (apply sub_leaf in H; subst s); cbn [In]; tauto.
  - unfold e_mul in H; apply subterm_mk2 in H as [->|[H|H]]; try (apply sub_leaf in H; subst s); cbn [In]; tauto.
Qed.

Ltac no_sub H := exfalso; cbn [In] in H; decompose [or] H; try contradiction; discriminate.

Example c104_example rho :
  let e := e_div e_one (e_var "x"%string) in
  wf e /\ derivation_keeps_domain rho "x"%string e /\
  (forall n, subterm (e_num n) e -> defined rho (e_num n)) /\
  (forall u v, subterm (e_ln u) e -> eval rho u = Some v -> (0 <= v)%R) /\
  (exists d, derivative Strict e (e_var "x"%string) = Ok (ROk d)) /\
  (rho "x"%string = 0%R -> ~ defined rho e) /\ (rho "x"%string = 2%R -> defined rho e).
Proof.
  intros e. refine (conj _ (conj _ (conj _ (conj _ (conj _ _))))).
  - apply wf_mk2; [reflexivity|apply wf_one|apply wf_var].
  - intros s r S F. apply recip_sub in S. cbn [In] in S.
    destruct S as [S|[S|[S|[]]]]; subst s; inversion F; subst.
    repeat match goal with
    | K : deriv Strict _ e_one = Ok ?u |- _ => change (Ok e_zero = Ok u) in K; injection K as <-
    | K : deriv Strict _ (e_var _) = Ok ?u |- _ => change (Ok e_one = Ok u) in K; injection K as <-
    end.
    split; [split|split; [|split]].
    + intros a b a' H. apply recip_formula_sub in H. no_sub H.
    + intros a a' H. apply recip_formula_sub in H. no_sub H.
    + intros a b H.
      assert (forall c, In c [e_zero; e_one; e_var "x"%string] -> defined rho c) as Dc.
      { intros c [<-|[<-|[<-|[]]]]; eexists; [apply eval_zero|apply eval_one|apply eval_var]. }
      assert (In a [e_zero; e_one; e_var "x"%string] /\ In b [e_zero; e_one; e_var "x"%string]) as [A B].
      { apply recip_formula_sub in H. cbn [In] in H |- *. decompose [or] H; try contradiction; try discriminate;
          match goal with K : _ = e_mul a b |- _ => injection K as <- <- end; tauto. }
      split; intros _; apply Dc; assumption.
    + intros a b H.
      assert (a = e_sub (e_mul e_zero (e_var "x"%string)) (e_mul e_one e_one) /\ b = e_mul (e_var "x"%string) (e_var "x"%string)) as [-> ->].
      { apply recip_formula_sub in H. cbn [In] in H. decompose [or] H; try contradiction; try discriminate.
        match goal with K : _ = e_div a b |- _ => injection K as <- <- end. split; reflexivity. }
      split.
      * intros (z & B & Z). vm_compute in B. injection B as <-. vm_compute in Z. discriminate Z.
      * intros (n & B). vm_compute in B. discriminate B.
    + intros a u H. apply recip_formula_sub in H. no_sub H.
  - intros n S. apply recip_sub in S. cbn [In] in S. destruct S as [S|[S|[S|[]]]]; try discriminate S.
    rewrite <- S. eexists. apply eval_one.
  - intros u v S. apply recip_sub in S. no_sub S.
  - eexists. vm_compute. reflexivity.
  - split; intros X.
    + intros [v V]. unfold e, e_div, e_var in V. rewrite eval_mk2, eval_one, eval_var, X in V. cbn [obind ev2] in V.
      destruct (Req_EM_T 0 0); [discriminate V|lra].
    + unfold defined, e, e_div, e_var. rewrite eval_mk2, eval_one, eval_var, X. cbn [obind ev2].
      destruct (Req_EM_T 2 0); [lra|eexists; reflexivity].
Qed.
