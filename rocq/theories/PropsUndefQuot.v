(** * PropsUndefQuot: where derivatives of quotients have values, in debug builds (C104) *)
From Coq Require Import ZArith QArith Qreals Reals Lra List String Bool Lia.
From Verif Require Import Base Float Rational SmartNum Ast Compute Limit Spec SpecTree SpecR SpecInt SpecUndef.
From Verif Require Import BaseProofs NumProofs TreeProofs TreeProofs2 TreeProofs3 ExactProofs IntProofs RealProofs.
From Verif Require Import PropsNum PropsTree PropsReal PropsInt PropsUndef PropsUndefInt PropsUndefDer.
Import ListNotations.
Open Scope Z_scope.

Lemma tp_subterm p s : trig_poly p -> subterm s p -> trig_poly s.
Proof.
  intros T. revert s. induction T; intros s Hs;
    try (apply subterm_mk2 in Hs as [->|[Hs|Hs]]; [constructor; assumption|auto|auto]);
    try (apply subterm_mk1 in Hs as [->|Hs]; [constructor; assumption|auto]);
    apply sub_leaf in Hs; subst s; [apply tp_num; assumption|apply tp_var].
Qed.
Lemma tp_total p : trig_poly p -> total p.
Proof. intros T. split; [|split]; apply (tp_ops p _ T); cbn [In]; tauto. Qed.
Lemma tp_no t p a b : trig_poly p -> In t [OExp; OLn; ODiv; OPow] -> ~ subterm (mk2 t a b) p.
Proof. intros T Ht H. apply (tp_ops p t T Ht). do 2 eexists. split; [apply descriptor_gen|exact H]. Qed.
Lemma tp_no1 t p a : trig_poly p -> In t [OExp; OLn; ODiv; OPow] -> ~ subterm (mk1 t a) p.
Proof. intros T Ht H. apply (tp_ops p t T Ht). do 2 eexists. split; [apply descriptor_gen|exact H]. Qed.

Lemma square_not_constant v : not_constant v -> not_constant (e_mul v v).
Proof.
  intros N w H. unfold e_mul in H. rewrite agg_mk2 in H by reflexivity. do 2 inv_bind H.
  rewrite Hb in Hb0. injection Hb0 as <-. pose proof (N _ Hb) as Na.
  pose proof (rule2_ar _ OMul _ _ _ eq_refl H) as A.
  assert (is_zero a = false) as Za.
  { destruct (is_zero a) eqn:Z; [|reflexivity]. destruct (is_zero_inv _ Z) as (n & c & -> & _). discriminate Na. }
  inversion A; subst; try assumption; try discriminate Na; try reflexivity.
  match goal with K : is_zero _ || is_zero _ = true |- _ => rewrite Za in K; discriminate K end.
Qed.

(** In a debug build, unless it is the literal 0, the derivative of u / v, with u and v built
    from i64 literals and variables by + - * negation, sin and cos, and v not simplifying to a
    number, has a value exactly where v is not 0, that is, where u / v has one. *)
Theorem c104_quotient rho x u v d : trig_poly u -> trig_poly v -> not_constant v ->
  derivative Debug (e_div u v) (e_var x) = Ok (ROk d) -> is_zero d = false ->
  (defined rho d <-> defined rho (e_div u v)) /\ (defined rho d <-> eval rho v <> Some 0%R).
Proof.
  intros Tu Tv Nv H Zd. unfold derivative in H. cbn [to_variable root e_var] in H. inv_bind H. injection H as ->.
  unfold e_div in Hb. rewrite deriv_mk2 in Hb by reflexivity. inv_bind Hb. rename Hb0 into Dv.
  inv_bind Hb. rename Hb0 into Du. cbn [raw2] in Hb.
  pose proof (tp_deriv x v Tv _ Dv) as Tdv. pose proof (tp_deriv x u Tu _ Du) as Tdu.
  set (num := e_sub (e_mul a0 v) (e_mul u a)) in *.
  assert (trig_poly num) as Tn by (apply tp_sub; apply tp_mul; assumption).
  assert (trig_poly (e_mul v v)) as Tvv by (apply tp_mul; assumption).
  unfold e_div in Hb. rewrite agg_mk2 in Hb by reflexivity. inv_bind Hb. rename a1 into wz. rename Hb0 into Ew.
  inv_bind Hb. rename a1 into nz. rename Hb0 into En.
  pose proof (square_not_constant v Nv wz Ew) as Nw.
  pose proof (rule2_ar _ ODiv _ _ _ eq_refl Hb) as Ar.
  assert (is_zero nz = false) as Zn.
  { inversion Ar; subst; [discriminate Nw|discriminate Zd|assumption]. }
  assert (num_aggregate Debug (e_div num (e_mul v v)) = Ok d) as Ed.
  { unfold e_div. rewrite agg_mk2 by reflexivity. rewrite Ew, En. exact Hb. }
  assert (eval rho d = eval rho (e_div num (e_mul v v))) as E.
  { refine (c22_debug_integers rho (e_div num (e_mul v v)) d _ _ _ _ _ Ed).
    - apply ie_div; [apply tp_ie; exact Tn|apply tp_ie; exact Tvv|exact (square_not_constant v Nv)].
    - intros p q S. unfold e_div in S. apply subterm_mk2 in S as [S|[S|S]]; [discriminate S| |].
      + pose proof (tp_subterm _ _ Tn S) as T. inversion T; subst. split; apply tp_total; assumption.
      + pose proof (tp_subterm _ _ Tvv S) as T. inversion T; subst. split; apply tp_total; assumption.
    - intros p q p' S Hp. unfold e_div in S. apply subterm_mk2 in S as [S|[S|S]].
      + injection S as -> ->. rewrite En in Hp. injection Hp as <-. exact Zn.
      + exfalso. exact (tp_no ODiv _ p q Tn ltac:(cbn [In]; tauto) S).
      + exfalso. exact (tp_no ODiv _ p q Tvv ltac:(cbn [In]; tauto) S).
    - intros p S. exfalso. unfold e_div in S. apply subterm_mk2 in S as [S|[S|S]]; [discriminate S| |].
      + exact (tp_no1 OExp _ p Tn ltac:(cbn [In]; tauto) S).
      + exact (tp_no1 OExp _ p Tvv ltac:(cbn [In]; tauto) S).
    - intros p q S. exfalso. unfold e_div in S. apply subterm_mk2 in S as [S|[S|S]]; [discriminate S| |].
      + exact (tp_no OPow _ p q Tn ltac:(cbn [In]; tauto) S).
      + exact (tp_no OPow _ p q Tvv ltac:(cbn [In]; tauto) S). }
  destruct (tp_defined rho u Tu) as [uv Vu]. destruct (tp_defined rho v Tv) as [vv Vv].
  destruct (tp_defined rho num Tn) as [nv Vn].
  unfold defined. rewrite E. unfold e_div, e_mul. rewrite !eval_mk2, Vu, Vv, Vn. cbn [obind ev2].
  destruct (Req_EM_T vv 0) as [Z|Z].
  - subst vv. destruct (Req_EM_T (0 * 0) 0) as [_|K]; [|exfalso; apply K; ring].
    split; (split; [intros [k K]; discriminate K|]).
    + intros [k K]; discriminate K.
    + intros K. exfalso. apply K. reflexivity.
  - destruct (Req_EM_T (vv * vv) 0) as [K|_].
    { exfalso. apply Rmult_integral in K. tauto. }
    split; (split; [|intros _; eexists; reflexivity]).
    + intros _. eexists; reflexivity.
    + intros _ [= K]. exact (Z K).
Qed.
Print Assumptions c104_quotient.

(** *** the hypotheses are met: sin x / x *)
Example c104_quotient_example rho :
  trig_poly (e_sin (e_var "x"%string)) /\ trig_poly (e_var "x"%string) /\ not_constant (e_var "x"%string) /\
  exists d, derivative Debug (e_div (e_sin (e_var "x"%string)) (e_var "x"%string)) (e_var "x"%string) = Ok (ROk d) /\
    is_zero d = false /\ (rho "x"%string = 0%R -> ~ defined rho d) /\ (rho "x"%string = 1%R -> defined rho d).
Proof.
  assert (trig_poly (e_sin (e_var "x"%string)) /\ trig_poly (e_var "x"%string)) as [T1 T2] by (split; repeat constructor).
  assert (not_constant (e_var "x"%string)) as N by (intros z H; injection H as <-; reflexivity).
  split; [exact T1|]. split; [exact T2|]. split; [exact N|].
  eexists. split; [vm_compute; reflexivity|]. split; [reflexivity|].
  match goal with |- (_ -> ~ defined rho ?d) /\ _ =>
    destruct (c104_quotient rho "x"%string _ _ d T1 T2 N ltac:(vm_compute; reflexivity) eq_refl) as [_ Q] end.
  rewrite Q. unfold e_var. rewrite eval_var. split; intros ->.
  - intros K. apply K. reflexivity.
  - intros [= K]. lra.
Qed.
