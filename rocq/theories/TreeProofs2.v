(** * TreeProofs2: well-formedness, totality, size, variables, idempotence *)
From Coq Require Import ZArith List String Bool Lia.
From Verif Require Import Base Float Rational SmartNum Ast Compute Spec.
From Verif Require Import BaseProofs RationalProofs NumProofs NumProofs2 TreeProofs.
Import ListNotations.
Open Scope Z_scope.
Open Scope res_scope.

(** ** wf is preserved *)
Lemma wf_num' n : num_ok n -> wf (e_num n).
Proof. intros; constructor; assumption. Qed.
Lemma wf_zero : wf e_zero. Proof. apply wf_num', sn_of_i64_ok. reflexivity. Qed.
Lemma wf_one : wf e_one. Proof. apply wf_num', sn_of_i64_ok. reflexivity. Qed.
Lemma wf_e : wf e_e. Proof. apply wf_num'. split; reflexivity. Qed.

Lemma wf_last op r c : wf (Expr (Operator op) (r ++ [c])) -> wf c.
Proof.
  intros W. apply wf_op_inv in W as (_ & [(_ & a & E & Wa)|(_ & a & b & E & Wa & Wb)]).
  - apply (app_inj_tail r []) in E as [_ ->]. assumption.
  - apply (app_inj_tail r [a]) in E as [_ ->]. assumption.
Qed.

Lemma sn_op_ok m t x y z : num_ok x -> num_ok y -> sn_op m t x y = Ok z -> num_ok z.
Proof.
  destruct t; simpl; eauto using sn_add_ok, sn_sub_ok, sn_mul_ok, sn_div_ok.
Qed.

Ltac wf_build := first [assumption | apply wf_zero | apply wf_one | apply wf_e
                       | apply wf_mk1; [reflexivity|assumption]
                       | apply wf_mk2; [reflexivity|assumption|assumption] ].

Lemma ar1_wf m t a z : wf a -> ar1 m t a z -> wf z.
Proof.
  intros W H. destruct H; try wf_build; try (eapply wf_last; eassumption).
  apply wf_num'. apply wf_operand_inv in W as [_ W]. eapply sn_neg_ok; eauto.
Qed.
Lemma ar2_wf m t l r z : wf l -> wf r -> ar2 m t l r z -> wf z.
Proof.
  intros Wl Wr H. destruct H; try wf_build; try (eapply wf_last; eassumption).
  apply wf_num'. apply wf_operand_inv in Wl as [_ Wl], Wr as [_ Wr]. exact (sn_op_ok _ _ _ _ _ Wl Wr H0).
Qed.

Lemma agg_wf m e z : wf e -> num_aggregate m e = Ok z -> wf z.
Proof.
  intros W. revert z. pattern e. revert e W. apply wf_ind1.
  - intros n Hn z [= <-]. constructor; assumption.
  - intros x z [= <-]. constructor.
  - intros t a Ha Wa IH z H. rewrite agg_mk1 in H by assumption. inv_bind H.
    apply rule1_ar in H; [|assumption]. eapply ar1_wf; [|eassumption]. auto.
  - intros t a b Ha Wa Wb IHa IHb z H. rewrite agg_mk2 in H by assumption. do 2 inv_bind H.
    apply rule2_ar in H; [|assumption]. eapply ar2_wf; [| |eassumption]; auto.
Qed.

Lemma subst_wf x v e : wf e -> wf v -> wf (subst x v e).
Proof.
  intros W Wv. revert e W. apply wf_ind1.
  - intros n Hn. constructor; assumption.
  - intros y. simpl. destruct (String.eqb y x); [assumption|constructor].
  - intros t a Ha Wa IH. change (wf (mk1 t (subst x v a))). apply wf_mk1; assumption.
  - intros t a b Ha Wa Wb IHa IHb. change (wf (mk2 t (subst x v a) (subst x v b))).
    apply wf_mk2; assumption.
Qed.

(** ** derivative: the raw result of each rule *)
Definition raw1 (t : optype) (u du : expr) : expr :=
  match t with
  | ONeg => e_neg du
  | OSin => e_mul (e_cos u) du
  | OCos => e_mul (e_neg (e_sin u)) du
  | OExp => e_mul du (e_exp u)
  | _ => e_div du u
  end.
Definition raw2 (t : optype) (u v du dv : expr) : expr :=
  match t with
  | OAdd => e_add du dv
  | OSub => e_sub du dv
  | OMul => e_add (e_mul du v) (e_mul u dv)
  | ODiv => e_div (e_sub (e_mul du v) (e_mul u dv)) (e_mul v v)
  | _ => e_mul (e_pow u v) (e_add (e_mul dv (e_ln u)) (e_div (e_mul v du) u))
  end.

Lemma deriv_mk1 m x t a : arity t = 1%nat ->
  deriv m x (mk1 t a) = let* da := deriv m x a in num_aggregate m (raw1 t a da).
Proof.
  intros H. unfold mk1. cbn [deriv]. rewrite descriptor_gen. cbn [map].
  destruct t; try discriminate; destruct (deriv m x a); reflexivity.
Qed.
Lemma deriv_mk2 m x t a b : arity t = 2%nat ->
  deriv m x (mk2 t a b) =
    let* db := deriv m x b in let* da := deriv m x a in num_aggregate m (raw2 t a b da db).
Proof.
  intros H. unfold mk2. cbn [deriv]. rewrite descriptor_gen. cbn [map].
  destruct t; try discriminate; destruct (deriv m x b); try reflexivity;
    destruct (deriv m x a); reflexivity.
Qed.
Lemma deriv_num m x n : deriv m x (Expr (Operand (Num n)) []) = Ok e_zero.
Proof. reflexivity. Qed.
Lemma deriv_var m x y : deriv m x (Expr (Operand (Var y)) []) =
  Ok (if String.eqb x y then e_one else e_zero).
Proof. simpl. destruct (String.eqb x y); reflexivity. Qed.

Ltac wf_deep := repeat first [assumption | apply wf_zero | apply wf_one | apply wf_e
                       | apply wf_mk1; [reflexivity|] | apply wf_mk2; [reflexivity| |] ].

Lemma raw1_wf t u du : arity t = 1%nat -> wf u -> wf du -> wf (raw1 t u du).
Proof. intros H Wu Wd. destruct t; try discriminate; unfold raw1; wf_deep. Qed.
Lemma raw2_wf t u v du dv : arity t = 2%nat -> wf u -> wf v -> wf du -> wf dv -> wf (raw2 t u v du dv).
Proof. intros H Wu Wv Wdu Wdv. destruct t; try discriminate; unfold raw2; wf_deep. Qed.

Lemma deriv_wf m x e d : wf e -> deriv m x e = Ok d -> wf d.
Proof.
  intros W. revert d. pattern e. revert e W. apply wf_ind1.
  - intros n Hn d [= <-]. apply wf_zero.
  - intros y d. rewrite deriv_var. intros [= <-]. destruct (String.eqb x y); [apply wf_one|apply wf_zero].
  - intros t a Ha Wa IH d H. rewrite deriv_mk1 in H by assumption. inv_bind H.
    eapply agg_wf; [|eassumption]. apply raw1_wf; auto.
  - intros t a b Ha Wa Wb IHa IHb d H. rewrite deriv_mk2 in H by assumption. do 2 inv_bind H.
    eapply agg_wf; [|eassumption]. apply raw2_wf; auto.
Qed.

(** ** which outcomes are possible: a panic only in debug, a trap only in Strict *)
Definition safe {A} (m : mode) (r : res A) : Prop :=
  match r with Ok _ => True | Panic => m = Debug | Trap => m = Strict | Fuel => False end.

Lemma safe_ok {A} m (a : A) : safe m (Ok a). Proof. exact I. Qed.
Lemma safe_bind {A B} m (r : res A) (f : A -> res B) :
  safe m r -> (forall a, r = Ok a -> safe m (f a)) -> safe m (bind r f).
Proof. destruct r; simpl; intros H1 H2; auto. Qed.
Lemma safe_ovf_i64 m z : safe m (ovf_i64 m z).
Proof. unfold ovf_i64. destruct (in_i64 z), m; simpl; auto. Qed.
Lemma safe_ovf_u64 m z : safe m (ovf_u64 m z).
Proof. unfold ovf_u64. destruct (in_u64 z), m; simpl; auto. Qed.
Lemma safe_cast_i64 m z : safe m (cast_i64 m z).
Proof. unfold cast_i64. destruct (in_i64 z), m; simpl; auto. Qed.
Lemma safe_cast_u64 m z : safe m (cast_u64 m z).
Proof. unfold cast_u64. destruct (in_u64 z), m; simpl; auto. Qed.
Lemma safe_trap m b r : safe m (trap_unless m b r).
Proof. unfold trap_unless. destruct m, b; simpl; auto. Qed.
Lemma safe_guard m b r : safe m r -> safe m (guard m b r).
Proof. unfold guard. destruct m, b; simpl; auto. Qed.

Ltac safe_step :=
  match goal with
  | |- safe _ (Ok _) => exact I
  | |- safe _ (bind _ _) => apply safe_bind; [|intros ? _]
  | |- safe _ (if ?c then _ else _) => destruct c
  | |- safe _ (ovf_i64 _ _) => apply safe_ovf_i64
  | |- safe _ (ovf_u64 _ _) => apply safe_ovf_u64
  | |- safe _ (cast_i64 _ _) => apply safe_cast_i64
  | |- safe _ (cast_u64 _ _) => apply safe_cast_u64
  | |- safe _ (trap_unless _ _ _) => apply safe_trap
  | |- safe _ (guard _ _ _) => apply safe_guard
  | |- safe _ (match ?x with _ => _ end) => destruct x
  end.
Ltac safe_num := 
  unfold sn_sub, sn_neg, sn_add, sn_mul, sn_div, sn_of_u64, val_of_u64, sn_new_rational, val_new_rational,
    val_neg, val_add, val_sub, val_mul, val_div, rat_add, rat_sub, rat_mul, rat_div, rat_neg, rat_new,
    rat_cross, rat_finish, rat_of_i64, rat_to_f64, i64_add, i64_sub, i64_mul, i64_neg, i64_abs, u64_mul,
    m_add, m_sub, m_mul, m_div, m_of_Z;
  repeat safe_step.

Lemma sn_neg_safe m x : safe m (sn_neg m x). Proof. safe_num. Qed.
Lemma sn_add_safe m x y : safe m (sn_add m x y). Proof. safe_num. Qed.
Lemma sn_sub_safe m x y : safe m (sn_sub m x y). Proof. safe_num. Qed.
Lemma sn_mul_safe m x y : safe m (sn_mul m x y). Proof. safe_num. Qed.
Lemma sn_div_safe m x y : safe m (sn_div m x y). Proof. safe_num. Qed.
Lemma sn_of_u64_safe m x : safe m (sn_of_u64 m x). Proof. safe_num. Qed.

Lemma pop_unwrap_snoc {A} (r : list A) c : pop_unwrap (r ++ [c]) = Ok (c, r).
Proof. unfold pop_unwrap. rewrite pop_snoc. reflexivity. Qed.

(** on well-formed arguments the rules never fail to find their operands *)
Lemma rule1_safe m t a : arity t = 1%nat -> wf a -> safe m (eval_rule m t [Ok a]).
Proof.
  intros Ht W. destruct t; try discriminate; cbn [eval_rule].
  - unfold neg_eval_rule. cbn -[sn_neg e_neg e_num is_num].
    destruct (is_num a) eqn:N.
    + apply is_num_inv in N as (n & k & ->). cbn -[sn_neg].
      apply safe_bind; [apply sn_neg_safe|]. intros; exact I.
    + destruct a as [[op|o] k]; cbn [root child]; [|exact I].
      destruct (descriptor op) eqn:D; try exact I.
      apply wf_op_inv in W as (_ & [(_ & c & -> & _)|(E & _)]); [exact I|].
      rewrite D in E. discriminate.
  - unfold sin_eval_rule. cbn -[e_sin]. destruct a as [[op|o] k]; cbn [root]; repeat safe_step.
  - unfold cos_eval_rule. cbn -[e_cos]. destruct a as [[op|o] k]; cbn [root]; repeat safe_step.
  - unfold exp_eval_rule. cbn -[e_exp]. destruct a as [[op|[n|x]] k]; cbn [root child]; [|repeat safe_step|exact I].
    destruct (descriptor op) eqn:D; try exact I.
    apply wf_op_inv in W as (_ & [(_ & c & -> & _)|(E & _)]); [exact I|].
    rewrite D in E. discriminate.
  - unfold ln_eval_rule. cbn -[e_ln]. destruct a as [[op|[n|x]] k]; cbn [root child]; [|repeat safe_step|exact I].
    destruct (descriptor op) eqn:D; try exact I.
    apply wf_op_inv in W as (_ & [(_ & c & -> & _)|(E & _)]); [exact I|].
    rewrite D in E. discriminate.
Qed.

Lemma rule2_safe m t l r : arity t = 2%nat -> wf l -> wf r -> safe m (eval_rule m t [Ok l; Ok r]).
Proof.
  intros Ht Wl Wr. destruct t; try discriminate; cbn [eval_rule];
  try (unfold add_eval_rule, sub_eval_rule, mul_eval_rule, div_eval_rule;
    cbn -[sn_add sn_sub sn_mul sn_div e_add e_sub e_mul e_div e_neg e_num is_num is_zero is_one to_smart_num_unwrap];
    destruct (is_num l && is_num r) eqn:N;
    [apply andb_true_iff in N as [N1 N2];
     apply is_num_inv in N1 as (x & k1 & ->), N2 as (y & k2 & ->);
     cbn -[sn_add sn_sub sn_mul sn_div];
     apply safe_bind;
       [auto using sn_add_safe, sn_sub_safe, sn_mul_safe, sn_div_safe | intros; exact I]
    | repeat safe_step]).
  unfold pow_eval_rule. cbn -[e_pow]. destruct l as [[op|[n|x]] k]; cbn [root child]; [|repeat safe_step|exact I].
  destruct (descriptor op) eqn:D; try exact I.
  apply wf_op_inv in Wl as (_ & [(_ & c & -> & _)|(E & _)]); [exact I|].
  rewrite D in E. discriminate.
Qed.

Lemma agg_safe m e : wf e -> safe m (num_aggregate m e).
Proof.
  intros W. revert e W. apply (wf_ind1 (fun e => safe m (num_aggregate m e))).
  - intros; exact I.
  - intros; exact I.
  - intros t a Ha Wa IH. rewrite agg_mk1 by assumption. apply safe_bind; [assumption|].
    intros a' E. apply rule1_safe; [assumption|]. exact (agg_wf _ _ _ Wa E).
  - intros t a b Ha Wa Wb IHa IHb. rewrite agg_mk2 by assumption.
    apply safe_bind; [assumption|]. intros r Er. apply safe_bind; [assumption|]. intros l El.
    apply rule2_safe; [assumption|exact (agg_wf _ _ _ Wa El)|exact (agg_wf _ _ _ Wb Er)].
Qed.

Lemma deriv_safe m x e : wf e -> safe m (deriv m x e).
Proof.
  intros W. revert e W. apply wf_ind1.
  - intros; exact I.
  - intros y. rewrite deriv_var. exact I.
  - intros t a Ha Wa IH. rewrite deriv_mk1 by assumption. apply safe_bind; [assumption|].
    intros da E. apply agg_safe. apply raw1_wf; try assumption. exact (deriv_wf _ _ _ _ Wa E).
  - intros t a b Ha Wa Wb IHa IHb. rewrite deriv_mk2 by assumption.
    apply safe_bind; [assumption|]. intros db Eb. apply safe_bind; [assumption|]. intros da Ea.
    apply agg_safe. apply raw2_wf; try assumption; [exact (deriv_wf _ _ _ _ Wa Ea)|exact (deriv_wf _ _ _ _ Wb Eb)].
Qed.

Lemma safe_release {A} (r : res A) : safe Release r -> exists a, r = Ok a.
Proof. destruct r; simpl; intros; try discriminate; try tauto; eauto. Qed.
Lemma safe_debug {A} (r : res A) : safe Debug r -> r = Panic \/ exists a, r = Ok a.
Proof. destruct r; simpl; intros; try discriminate; try tauto; eauto. Qed.
Lemma safe_strict {A} (r : res A) : safe Strict r -> r = Trap \/ exists a, r = Ok a.
Proof. destruct r; simpl; intros; try discriminate; try tauto; eauto. Qed.

(** ** modes agree on every tree, well-formed or not *)
Lemma pop_Forall2 {A} (R : A -> A -> Prop) l1 l2 : Forall2 R l1 l2 ->
  match pop l1, pop l2 with
  | Some (x, r1), Some (y, r2) => R x y /\ Forall2 R r1 r2
  | None, None => True
  | _, _ => False
  end.
Proof.
  induction 1 as [|x y l1 l2 Hxy Hl IH]; [exact I|].
  destruct Hl as [|x' y' l1 l2 Hxy' Hl].
  - simpl. auto.
  - change (pop (x :: x' :: l1)) with
      (match pop (x' :: l1) with Some (z, l) => Some (z, x :: l) | None => None end).
    change (pop (y :: y' :: l2)) with
      (match pop (y' :: l2) with Some (z, l) => Some (z, y :: l) | None => None end).
    destruct (pop (x' :: l1)) as [[? ?]|], (pop (y' :: l2)) as [[? ?]|]; try tauto.
    destruct IH. split; [assumption|]. constructor; assumption.
Qed.

Lemma pop_unwrap_refines {A B} (R : A -> A -> Prop) l1 l2 (f g : A * list A -> res B) :
  Forall2 R l1 l2 ->
  (forall x y r1 r2, R x y -> Forall2 R r1 r2 -> refines (f (x, r1)) (g (y, r2))) ->
  refines (bind (pop_unwrap l1) f) (bind (pop_unwrap l2) g).
Proof.
  intros H Hfg. apply pop_Forall2 in H. unfold pop_unwrap.
  destruct (pop l1) as [[x r1]|], (pop l2) as [[y r2]|]; try tauto; simpl.
  - destruct H. apply Hfg; assumption.
  - apply refines_refl.
Qed.

Section ModeAgree.
  Variables m1 m2 : mode.
  Hypothesis Hm : mle m1 m2.

  Lemma eval2_refines rs1 rs2 : Forall2 refines rs1 rs2 -> refines (eval2 rs1) (eval2 rs2).
  Proof.
    intros H. unfold eval2. eapply pop_unwrap_refines; [exact H|].
    intros x y r1 r2 Hxy Hr. cbn beta iota. apply refines_bind; [assumption|]. intros r _.
    eapply pop_unwrap_refines; [exact Hr|].
    intros x' y' r1' r2' Hxy' Hr'. cbn beta iota. apply refines_bind; [assumption|].
    intros; apply refines_refl.
  Qed.

  Lemma rule_refines t rs1 rs2 : Forall2 refines rs1 rs2 ->
    refines (eval_rule m1 t rs1) (eval_rule m2 t rs2).
  Proof.
    intros H. destruct t; cbn [eval_rule];
      unfold neg_eval_rule, add_eval_rule, sub_eval_rule, mul_eval_rule, div_eval_rule,
        sin_eval_rule, cos_eval_rule, exp_eval_rule, ln_eval_rule, pow_eval_rule.
    1,6,7,8,9: (eapply pop_unwrap_refines; [exact H|]; intros x y r1 r2 Hxy Hr; cbn beta iota;
      apply refines_bind; [assumption|]; intros sub _; try apply refines_refl).
    2-6: (apply refines_bind; [apply eval2_refines; assumption|]; intros [l r] _;
          cbn beta iota; try apply refines_refl).
    all: apply refines_if; [|apply refines_refl].
    all: repeat match goal with
         | |- refines (bind _ _) (bind _ _) => apply refines_bind; [|intros ? _]
         | |- refines ?a ?a => apply refines_refl
         end.
    - apply sn_neg_mono, Hm.
    - apply sn_add_mono, Hm.
    - apply sn_sub_mono, Hm.
    - apply sn_mul_mono, Hm.
    - apply sn_div_mono, Hm.
  Qed.

  Lemma agg_mono e : refines (num_aggregate m1 e) (num_aggregate m2 e).
  Proof.
    induction e as [r c IH] using expr_ind'. cbn [num_aggregate].
    destruct r as [op|o]; [|apply refines_refl]. apply rule_refines.
    induction IH; constructor; assumption.
  Qed.

  Definition dref (a b : dchild) : Prop := fst a = fst b /\ refines (snd a) (snd b).

  Lemma pop2_refines {B} (cs1 cs2 : list dchild) (f g : dchild * dchild -> res B) :
    Forall2 dref cs1 cs2 ->
    (forall l1 r1 l2 r2, dref l1 l2 -> dref r1 r2 -> refines (f (l1, r1)) (g (l2, r2))) ->
    refines (bind (pop2 cs1) f) (bind (pop2 cs2) g).
  Proof.
    intros H Hfg. unfold pop2, bind at 1 4. apply pop_Forall2 in H. unfold pop_unwrap at 1 3.
    destruct (pop cs1) as [[x r1]|], (pop cs2) as [[y r2]|]; try tauto; [|apply refines_refl].
    destruct H as [H1 H2]. cbn [bind]. apply pop_Forall2 in H2. unfold pop_unwrap.
    destruct (pop r1) as [[x' r1']|], (pop r2) as [[y' r2']|]; try tauto; [|apply refines_refl].
    cbn [bind]. apply Hfg; tauto.
  Qed.

  Lemma drule_refines t cs1 cs2 : Forall2 dref cs1 cs2 ->
    refines (derivative_rule t cs1) (derivative_rule t cs2).
  Proof.
    intros H. destruct t; cbn [derivative_rule];
      unfold neg_derivative_rule, add_derivative_rule, sub_derivative_rule, mul_derivative_rule,
       div_derivative_rule, sin_derivative_rule, cos_derivative_rule, exp_derivative_rule,
       ln_derivative_rule, pow_derivative_rule.
    2,3: (eapply pop_unwrap_refines; [exact H|]; intros [u du] [u' du'] r1 r2 [E R] Hr;
       cbn [fst snd] in *; subst; apply refines_bind; [assumption|]; intros ? _;
       eapply pop_unwrap_refines; [exact Hr|]; intros [v dv] [v' dv'] r1' r2' [E' R'] Hr';
       cbn [fst snd] in *; subst; apply refines_bind; [assumption|]; intros; apply refines_refl).
    2,3,8: (apply pop2_refines; [assumption|]; intros [u du] [v dv] [u' du'] [v' dv'] [E R] [E' R'];
       cbn [fst snd] in *; subst; apply refines_bind; [assumption|]; intros ? _;
       apply refines_bind; [assumption|]; intros; apply refines_refl).
    all: eapply pop_unwrap_refines; [exact H|]; intros [u du] [u' du'] r1 r2 [E R] Hr;
       cbn [fst snd] in *; subst; apply refines_bind; [assumption|]; intros; apply refines_refl.
  Qed.

  Lemma deriv_mono x e : refines (deriv m1 x e) (deriv m2 x e).
  Proof.
    induction e as [r c IH] using expr_ind'. cbn [deriv].
    apply refines_bind; [|intros; apply agg_mono].
    destruct r as [op|[n|y]]; [|apply refines_refl..]. apply drule_refines.
    induction IH; constructor; [split; [reflexivity|assumption]|assumption].
  Qed.

  Lemma taylor_loop_mono x at_ n : forall k f r c,
    refines (taylor_loop m1 x at_ n k f r c) (taylor_loop m2 x at_ n k f r c).
  Proof.
    induction n as [|n IH]; intros k f r c; [apply refines_refl|]. cbn [taylor_loop].
    repeat match goal with
      | |- refines (bind _ _) (bind _ _) => apply refines_bind; [|intros ? _]
      end.
    - apply sn_of_u64_mono, Hm.
    - apply sn_mul_mono, Hm.
    - apply agg_mono.
    - apply agg_mono.
    - apply deriv_mono.
    - apply IH.
  Qed.

  Lemma taylor_mono e of_ at_ n :
    refines (taylor_expansion m1 e of_ at_ n) (taylor_expansion m2 e of_ at_ n).
  Proof.
    unfold taylor_expansion, taylor_var. destruct (to_variable of_); [|apply refines_refl].
    apply refines_bind; [|intros; apply refines_refl].
    apply refines_bind; [apply taylor_loop_mono|]. intros [? ?] _. apply refines_refl.
  Qed.
  Lemma derivative_mono e to : refines (derivative m1 e to) (derivative m2 e to).
  Proof.
    unfold derivative. destruct (to_variable to); [|apply refines_refl].
    apply refines_bind; [apply deriv_mono|]. intros; apply refines_refl.
  Qed.
End ModeAgree.
