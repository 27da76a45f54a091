(** * PropsTree: theorems about expression trees (C12, C18, C19, C23-C25, C27, C28, C30, C31, C34, C38) *)
From Coq Require Import ZArith List String Bool Lia Factorial.
From Verif Require Import Base Float Rational SmartNum Ast Compute Limit Display Spec SpecTree.
From Verif Require Import BaseProofs RationalProofs NumProofs NumProofs2.
From Verif Require Import TreeProofs TreeProofs2 TreeProofs3 TreeProofs4 TreeProofs5.
Import ListNotations.
Open Scope Z_scope.
Open Scope string_scope.
Open Scope res_scope.

(** sample expressions for the examples *)
Definition ex_x : expr := e_var "x".
Definition ex_y : expr := e_var "y".
(** (x*y + sin(x)) / exp(2*x) - 3 *)
Definition ex_big : expr :=
  e_sub (e_div (e_add (e_mul ex_x ex_y) (e_sin ex_x)) (e_exp (e_mul (e_of_i64 2) ex_x))) (e_of_i64 3).

Lemma api_expr_wf m e : api_expr m e -> wf e.
Proof.
  induction 1; try (apply wf_mk1; [reflexivity|assumption]);
    try (apply wf_mk2; [reflexivity|assumption|assumption]).
  - constructor.
  - constructor. eapply api_number_ok; eassumption.
Qed.

Lemma ex_big_api m : api_expr m ex_big.
Proof.
  unfold ex_big. repeat (constructor; try (apply An_i64; reflexivity)).
Qed.

(** ** C12 debug and release agree *)

(** the real builds agree, and a lossless run agrees with both *)
Definition builds_agree {A} (f : mode -> res A) : Prop :=
  (forall z, f Debug = Ok z -> f Release = Ok z) /\
  (forall z, f Strict = Ok z -> f Debug = Ok z /\ f Release = Ok z).

Lemma builds_agree_mono {A} (f : mode -> res A) :
  (forall m1 m2, mle m1 m2 -> refines (f m1) (f m2)) -> builds_agree f.
Proof.
  intros H. split.
  - intros z Hz. apply (H Debug Release I). exact Hz.
  - intros z Hz. split; [apply (H Strict Debug I)|apply (H Strict Release I)]; exact Hz.
Qed.

Theorem c12_numbers x y :
  builds_agree (fun m => sn_add m x y) /\ builds_agree (fun m => sn_sub m x y) /\
  builds_agree (fun m => sn_mul m x y) /\ builds_agree (fun m => sn_div m x y) /\
  builds_agree (fun m => sn_neg m x).
Proof.
  repeat match goal with |- _ /\ _ => split end; apply builds_agree_mono; intros m1 m2 Hm.
  - apply sn_add_mono, Hm.
  - apply sn_sub_mono, Hm.
  - apply sn_mul_mono, Hm.
  - apply sn_div_mono, Hm.
  - apply sn_neg_mono, Hm.
Qed.
Print Assumptions c12_numbers.

Theorem c12_fractions x y :
  builds_agree (fun m => rat_add m x y) /\ builds_agree (fun m => rat_sub m x y) /\
  builds_agree (fun m => rat_mul m x y) /\ builds_agree (fun m => rat_div m x y).
Proof.
  repeat match goal with |- _ /\ _ => split end; apply builds_agree_mono; intros m1 m2 Hm.
  - apply rat_add_mono, Hm.
  - apply rat_sub_mono, Hm.
  - apply rat_mul_mono, Hm.
  - apply rat_div_mono, Hm.
Qed.
Print Assumptions c12_fractions.

Theorem c12_expressions e a b order fuel :
  builds_agree (fun m => num_aggregate m e) /\
  builds_agree (fun m => derivative m e a) /\
  builds_agree (fun m => taylor_expansion m e a b order) /\
  builds_agree (fun m => limit fuel m e a b order).
Proof.
  repeat match goal with |- _ /\ _ => split end; apply builds_agree_mono; intros m1 m2 Hm.
  - apply agg_mono, Hm.
  - apply derivative_mono, Hm.
  - apply taylor_mono, Hm.
  - apply limit_mono; [exact Hm|lia].
Qed.
Print Assumptions c12_expressions.

Lemma expansion_to_string_mono m1 m2 t : mle m1 m2 ->
  refines (expansion_to_string m1 t) (expansion_to_string m2 t).
Proof.
  intros Hm. unfold expansion_to_string. apply refines_bind; [apply agg_mono, Hm|]. intros b _.
  apply refines_bind; [apply refines_refl|]. intros body _.
  apply refines_bind; [unfold u64_add; apply ovf_u64_mono, Hm|]. intros o1 _.
  apply refines_bind; [|intros; apply refines_refl].
  unfold e_of_u64. apply refines_bind; [apply sn_of_u64_mono, Hm|]. intros; apply refines_refl.
Qed.
Theorem c12_formatting t : builds_agree (fun m => expansion_to_string m t).
Proof. apply builds_agree_mono. intros m1 m2 Hm. apply expansion_to_string_mono, Hm. Qed.
Print Assumptions c12_formatting.

(** a limit outcome (value, error or panic) does not depend on the stack size once it is
    large enough: the model's recursion budget is not observable *)
Theorem c12_limit_stack f1 f2 m e a b order :
  limit f1 m e a b order <> Fuel -> (f1 <= f2)%nat ->
  limit f2 m e a b order = limit f1 m e a b order.
Proof.
  intros H L. unfold limit in *. destruct (to_variable a); [|reflexivity].
  destruct (limit_var_fle m s b order f1 f2 e L) as [E|E]; congruence.
Qed.
Print Assumptions c12_limit_stack.

Example c12_example :
  num_aggregate Strict (e_add (e_of_i64 2) (e_mul (e_of_i64 3) ex_x))
    = Ok (e_add (e_of_i64 2) (e_mul (e_of_i64 3) ex_x)) /\
  num_aggregate Debug (e_add (e_of_i64 9223372036854775807) e_one) = Panic /\
  num_aggregate Release (e_add (e_of_i64 9223372036854775807) e_one)
    = Ok (e_of_i64 (-9223372036854775808)).
Proof. split; [|split]; vm_compute; reflexivity. Qed.

(** ** C18 only arity-correct trees are built *)
Theorem c18_builders m e : api_expr m e -> wf e.
Proof. apply api_expr_wf. Qed.
Print Assumptions c18_builders.

Theorem c18_operations m e x v :
  wf e -> wf v ->
  (forall z, num_aggregate m e = Ok z -> wf z) /\
  (forall z, deriv m x e = Ok z -> wf z) /\
  wf (subst x v e) /\
  (forall order t, taylor_var m e x v order = Ok t ->
     Forall wf (ex_coef t) /\ wf (ex_residual t)).
Proof.
  intros We Wv. split; [|split; [|split]].
  - intros z. apply agg_wf. assumption.
  - intros z. apply deriv_wf. assumption.
  - apply subst_wf; assumption.
  - intros order t H. unfold taylor_var in H. inv_bind H. destruct a as [coef res].
    injection H as <-. cbn [ex_coef ex_residual].
    refine (taylor_loop_wf _ _ _ Wv _ _ _ _ _ _ _ We _ (Forall_nil _) Hb).
    apply sn_of_i64_ok. reflexivity.
Qed.
Print Assumptions c18_operations.

(** and the same through the entry points that take expressions *)
Theorem c18_entry_points m e a v :
  wf e -> wf v ->
  (forall z, substitute e a v = ROk z -> wf z) /\
  (forall d, derivative m e a = Ok (ROk d) -> wf d) /\
  (forall order t, taylor_expansion m e a v order = Ok (ROk t) ->
     Forall wf (ex_coef t) /\ wf (ex_residual t) /\ wf (ex_of t) /\ wf (ex_at t)).
Proof.
  intros We Wv. split; [|split].
  - intros z. unfold substitute. destruct (to_variable a); [|discriminate]. intros [= <-].
    apply subst_wf; assumption.
  - intros d. unfold derivative. destruct (to_variable a); [|discriminate]. intros H. inv_bind H.
    injection H as <-. exact (deriv_wf _ _ _ _ We Hb).
  - intros order t. unfold taylor_expansion. destruct (to_variable a) as [x|]; [|discriminate].
    intros H. inv_bind H. injection H as <-.
    destruct (proj2 (proj2 (proj2 (c18_operations m e x v We Wv))) order _ Hb) as [H1 H2].
    split; [assumption|]. split; [assumption|]. unfold taylor_var in Hb. inv_bind Hb.
    destruct a1 as [coef res]. injection Hb as <-. cbn [ex_of ex_at]. split; [constructor|assumption].
Qed.
Print Assumptions c18_entry_points.

Example c18_example : api_expr Debug ex_big /\ wf ex_big /\
  exists d, deriv Debug "x" ex_big = Ok d /\ wf d.
Proof.
  assert (wf ex_big) as W by exact (api_expr_wf Debug _ (ex_big_api Debug)).
  split; [apply ex_big_api|]. split; [assumption|].
  destruct (deriv Debug "x" ex_big) as [d| | |] eqn:E; [|exfalso; vm_compute in E; discriminate..].
  exists d. split; [reflexivity|]. eapply deriv_wf; eassumption.
Qed.

(** ** C19 num_aggregate returns *)
Theorem c19_release_returns e : wf e -> exists z, num_aggregate Release e = Ok z.
Proof. intros W. apply safe_release, agg_safe, W. Qed.
Print Assumptions c19_release_returns.

(** in debug: a value or a panic; and wherever it panics, the lossless run traps (an
    arithmetic operation on literals overflowed), the release build still returns *)
Theorem c19_debug e : wf e ->
  (exists z, num_aggregate Debug e = Ok z) \/
  (num_aggregate Debug e = Panic /\ num_aggregate Strict e = Trap).
Proof.
  intros W. destruct (safe_debug _ (agg_safe Debug e W)) as [E|E]; [right|left; exact E].
  split; [exact E|]. destruct (safe_strict _ (agg_safe Strict e W)) as [T|[z Hz]]; [exact T|].
  apply (agg_mono Strict Debug I) in Hz. congruence.
Qed.
Print Assumptions c19_debug.

Example c19_example : wf ex_big /\ exists z, num_aggregate Release ex_big = Ok z.
Proof.
  assert (wf ex_big) as W by exact (api_expr_wf Debug _ (ex_big_api Debug)).
  split; [exact W|apply c19_release_returns, W].
Qed.
(** well-formedness is needed: a tree built by hand with a missing child panics in release *)
Example c19_malformed : num_aggregate Release (Expr (Operator (gen_op OAdd)) [ex_x]) = Panic.
Proof. reflexivity. Qed.

(** ** C23 no growth, no new variables, no new operators *)
Theorem c23_size m e z : num_aggregate m e = Ok z -> (size z <= size e)%nat.
Proof. apply agg_size. Qed.
Print Assumptions c23_size.

Theorem c23_variables m e z x : num_aggregate m e = Ok z -> occurs x z -> occurs x e.
Proof. apply agg_subterm_var. Qed.
Print Assumptions c23_variables.

Theorem c23_operators m e z t : num_aggregate m e = Ok z -> has_op t z ->
  has_op t e \/ (t = ONeg /\ has_op OSub e).
Proof. apply agg_ops. Qed.
Print Assumptions c23_operators.

(** on well-formed trees: nothing changes, or the tree gets strictly smaller *)
Theorem c23_progress m e z : wf e -> num_aggregate m e = Ok z -> z = e \/ (size z < size e)%nat.
Proof. intros W H. exact (agg_shrinks m e W z H). Qed.
Print Assumptions c23_progress.

Example c23_example :
  num_aggregate Debug (e_sub e_zero (e_mul ex_x (e_add e_one e_zero))) = Ok (e_neg ex_x) /\
  size (e_sub e_zero (e_mul ex_x (e_add e_one e_zero))) = 7%nat.
Proof. split; vm_compute; reflexivity. Qed.

(** ** C24 folding *)
Theorem c24_closed m e z : closed_arith e -> num_aggregate m e = Ok z -> exists n, z = e_num n.
Proof. intros H. apply closed_arith_num. exact H. Qed.
Print Assumptions c24_closed.

Theorem c24_folded m e z : wf e -> num_aggregate m e = Ok z -> folded z.
Proof. apply agg_folded. Qed.
Print Assumptions c24_folded.

Example c24_example :
  closed_arith (e_sub (e_div e_one (e_of_i64 2)) (e_neg (e_of_i64 3))) /\
  num_aggregate Debug (e_sub (e_div e_one (e_of_i64 2)) (e_neg (e_of_i64 3)))
    = Ok (e_num (mkNum (Rational (mkRat 1 7 2)) TNothing)).
Proof.
  split; [|vm_compute; reflexivity].
  repeat constructor.
Qed.
(** [folded] is a real restriction *)
Example c24_not_folded : ~ folded (e_add e_one e_one).
Proof. intros H. specialize (H (gen_op OAdd) [e_one; e_one] (sub_refl _) eq_refl). discriminate. Qed.

(** ** C25 idempotence *)
Theorem c25_idempotent m e z : wf e -> ~ has_op OSub e ->
  num_aggregate m e = Ok z -> num_aggregate m z = Ok z.
Proof. apply agg_idem. Qed.
Print Assumptions c25_idempotent.

(** in general it is false: 0 - (-x) *)
Theorem c25_idempotent_refuted : exists e z z', wf e /\
  num_aggregate Debug e = Ok z /\ num_aggregate Debug z = Ok z' /\ z' <> z.
Proof.
  exists (e_sub e_zero (e_neg ex_x)), (e_neg (e_neg ex_x)), ex_x.
  split; [apply (api_expr_wf Debug); repeat constructor; apply (An_i64 Debug 0); reflexivity|].
  split; [vm_compute; reflexivity|]. split; [vm_compute; reflexivity|]. discriminate.
Qed.
Print Assumptions c25_idempotent_refuted.

(** but a fixpoint is always reached within [size e] calls *)
Theorem c25_fixpoint_reached m e z : wf e -> agg_iter m (size e) e = Ok z ->
  num_aggregate m z = Ok z.
Proof. intros W. apply agg_iter_reaches; [assumption|lia]. Qed.
Print Assumptions c25_fixpoint_reached.

Theorem c25_fixpoint_reached_release e : wf e ->
  exists z, agg_iter Release (size e) e = Ok z /\ num_aggregate Release z = Ok z.
Proof.
  intros W. assert (forall k e, wf e -> exists z, agg_iter Release k e = Ok z) as H.
  { induction k as [|k IH]; intros e' W'; [exists e'; reflexivity|]. cbn [agg_iter].
    destruct (c19_release_returns e' W') as [z Hz]. rewrite Hz. apply IH. eapply agg_wf; eassumption. }
  destruct (H (size e) e W) as [z Hz]. exists z. split; [exact Hz|].
  exact (c25_fixpoint_reached Release e z W Hz).
Qed.
Print Assumptions c25_fixpoint_reached_release.

Example c25_example :
  ~ has_op OSub (e_mul (e_add e_zero ex_x) e_one) /\
  num_aggregate Debug (e_mul (e_add e_zero ex_x) e_one) = Ok ex_x.
Proof.
  split; [|vm_compute; reflexivity]. intros (op & c & D & H).
  apply subterm_mk2 in H as [[= -> ->]|[H|H]]; [discriminate| |].
  - apply subterm_mk2 in H as [[= -> ->]|[H|H]]; [discriminate| |].
    + apply subterm_num in H. discriminate.
    + inversion H as [|? ? ? ? Hin]; destruct Hin.
  - apply subterm_num in H. discriminate.
Qed.

(** ** C27 structural laws of substitution *)
Theorem c27_error_iff e u v : substitute e u v = RErr SubstituteError <-> ~ is_variable u.
Proof.
  unfold substitute, to_variable, is_variable. destruct u as [[op|[n|y]] c]; cbn [root]; split;
    try (intros _ (x & k & [=]); fail); try reflexivity; try discriminate.
  intros H. exfalso. apply H. eauto.
Qed.
Print Assumptions c27_error_iff.

Theorem c27_absent e x v : ~ occurs x e -> substitute e (e_var x) v = ROk e.
Proof. intros H. unfold substitute. cbn. rewrite subst_absent by assumption. reflexivity. Qed.
Print Assumptions c27_absent.

Theorem c27_self e x : wf e -> substitute e (e_var x) (e_var x) = ROk e.
Proof. intros W. unfold substitute. cbn. fold (e_var x). rewrite subst_self by assumption. reflexivity. Qed.
Print Assumptions c27_self.

(** which variables occur in the result; in particular x disappears if v does not contain it *)
Theorem c27_occurs e x v z y : wf e -> substitute e (e_var x) v = ROk z ->
  (occurs y z <-> (y <> x /\ occurs y e) \/ (occurs x e /\ occurs y v)).
Proof. intros W [= <-]. apply subst_occurs. assumption. Qed.
Print Assumptions c27_occurs.

Theorem c27_eliminates e x v z : wf e -> ~ occurs x v -> substitute e (e_var x) v = ROk z ->
  ~ occurs x z.
Proof. intros W Hv H. rewrite (c27_occurs e x v z x W H). tauto. Qed.
Print Assumptions c27_eliminates.

Theorem c27_commute e x v y w a b c d : x <> y -> ~ occurs y v -> ~ occurs x w ->
  substitute e (e_var x) v = ROk a -> substitute a (e_var y) w = ROk b ->
  substitute e (e_var y) w = ROk c -> substitute c (e_var x) v = ROk d -> b = d.
Proof.
  intros Hxy Hv Hw [= <-] [= <-] [= <-] [= <-]. symmetry. apply subst_commute; assumption.
Qed.
Print Assumptions c27_commute.

Theorem c27_composition e x v y w : x <> y -> ~ occurs y v ->
  subst x v (subst y w e) = subst y (subst x v w) (subst x v e).
Proof. apply subst_subst. Qed.
Print Assumptions c27_composition.

Theorem c27_size e x v z : wf e -> substitute e (e_var x) v = ROk z ->
  (size z + count_var x e = size e + count_var x e * size v)%nat.
Proof. intros W [= <-]. apply subst_size. assumption. Qed.
Print Assumptions c27_size.

Theorem c27_count_zero e x : count_var x e = 0%nat <-> ~ occurs x e.
Proof. apply count_var_occurs. Qed.
Print Assumptions c27_count_zero.

Example c27_example :
  substitute (e_add (e_mul ex_x ex_y) ex_x) ex_x (e_sin ex_y)
    = ROk (e_add (e_mul (e_sin ex_y) ex_y) (e_sin ex_y)) /\
  substitute ex_x (e_of_i64 3) ex_y = RErr SubstituteError /\
  count_var "x" (e_add (e_mul ex_x ex_y) ex_x) = 2%nat.
Proof. repeat split; vm_compute; reflexivity. Qed.

(** ** C28 errors of derivative *)
Theorem c28_error_iff m e to : ~ is_variable to <->
  derivative m e to = Ok (RErr (DerivativeError to)).
Proof.
  unfold derivative, to_variable, is_variable. destruct to as [[op|[n|y]] c]; cbn [root]; split;
    try reflexivity; try (intros _ (x & k & [=]); fail).
  - intros H. exfalso. apply H. eauto.
  - intros H. inv_bind H. discriminate.
Qed.
Print Assumptions c28_error_iff.

Theorem c28_only_error m e to err : derivative m e to = Ok (RErr err) ->
  err = DerivativeError to /\ ~ is_variable to.
Proof.
  intros H. unfold derivative, to_variable, is_variable in *. destruct to as [[op|[n|y]] c]; cbn [root] in H.
  - injection H as <-. split; [reflexivity|]. intros (x & k & [=]).
  - injection H as <-. split; [reflexivity|]. intros (x & k & [=]).
  - inv_bind H. discriminate.
Qed.
Print Assumptions c28_only_error.

Theorem c28_release_returns e to : wf e -> is_variable to ->
  exists d, derivative Release e to = Ok (ROk d).
Proof.
  intros W (x & c & ->). unfold derivative. cbn [to_variable root].
  destruct (safe_release _ (deriv_safe Release x e W)) as [d ->]. exists d. reflexivity.
Qed.
Print Assumptions c28_release_returns.

Theorem c28_debug e to : wf e -> is_variable to ->
  (exists d, derivative Debug e to = Ok (ROk d)) \/
  (derivative Debug e to = Panic /\ derivative Strict e to = Trap).
Proof.
  intros W (x & c & ->). unfold derivative. cbn [to_variable root].
  destruct (safe_debug _ (deriv_safe Debug x e W)) as [E|[d ->]]; [right|left; exists d; reflexivity].
  rewrite E. split; [reflexivity|].
  destruct (safe_strict _ (deriv_safe Strict x e W)) as [T|[d Hd]]; [rewrite T; reflexivity|].
  apply (deriv_mono Strict Debug I) in Hd. congruence.
Qed.
Print Assumptions c28_debug.

Example c28_example :
  derivative Debug (e_mul ex_x ex_x) ex_x = Ok (ROk (e_add ex_x ex_x)) /\
  derivative Debug (e_mul ex_x ex_x) (e_sin ex_x) = Ok (RErr (DerivativeError (e_sin ex_x))) /\
  (* 1/10^10: the denominator squared overflows *)
  derivative Debug (e_div e_one (e_of_i64 10000000000)) ex_x = Panic.
Proof. split; [|split]; vm_compute; reflexivity. Qed.

(** ** C30 derivative of an expression without the variable *)
Theorem c30_constant m e x d : wf e -> ~ occurs x e ->
  derivative m e (e_var x) = Ok (ROk d) -> d = e_zero.
Proof.
  intros W Hx H. unfold derivative in H. cbn [to_variable root e_var] in H. inv_bind H.
  injection H as <-. eapply deriv_absent; eassumption.
Qed.
Print Assumptions c30_constant.

Theorem c30_constant_release e x : wf e -> ~ occurs x e ->
  derivative Release e (e_var x) = Ok (ROk e_zero).
Proof.
  intros W Hx. destruct (c28_release_returns e (e_var x) W) as [d Hd]; [exists x, []; reflexivity|].
  rewrite Hd. do 2 f_equal. exact (c30_constant Release e x d W Hx Hd).
Qed.
Print Assumptions c30_constant_release.

Example c30_example : ~ occurs "x" (e_pow ex_y (e_ln ex_y)) /\
  derivative Debug (e_pow ex_y (e_ln ex_y)) ex_x = Ok (ROk e_zero).
Proof.
  split; [|vm_compute; reflexivity]. apply count_var_occurs. reflexivity.
Qed.

(** ** C31 shape of Taylor expansions *)
Theorem c31_error_iff m e of_ at_ order :
  ~ is_variable of_ <->
  taylor_expansion m e of_ at_ order = Ok (RErr (mkTaylorError of_ "not a variable")).
Proof.
  unfold taylor_expansion, to_variable, is_variable. destruct of_ as [[op|[n|y]] c]; cbn [root]; split;
    try reflexivity; try (intros _ (x & k & [=]); fail).
  - intros H. exfalso. apply H. eauto.
  - intros H. inv_bind H. discriminate.
Qed.
Print Assumptions c31_error_iff.

Theorem c31_only_error m e of_ at_ order err :
  taylor_expansion m e of_ at_ order = Ok (RErr err) ->
  err = mkTaylorError of_ "not a variable" /\ ~ is_variable of_.
Proof.
  intros H. unfold taylor_expansion, to_variable, is_variable in *.
  destruct of_ as [[op|[n|y]] c]; cbn [root] in H.
  - injection H as <-. split; [reflexivity|]. intros (x & k & [=]).
  - injection H as <-. split; [reflexivity|]. intros (x & k & [=]).
  - inv_bind H. discriminate.
Qed.
Print Assumptions c31_only_error.

(** coefficient k is the aggregate of (aggregate of k-th derivative at the point) / k!, where
    k! is the i64 machine value of the factorial; the residual is derivative n+1 *)
Theorem c31_shape m e x at_ n t :
  taylor_expansion m e (e_var x) at_ (Z.of_nat n) = Ok (ROk t) ->
  ex_order t = Z.of_nat n /\ ex_of t = e_var x /\ ex_at t = at_ /\
  List.length (ex_coef t) = S n /\
  deriv_n m x (S n) e = Ok (ex_residual t) /\
  forall k, (k <= n)%nat -> exists d s ck,
    deriv_n m x k e = Ok d /\
    num_aggregate m (subst x at_ d) = Ok s /\
    num_aggregate m (e_div s (e_of_i64 (wrap_i64 (factZ k)))) = Ok ck /\
    nth_error (ex_coef t) k = Some ck.
Proof.
  intros H. unfold taylor_expansion in H. cbn [to_variable root e_var] in H. inv_bind H.
  injection H as <-. unfold taylor_var in Hb. inv_bind Hb. destruct a0 as [coef res].
  injection Hb as <-. replace (Z.to_nat (Z.of_nat n + 1)) with (S n) in Hb0 by lia.
  apply (taylor_loop_spec m x at_ (S n) 0) in Hb0; [|reflexivity].
  destruct Hb0 as (cs & -> & Hl & Hd & Hj). cbn [app] in *.
  cbn [ex_order ex_of ex_at ex_coef ex_residual].
  repeat match goal with |- _ /\ _ => split end; try reflexivity; try assumption.
  intros k Hk. destruct (Hj k ltac:(lia)) as (d & s & ck & E1 & E2 & E3 & E4).
  exists d, s, ck. refine (conj E1 (conj E2 (conj _ E4))). exact E3.
Qed.
Print Assumptions c31_shape.

(** the machine factorial is the true one up to 20 *)
Theorem c31_factorial k : (k <= 20)%nat -> wrap_i64 (factZ k) = factZ k.
Proof.
  intros Hk. apply wrap_in. apply in_i64_iff. pose proof (factZ_pos k).
  assert (factZ k <= factZ 20) as H1. { unfold factZ. apply inj_le, fact_le. assumption. }
  assert (factZ 20 = 2432902008176640000) as H2.
  { do 20 rewrite factZ_S. reflexivity. }
  unfold two63. lia.
Qed.
Print Assumptions c31_factorial.

(** a release build always returns *)
Theorem c31_release_returns e x at_ n : wf e -> wf at_ ->
  exists t, taylor_expansion Release e (e_var x) at_ n = Ok (ROk t).
Proof.
  intros We Wa. unfold taylor_expansion, taylor_var. cbn [to_variable root e_var].
  destruct (safe_release _ (taylor_loop_safe Release x at_ Wa (Z.to_nat (n + 1)) 0 (sn_of_i64 1) e [] We
    (sn_of_i64_ok 1 eq_refl))) as [[coef res] ->].
  cbn [bind]. eexists. reflexivity.
Qed.
Print Assumptions c31_release_returns.

Example c31_example :
  taylor_expansion Debug (e_sin ex_x) ex_x e_zero 3 =
    Ok (ROk (mkExpansion 3 ex_x e_zero
      [e_zero; e_num (mkNum (Integer 1) TOne); e_zero; e_num (mkNum (Rational (mkRat (-1) 1 6)) TNothing)]
      (e_sin ex_x))).
Proof. vm_compute. reflexivity. Qed.

(** ** C34 order limit *)
Theorem c34_debug_never_returns e of_ at_ n t : (21 <= n)%Z ->
  taylor_expansion Debug e of_ at_ n <> Ok (ROk t) /\
  taylor_expansion Strict e of_ at_ n <> Ok (ROk t).
Proof.
  intros Hn.
  assert (forall m, m <> Release -> taylor_expansion m e of_ at_ n <> Ok (ROk t)) as H.
  { intros m Hm H. unfold taylor_expansion in H. destruct (to_variable of_) as [x|]; [|discriminate].
    inv_bind H. unfold taylor_var in Hb. inv_bind Hb.
    refine (taylor_loop_21 m x at_ Hm (Z.to_nat (n + 1)) 0 (sn_of_i64 1) e [] a0 _ _ eq_refl eq_refl Hb0); lia. }
  split; apply H; discriminate.
Qed.
Print Assumptions c34_debug_never_returns.

Theorem c34_debug_panics e x at_ n : wf e -> wf at_ -> (21 <= n)%Z ->
  taylor_expansion Debug e (e_var x) at_ n = Panic.
Proof.
  intros We Wa Hn. destruct (taylor_expansion Debug e (e_var x) at_ n) as [[t|err]| | |] eqn:E.
  - exfalso. exact (proj1 (c34_debug_never_returns e (e_var x) at_ n t Hn) E).
  - apply c31_only_error in E as [_ E]. exfalso. apply E. exists x, []. reflexivity.
  - reflexivity.
  - exfalso. unfold taylor_expansion, taylor_var in E. cbn [to_variable root e_var] in E.
    pose proof (taylor_loop_safe Debug x at_ Wa (Z.to_nat (n + 1)) 0 (sn_of_i64 1) e [] We
      (sn_of_i64_ok 1 eq_refl)) as S.
    destruct (taylor_loop _ _ _ _ _ _ _ _) as [[? ?]| | |]; try discriminate; discriminate S.
  - exfalso. unfold taylor_expansion, taylor_var in E. cbn [to_variable root e_var] in E.
    pose proof (taylor_loop_safe Debug x at_ Wa (Z.to_nat (n + 1)) 0 (sn_of_i64 1) e [] We
      (sn_of_i64_ok 1 eq_refl)) as S.
    destruct (taylor_loop _ _ _ _ _ _ _ _) as [[? ?]| | |]; try discriminate; destruct S.
Qed.
Print Assumptions c34_debug_panics.

(** order 20 does work, and release answers 21 with a wrong (wrapped) factorial *)
Example c34_example :
  (exists t, taylor_expansion Debug e_one ex_x e_zero 20 = Ok (ROk t)) /\
  taylor_expansion Debug e_one ex_x e_zero 21 = Panic /\
  wrap_i64 (factZ 21) = -4249290049419214848.
Proof.
  split; [|split].
  - destruct (taylor_expansion Debug e_one ex_x e_zero 20) as [[t|err]| | |] eqn:E;
      [exists t; reflexivity|exfalso; vm_compute in E; discriminate..].
  - vm_compute. reflexivity.
  - do 21 rewrite factZ_S. reflexivity.
Qed.

(** ** C38 limits that always panic *)
Theorem c38_panics m fuel op c x to order : (3 <= fuel)%nat ->
  In (descriptor op) [ONeg; OSub; OExp; OLn; OPow] ->
  limit fuel m (Expr (Operator op) c) (e_var x) to order = Panic.
Proof.
  intros Hf Hin. unfold limit. cbn [to_variable root e_var].
  destruct fuel as [|[|[|f]]]; try lia.
  destruct Hin as [D|[D|[D|[D|[D|[]]]]]]; symmetry in D.
  - apply limit_neg_panics. assumption.
  - apply limit_sub_panics. assumption.
  - apply limit_todo_panics. tauto.
  - apply limit_todo_panics. tauto.
  - apply limit_todo_panics. tauto.
Qed.
Print Assumptions c38_panics.

Theorem c38_not_a_variable m fuel e of_ to order : ~ is_variable of_ ->
  limit fuel m e of_ to order = Panic.
Proof.
  intros H. unfold limit, to_variable. destruct of_ as [[op|[n|y]] c]; cbn [root]; try reflexivity.
  exfalso. apply H. exists y, c. reflexivity.
Qed.
Print Assumptions c38_not_a_variable.

(** such an operator anywhere below sums, products and quotients: never a limit value *)
Theorem c38_blocked m fuel e of_ to order l : 0 <= order -> limit_blocked e ->
  limit fuel m e of_ to order <> Ok (ROk l).
Proof.
  intros Ho Hb. unfold limit. destruct (to_variable of_); [|discriminate].
  apply limit_blocked_no_value; assumption.
Qed.
Print Assumptions c38_blocked.

Example c38_example :
  limit 10 Debug (e_sub ex_x e_one) ex_x e_one 5 = Panic /\
  limit_blocked (e_add ex_x (e_div e_one (e_exp ex_x))) /\
  limit 10 Debug (e_add ex_x (e_sin ex_x)) ex_x e_one 5
    = Ok (ROk (Normal (e_add e_one (e_sin e_one)))).
Proof.
  split; [reflexivity|]. split; [|reflexivity].
  apply lb_right; [left; reflexivity|]. apply lb_right; [right; right; left; reflexivity|].
  apply lb_here. right; right; left; reflexivity.
Qed.
