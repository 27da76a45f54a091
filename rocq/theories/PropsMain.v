(** * PropsMain: the demo program (C72); errors of to_smart_num and near (C50) *)
From Coq Require Import ZArith List String Bool Reals Lra Lia.
From Verif Require Import Base Float Rational SmartNum Ast Compute Limit Display Main.
From Verif Require Import Spec SpecTree SpecR SpecBigO.
From Verif Require Import BaseProofs NumProofs NumProofs2 TreeProofs TreeProofs2 TreeProofs3 RealProofs RealDeriv RealDeriv2 RealTaylor.
From Verif Require Import PropsTree PropsReal PropsBigO.
Import ListNotations.
Open Scope string_scope.

(** ** C72: the demo program prints true statements about exp and ln *)

(** what it prints, in both builds *)
Theorem c72_output m : m = Debug \/ m = Release ->
  main m = Ok [
    "Hello, world!";
    "Taylor expansion of expx: 1 * x ^ 0 + 1 * x ^ 1 + 1/2 * x ^ 2 + 1/6 * x ^ 3 + 1/24 * x ^ 4 + 1/120 * x ^ 5 + O(x ^ 6)";
    "Taylor expansion of lnx: 1 * (x - 1) ^ 1 + -1/2 * (x - 1) ^ 2 + 1/3 * (x - 1) ^ 3 + -1/4 * (x - 1) ^ 4 + 1/5 * (x - 1) ^ 5 + O((x - 1) ^ 6)"].
Proof. intros [-> | ->]; vm_compute; reflexivity. Qed.
Print Assumptions c72_output.

(** the six terms it prints *)
Definition poly6 (c : list R) (h : R) : R :=
  (nth 0 c 0 + nth 1 c 0 * h + nth 2 c 0 * h^2 + nth 3 c 0 * h^3 + nth 4 c 0 * h^4 + nth 5 c 0 * h^5)%R.

Lemma demo_true rho f at_ a t cs : wf f -> wf at_ -> eval rho at_ = Some a ->
  taylor_regular rho "x" at_ a f -> defined (upd rho "x" a) f ->
  taylor_expansion Strict f (e_var "x") at_ 5 = Ok (ROk t) ->
  map (eval rho) (ex_coef t) = map Some cs ->
  big_O rho "x" f a (fun y => poly6 cs (y - a)) 6.
Proof.
  intros Wf Wa Ea Hr Hd H Hc.
  assert (forall k, value rho (nth k (ex_coef t) e_zero) = nth k cs 0%R) as V.
  { intros k. assert (value rho e_zero = 0%R) as Z.
    { unfold value, e_zero, e_of_i64, e_num. rewrite eval_num, num_R_int. reflexivity. }
    rewrite <- (map_nth (value rho)), Z. f_equal.
    transitivity (map (fun o : option R => match o with Some v => v | None => 0%R end) (map (eval rho) (ex_coef t))).
    - rewrite map_map. reflexivity.
    - rewrite Hc, map_map. apply map_id. }
  destruct (c69_big_O rho "x" at_ a f 5 t Wf Wa Ea Hr Hd H) as (C & eps & He & Hb).
  exists C, eps. split; [exact He|]. intros y Hy. destruct (Hb y Hy) as (v & Ev & B). exists v. split; [exact Ev|].
  replace (poly6 cs (y - a)) with (polynomial (fun k => value rho (nth k (ex_coef t) e_zero)) 5 a y); [exact B|].
  unfold polynomial, poly6. cbn [sum_f_R0]. rewrite !V. ring.
Qed.

Lemma eval_lit rho n : eval rho (e_num n) = num_R n.
Proof. exact (eval_num rho n). Qed.

(** the expansion it prints for exp is that of the real function exp at 0 *)
Theorem c72_exp m rho : m = Debug \/ m = Release ->
  exists t, taylor_expansion m (e_exp (e_var "x")) (e_var "x") e_zero 5 = Ok (ROk t) /\
    map (eval rho) (ex_coef t) = map Some [1; 1; 1/2; 1/6; 1/24; 1/120]%R /\
    exists C eps, (0 < eps)%R /\ forall y, (Rabs y < eps)%R ->
      (Rabs (exp y - (1 + y + y^2/2 + y^3/6 + y^4/24 + y^5/120)) <= C * Rabs y ^ 6)%R.
Proof.
  intros Hm.
  destruct (taylor_expansion Strict (e_exp (e_var "x")) (e_var "x") e_zero 5) as [[t|]| | |] eqn:E;
    [|exfalso; vm_compute in E; discriminate..].
  assert (taylor_expansion m (e_exp (e_var "x")) (e_var "x") e_zero 5 = Ok (ROk t)) as Em.
  { rewrite <- E. destruct Hm as [-> | ->]; vm_compute; reflexivity. }
  assert (map (eval rho) (ex_coef t) = map Some [1; 1; 1/2; 1/6; 1/24; 1/120]%R) as Hc.
  { vm_compute in E. injection E as <-. cbn [ex_coef map]. repeat (rewrite eval_lit || rewrite (eval_num rho)).
    unfold num_R; cbn [ntag nval val_Q option_map ratQ rsign rnum rden].
    repeat f_equal; unfold Q2R; cbn; lra. }
  exists t. split; [exact Em|]. split; [exact Hc|].
  set (f := e_exp (e_var "x")) in *.
  assert (wf f) as W by (apply wf_mk1; [reflexivity|apply wf_var]).
  assert (taylor_regular rho "x" e_zero 0 f) as R.
  { assert (rgen (fun y => y <> "x") (fun b => ~ occurs "x" b) (upd rho "x" 0) f) as [G1 G2]
      by (unfold f, e_exp, e_var; reg).
    refine (conj G1 (conj G2 (conj _ (conj _ _)))).
    - intros (op & c & D & K). apply subterm_num in K. discriminate.
    - intros K. apply (proj1 (has_pi_num _)) in K. discriminate.
    - apply regular_rgen. apply rgen_num. }
  assert (eval rho e_zero = Some 0%R) as Ez by (unfold e_zero, e_of_i64, e_num; rewrite eval_num, num_R_int; reflexivity).
  assert (forall y, eval (upd rho "x" y) f = Some (exp y)) as Ef.
  { intros y. unfold f, e_exp, e_var. rewrite eval_mk1, eval_var, upd_same. reflexivity. }
  destruct (demo_true rho f e_zero 0 t _ W ltac:(apply wf_i64; reflexivity) Ez R ltac:(eexists; apply Ef) E Hc)
    as (C & eps & He & Hb).
  exists C, eps. split; [exact He|]. intros y Hy. destruct (Hb y) as (v & Ev & B); [now rewrite Rminus_0_r|].
  rewrite Ef in Ev. injection Ev as <-. rewrite Rminus_0_r in B. unfold poly6 in B. cbn [nth] in B.
  match type of B with (Rabs (_ - ?p) <= _)%R => replace p with (1 + y + y^2/2 + y^3/6 + y^4/24 + y^5/120)%R in B by field end.
  exact B.
Qed.
Print Assumptions c72_exp.

(** and for ln, at 1 *)
Theorem c72_ln m rho : m = Debug \/ m = Release ->
  exists t, taylor_expansion m (e_ln (e_var "x")) (e_var "x") e_one 5 = Ok (ROk t) /\
    map (eval rho) (ex_coef t) = map Some [0; 1; -1/2; 1/3; -1/4; 1/5]%R /\
    exists C eps, (0 < eps)%R /\ forall h, (Rabs h < eps)%R ->
      (Rabs (ln (1 + h) - (h - h^2/2 + h^3/3 - h^4/4 + h^5/5)) <= C * Rabs h ^ 6)%R.
Proof.
  intros Hm.
  destruct (taylor_expansion Strict (e_ln (e_var "x")) (e_var "x") e_one 5) as [[t|]| | |] eqn:E;
    [|exfalso; vm_compute in E; discriminate..].
  assert (taylor_expansion m (e_ln (e_var "x")) (e_var "x") e_one 5 = Ok (ROk t)) as Em.
  { rewrite <- E. destruct Hm as [-> | ->]; vm_compute; reflexivity. }
  assert (map (eval rho) (ex_coef t) = map Some [0; 1; -1/2; 1/3; -1/4; 1/5]%R) as Hc.
  { vm_compute in E. injection E as <-. cbn [ex_coef map]. repeat (rewrite eval_lit || rewrite (eval_num rho)).
    unfold num_R; cbn [ntag nval val_Q option_map ratQ rsign rnum rden].
    repeat f_equal; unfold Q2R; cbn; lra. }
  exists t. split; [exact Em|]. split; [exact Hc|].
  set (f := e_ln (e_var "x")) in *.
  assert (wf f) as W by (apply wf_mk1; [reflexivity|apply wf_var]).
  assert (taylor_regular rho "x" e_one 1 f) as R.
  { assert (rgen (fun y => y <> "x") (fun b => ~ occurs "x" b) (upd rho "x" 1) f) as [G1 G2]
      by (unfold f, e_ln, e_var; reg).
    refine (conj G1 (conj G2 (conj _ (conj _ _)))).
    - intros (op & c & D & K). apply subterm_num in K. discriminate.
    - intros K. apply (proj1 (has_pi_num _)) in K. discriminate.
    - apply regular_rgen. apply rgen_num. }
  assert (eval rho e_one = Some 1%R) as Ez by (unfold e_one, e_of_i64, e_num; rewrite eval_num, num_R_int; reflexivity).
  assert (forall y, (0 < y)%R -> eval (upd rho "x" y) f = Some (ln y)) as Ef.
  { intros y Hy. unfold f, e_ln, e_var. rewrite eval_mk1, eval_var, upd_same. cbn [obind ev1].
    destruct (Rlt_dec 0 y); [reflexivity|contradiction]. }
  destruct (demo_true rho f e_one 1 t _ W ltac:(apply wf_i64; reflexivity) Ez R ltac:(eexists; apply Ef; lra) E Hc)
    as (C & eps & He & Hb).
  exists C, (Rmin eps 1). split; [apply Rmin_glb_lt; lra|]. intros h Hh.
  assert (Rabs h < eps)%R as H1 by (eapply Rlt_le_trans; [exact Hh|apply Rmin_l]).
  assert (Rabs h < 1)%R as H2 by (eapply Rlt_le_trans; [exact Hh|apply Rmin_r]).
  assert (0 < 1 + h)%R as H3 by (apply Rabs_def2 in H2; lra).
  destruct (Hb (1 + h)%R) as (v & Ev & B); [now replace (1 + h - 1)%R with h by ring|].
  rewrite (Ef _ H3) in Ev. injection Ev as <-. replace (1 + h - 1)%R with h in B by ring. unfold poly6 in B. cbn [nth] in B.
  match type of B with (Rabs (_ - ?p) <= _)%R => replace p with (h - h^2/2 + h^3/3 - h^4/4 + h^5/5)%R in B by field end.
  exact B.
Qed.
Print Assumptions c72_ln.

(** ** C50, continued: the errors of to_smart_num and near *)

(** to_smart_num fails exactly on non-numbers; the text is fixed; a variable (not an operator)
    adds a source error with its own text *)
Theorem c50_to_smart_num e :
  match to_smart_num_r e with
  | ROk n => is_num e = true /\ exists c, e = Expr (Operand (Num n)) c
  | RErr err => is_num e = false /\ not_num_to_string err = "This expression is not a number!" /\
      (is_operator e = true -> not_num_source err = None) /\
      (is_variable e -> exists src, not_num_source err = Some src /\
         operand_error_to_string src = "operand is not a number!" /\ operand_error_source src = None)
  end.
Proof.
  destruct e as [[op|[n|v]] c]; cbn.
  - repeat split. intros (x & c' & H). discriminate H.
  - split; [reflexivity|eauto].
  - repeat split; [intros H; discriminate H|]. intros _. eexists. split; [reflexivity|split; reflexivity].
Qed.
Print Assumptions c50_to_smart_num.

(** the error-dropping version used elsewhere in the model is the same function *)
Theorem c50_to_smart_num_same e n : to_smart_num_r e = ROk n <-> to_smart_num e = Some n.
Proof. destruct e as [[op|[k|v]] c]; cbn; split; intros H; try discriminate H; injection H as ->; reflexivity. Qed.
Print Assumptions c50_to_smart_num_same.

(** near reports the error of its first non-number, and otherwise agrees with C15's near *)
Theorem c50_near m a b eps :
  (forall err, to_smart_num_r a = RErr err -> near_r m a b eps = Ok (RErr err)) /\
  (forall x err, to_smart_num_r a = ROk x -> to_smart_num_r b = RErr err -> near_r m a b eps = Ok (RErr err)) /\
  (forall r, near_r m a b eps = Ok (ROk r) <-> e_near m a b eps = Ok (Some r)) /\
  (is_num a = true -> is_num b = true -> forall err, near_r m a b eps <> Ok (RErr err)).
Proof.
  unfold near_r, e_near. destruct a as [[op|[x|v]] c], b as [[op'|[y|v']] c']; cbn;
    (split; [intros err H; congruence|split; [intros x' err H H'; congruence|split]]);
    try (intros r; split; intros H; discriminate H); try (intros; discriminate).
  - intros r. destruct (sn_sub m x y) as [d| | |]; cbn; try (split; intros H; discriminate H).
    destruct (sn_to_f64 m d); cbn; split; intros H; try discriminate H; injection H as <-; reflexivity.
  - intros _ _ err. destruct (sn_sub m x y) as [d| | |]; cbn; try discriminate.
    destruct (sn_to_f64 m d); discriminate.
Qed.
Print Assumptions c50_near.

(** the unit values of the stored kind are the numbers zero and one *)
Theorem c07_unit_values : sn_of_val val_zero = sn_zero /\ sn_of_val val_one = sn_one /\
  val_is_zero val_zero = true /\ val_is_one val_one = true.
Proof. repeat split. Qed.
Print Assumptions c07_unit_values.

Example c50_near_example :
  near_r Debug (e_var "x") (e_neg e_one) f_E = Ok (RErr (ExprIsNotNumError (Some OperandIsNotNumberError))) /\
  near_r Debug e_one (e_neg e_one) f_E = Ok (RErr (ExprIsNotNumError None)) /\
  near_r Debug e_one (e_of_i64 3) f_E = Ok (ROk true) /\ near_r Release e_one (e_of_i64 4) f_E = Ok (ROk false).
Proof. repeat split; vm_compute; reflexivity. Qed.
