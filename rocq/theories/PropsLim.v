(** * PropsLim: theorems about limits (C36, C37, C39, C40, C44, C45) *)
From Coq Require Import ZArith List String Bool Lia Lra.
From Coq Require Import Reals.
From Coquelicot Require Import Coquelicot.
From Verif Require Import Base Float Rational SmartNum Ast Compute Limit Spec SpecTree SpecR SpecLim.
From Verif Require Import BaseProofs NumProofs NumProofs2 TreeProofs TreeProofs2 TreeProofs3 TreeProofs4 TreeProofs5.
From Verif Require Import RealProofs RealDeriv RealDeriv2 RealTaylor LimProofs LHopital LimSound PropsTree PropsReal.
Import ListNotations.
Open Scope R_scope.
Open Scope string_scope.
Open Scope res_scope.

(** ** C36 the limit algebra is sound *)
Theorem c36_add (F : (R -> Prop) -> Prop) {FF : Filter F} rho f g a b z :
  describes F rho f a -> describes F rho g b -> l_add a b = ROk z ->
  describes F rho (fun t => f t + g t) z.
Proof. apply add_sound. exact FF. Qed.
Print Assumptions c36_add.

Theorem c36_sub (F : (R -> Prop) -> Prop) {FF : Filter F} rho f g a b z :
  describes F rho f a -> describes F rho g b -> l_sub a b = ROk z ->
  describes F rho (fun t => f t - g t) z.
Proof. intros Ha Hb H. apply (add_sound F rho f (fun t => - g t) a (l_neg b)); [exact Ha|apply neg_sound; assumption|exact H]. Qed.
Print Assumptions c36_sub.

Theorem c36_neg (F : (R -> Prop) -> Prop) {FF : Filter F} rho f a :
  describes F rho f a -> describes F rho (fun t => - f t) (l_neg a).
Proof. apply neg_sound. exact FF. Qed.
Print Assumptions c36_neg.

Theorem c36_mul (F : (R -> Prop) -> Prop) {FF : Filter F} rho f g a b z :
  describes F rho f a -> describes F rho g b -> safe_mul rho a b -> l_mul a b = ROk z ->
  describes F rho (fun t => f t * g t) z.
Proof. apply mul_sound. exact FF. Qed.
Print Assumptions c36_mul.

Theorem c36_div (F : (R -> Prop) -> Prop) {FF : Filter F} rho f g a b z :
  describes F rho f a -> describes F rho g b -> safe_div rho a b -> F (fun t => g t <> 0) ->
  l_div a b = ROk z -> describes F rho (fun t => f t / g t) z.
Proof. apply div_sound. exact FF. Qed.
Print Assumptions c36_div.

(** the values meet the hypotheses: t -> 0, t<>0, (2 + t) / (1/t) etc. *)
Lemma near_id a : filterlim (fun t => t) (near a) (locally a).
Proof. intros Q HQ. unfold filtermap, near, locally', within. generalize HQ. apply filter_imp. auto. Qed.
Lemma near_nonzero : near 0 (fun t => t <> 0).
Proof. unfold near, locally', within. apply filter_forall. auto. Qed.
Lemma inv_inf : filterlim (fun t => Rabs (/ t)) (near 0) (Rbar_locally p_infty).
Proof. apply (inv_big (near 0) (fun t => t)); [apply near_id|apply near_nonzero]. Qed.

Example c36_example rho :
  describes (near 0) rho (fun t => / t) Infinity /\
  describes (near 0) rho (fun t => t) Infinitesimal /\
  describes (near 0) rho (fun t => 2) (Normal (e_of_i64 2)) /\
  safe_mul rho Infinity (Normal (e_of_i64 2)) /\ l_mul Infinity (Normal (e_of_i64 2)) = ROk Infinity /\
  safe_div rho (Normal (e_of_i64 2)) Infinitesimal /\ l_div (Normal (e_of_i64 2)) Infinitesimal = ROk Infinity.
Proof.
  assert (eval rho (e_of_i64 2) = Some 2) as E.
  { unfold e_of_i64, e_num. rewrite eval_num. exact (num_R_int 2). }
  split; [exact inv_inf|]. split; [exact (near_id 0)|]. split.
  { exists 2. split; [exact E|apply filterlim_const]. }
  split; [cbn [safe_mul]; rewrite E; intros [=]; lra|]. split; [reflexivity|].
  split; [cbn [safe_div]; intros _; rewrite E; intros [=]; lra|reflexivity].
Qed.

(** without the guard the rules are wrong: 1/t is Infinity, 0 is Normal 0, but their product
    is not Infinity *)
Definition mul_always_sound : Prop := forall rho f g a b z,
  describes (near 0) rho f a -> describes (near 0) rho g b -> l_mul a b = ROk z ->
  describes (near 0) rho (fun t => f t * g t) z.
Lemma zero_not_inf : ~ filterlim (fun t : R => Rabs 0) (near 0) (Rbar_locally p_infty).
Proof.
  intros H. destruct (@filter_ex R (near 0) (Proper_near 0) _ (H (fun y => 0 < y) (ex_intro _ 0 (fun y Hy => Hy)))) as (t & Ht).
  rewrite Rabs_R0 in Ht. lra.
Qed.
Theorem c36_refuted_mul_zero : ~ mul_always_sound.
Proof.
  intros H. specialize (H (fun _ => 0) (fun t => / t) (fun _ => 0) Infinity (Normal e_zero) Infinity inv_inf).
  apply zero_not_inf.
  assert (describes (near 0) (fun _ => 0) (fun t => / t * 0) Infinity) as K.
  { apply H; [|reflexivity]. exists 0. split; [apply eval_zero|apply filterlim_const]. }
  cbn [describes] in K. revert K. apply filterlim_ext. intros t. rewrite Rmult_0_r. reflexivity.
Qed.
Print Assumptions c36_refuted_mul_zero.

(** ** C37 commutativity of the limit algebra *)
Definition add_commutes : Prop := forall a b, same_outcome (l_add a b) (l_add b a).
Theorem c37_refuted_add : ~ add_commutes.
Proof. intros H. exact (H Infinity Infinitesimal). Qed.
Print Assumptions c37_refuted_add.
(** it is the only exception *)
Theorem c37_add_otherwise a b :
  ~ (a = Infinity /\ b = Infinitesimal) -> ~ (a = Infinitesimal /\ b = Infinity) ->
  same_outcome (l_add a b) (l_add b a).
Proof. intros H1 H2. destruct a, b; cbn; auto. Qed.
Print Assumptions c37_add_otherwise.
(** multiplication commutes, also in what the result describes *)
Theorem c37_mul a b : same_outcome (l_mul a b) (l_mul b a).
Proof. destruct a, b; cbn; auto. Qed.
Print Assumptions c37_mul.
Theorem c37_same_meaning (F : (R -> Prop) -> Prop) {FF : Filter F} rho f a b y z :
  l_add a b = ROk y /\ l_add b a = ROk z \/ l_mul a b = ROk y /\ l_mul b a = ROk z ->
  describes F rho f y <-> describes F rho f z.
Proof.
  assert (forall u v op, (op = OAdd \/ op = OMul) -> eval rho (mk2 op u v) = eval rho (mk2 op v u)) as C.
  { intros u v op Ho. rewrite !eval_mk2. destruct (eval rho u) as [p|], (eval rho v) as [q|]; cbn; try reflexivity.
    destruct Ho as [-> | ->]; cbn [ev2]; f_equal; ring. }
  intros [[H1 H2]|[H1 H2]]; destruct a as [| | |ea], b as [| | |eb]; cbn in H1, H2; try discriminate;
    injection H1 as <-; injection H2 as <-; cbn [describes]; try reflexivity.
  - unfold e_add. rewrite (C eb ea) by auto. reflexivity.
  - unfold e_mul. rewrite (C eb ea) by auto. reflexivity.
Qed.
Print Assumptions c37_same_meaning.
Example c37_example : l_add Infinity (Normal e_one) = ROk Infinity /\ l_add (Normal e_one) Infinity = ROk Infinity.
Proof. split; reflexivity. Qed.

(** ** C39 soundness of limit *)

(** where the expression has a value, limit never reports an error, and answers that value *)
Theorem c39_limit_is_value fuel rho x to a ord e v y :
  wf e -> plain e -> wf to -> plain to -> ~ has_pi to -> (0 <= ord)%Z ->
  eval rho to = Some a -> eval (upd rho x a) e = Some v ->
  (is_zero to = true -> forall u, asks x to ord e (e_sin u) -> eval (upd rho x a) u = Some 0) ->
  limit fuel Strict e (e_var x) to ord = Ok y ->
  exists z, y = ROk z /\ limit_value rho z = Some v.
Proof.
  intros W P Wt Pt N Ho Ht Hv Hs H. change (limit_var fuel Strict x to ord e = Ok y) in H.
  destruct (limit_at_defined rho x to a ord (conj Wt Pt) N Ht Ho e W P Hs v Hv fuel y H) as (z & -> & V & _). eauto.
Qed.
Print Assumptions c39_limit_is_value.

(** ... and it then is the limit of the function *)
Theorem c39_value_is_limit rho x a e v :
  wf e -> plain e -> eval (upd rho x a) e = Some v ->
  filterlim (evalx rho x e) (near a) (locally v).
Proof.
  intros W P Hv. rewrite <- (evalx_at _ _ _ _ _ Hv). apply cont_at; [split; assumption|]. exists v. exact Hv.
Qed.
Print Assumptions c39_value_is_limit.

(** at any point, singular or not, including the rewritings of indeterminate forms and the
    rule of L'Hopital: the answer describes the function near the point *)
Theorem c39_limit_sound fuel rho x to a ord e z :
  wf e -> plain e -> wf to -> plain to -> ~ has_pi to ->
  eval rho to = Some a -> limit_regular rho x to a ord e ->
  limit fuel Strict e (e_var x) to ord = Ok (ROk z) ->
  describes (near a) rho (evalx rho x e) z.
Proof.
  intros W P Wt Pt N Ht Hr H. change (limit_var fuel Strict x to ord e = Ok (ROk z)) in H.
  exact (proj1 (limit_sound rho x to a ord (conj Wt Pt) N Ht fuel e z (conj W P) Hr H)).
Qed.
Print Assumptions c39_limit_sound.

(** *** examples *)
Lemma plain_e_of_i64 n : plain (e_of_i64 n). Proof. apply plain_num. Qed.
Ltac wfp := unfold e_div, e_add, e_mul, e_sub, e_sin, e_cos, ex_x, e_one, e_zero;
  repeat first [apply wf_mk2; [reflexivity| |]|apply wf_mk1; [reflexivity|]|apply wf_var|apply wf_num'; apply sn_of_i64_ok; reflexivity
    |apply plain_mk2; split; [discriminate|split]|apply plain_var|apply plain_e_of_i64].

Definition ex_ratio : expr := e_div (e_add (e_mul ex_x ex_x) (e_of_i64 3)) (e_add ex_x e_one).
Example c39_example_value rho :
  wf ex_ratio /\ plain ex_ratio /\ wf e_one /\ plain e_one /\ ~ has_pi e_one /\ eval rho e_one = Some 1 /\
  eval (upd rho "x" 1) ex_ratio = Some 2 /\
  exists n, limit 5 Strict ex_ratio ex_x e_one 0 = Ok (ROk (Normal (e_num n))) /\ num_R n = Some 2.
Proof.
  split; [unfold ex_ratio; wfp|]. split; [unfold ex_ratio; wfp|]. split; [apply wf_one|]. split; [apply plain_e_of_i64|].
  split; [exact npi_one|]. split; [apply eval_one|].
  split; [|eexists; split; [vm_compute; reflexivity|unfold num_R; cbn; f_equal; unfold Q2R; cbn; field]].
  assert (eval (upd rho "x" 1) ex_x = Some 1) as Ex by reflexivity.
  assert (eval (upd rho "x" 1) (e_of_i64 3) = Some 3) as E3.
  { unfold e_of_i64, e_num. rewrite eval_num. exact (num_R_int 3). }
  unfold ex_ratio, e_div, e_add, e_mul. rewrite !eval_mk2, Ex, E3, eval_one. cbn [obind ev2].
  destruct (Req_EM_T (1 + 1) 0); [lra|]. f_equal. field.
Qed.

(** sin(x)/x at 0, a true 0/0 form, meets the guard and gets the answer 1 *)
Definition ex_sinc : expr := e_div (e_sin ex_x) ex_x.
Lemma answers_det x to ord e y z : answers x to ord e y -> answers x to ord e z -> y = z.
Proof.
  intros [f1 H1] [f2 H2].
  destruct (limit_var_fle Strict x to ord f1 (f1 + f2) e ltac:(lia)) as [E|E]; [congruence|].
  destruct (limit_var_fle Strict x to ord f2 (f1 + f2) e ltac:(lia)) as [E'|E']; congruence.
Qed.
Lemma asks_operand x to ord o s : asks x to ord (Expr (Operand o) []) s -> s = Expr (Operand o) [].
Proof. intros H. inversion H; subst. reflexivity. Qed.
Lemma asks_mk1 x to ord t b s : asks x to ord (mk1 t b) s -> s = mk1 t b.
Proof. intros H. inversion H; subst. reflexivity. Qed.
(** what dividing [l] by [r] asks for *)
Lemma asks_div x to ord l r s : asks x to ord (e_div l r) s ->
  s = e_div l r \/ asks x to ord l s \/ asks x to ord r s \/
  exists a b l' r', answers x to ord l a /\ answers x to ord r b /\ l_div a b = lerr /\
    deriv Strict x l = Ok l' /\ deriv Strict x r = Ok r' /\ asks x to ord (e_div l' r') s.
Proof.
  intros H. remember (e_div l r) as e eqn:Ee. destruct H; try discriminate Ee; auto.
  - unfold e_div in Ee. apply mk2_inj in Ee as (-> & -> & ->). auto.
  - unfold e_div in Ee. apply mk2_inj in Ee as (-> & -> & ->). auto.
  - unfold e_div in Ee. apply mk2_inj in Ee as (_ & -> & ->). right; right; right. exists a, b, l', r'. auto 10.
Qed.
Lemma ans_sin : answers "x" e_zero 1 (e_sin ex_x) Infinitesimal.
Proof. exists 5%nat. vm_compute. reflexivity. Qed.
Lemma ans_x : answers "x" e_zero 1 ex_x Infinitesimal.
Proof. exists 5%nat. vm_compute. reflexivity. Qed.
Lemma ans_cos : answers "x" e_zero 1 (e_cos ex_x) (Normal e_one).
Proof. exists 5%nat. vm_compute. reflexivity. Qed.
Lemma ans_one : answers "x" e_zero 1 e_one (Normal e_one).
Proof. exists 5%nat. vm_compute. reflexivity. Qed.

Lemma sinc_asks s : asks "x" e_zero 1 ex_sinc s ->
  s = ex_sinc \/ s = e_sin ex_x \/ s = ex_x \/ s = e_div (e_cos ex_x) e_one \/ s = e_cos ex_x \/ s = e_one.
Proof.
  intros H. apply asks_div in H as [->|[H|[H|(a & b & l' & r' & Ha & Hb & _ & Hl & Hr & H)]]].
  - auto.
  - apply asks_mk1 in H. auto.
  - apply asks_operand in H. auto.
  - assert (deriv Strict "x" (e_sin ex_x) = Ok (e_cos ex_x)) as El by (vm_compute; reflexivity).
    assert (deriv Strict "x" ex_x = Ok e_one) as Er by (vm_compute; reflexivity).
    rewrite El in Hl. rewrite Er in Hr. injection Hl as <-. injection Hr as <-. clear El Er.
    apply asks_div in H as [->|[H|[H|(a' & b' & l' & r' & Ha' & Hb' & Hd & _)]]].
    + auto 10.
    + apply asks_mk1 in H. auto 10.
    + apply asks_operand in H. auto 10.
    + exfalso.
      pose proof (answers_det _ _ _ _ _ _ Ha' ans_cos) as ->.
      pose proof (answers_det _ _ _ _ _ _ Hb' ans_one) as ->.
      discriminate Hd.
Qed.
Example c39_example_sinc rho :
  wf ex_sinc /\ plain ex_sinc /\ limit_regular rho "x" e_zero 0 1 ex_sinc /\
  limit 5 Strict ex_sinc ex_x e_zero 1 = Ok (ROk (Normal e_one)).
Proof.
  assert (forall t, eval (upd rho "x" t) ex_x = Some t) as Ex by reflexivity.
  assert (~ has_pi ex_x) as Nx by exact (npi_var "x").
  split; [unfold ex_sinc; wfp|]. split.
  { unfold ex_sinc; wfp. apply plain_mk1. split; [discriminate|]. split; [apply plain_var|]. intros _. exact Nx. }
  split; [|vm_compute; reflexivity]. constructor.
  - intros s Hs. unfold eventually_defined. generalize near_nonzero. apply filter_imp. intros t Nt.
    apply sinc_asks in Hs as [->|[->|[->|[->|[->| ->]]]]].
    + exists (sin t / t). unfold ex_sinc, e_div, e_sin. rewrite eval_mk2, eval_mk1, Ex. cbn [obind ev1 ev2].
      destruct (Req_EM_T t 0); [contradiction|reflexivity].
    + exists (sin t). unfold e_sin. rewrite eval_mk1, Ex. reflexivity.
    + exists t. apply Ex.
    + exists (cos t / 1). unfold e_div, e_cos. rewrite eval_mk2, eval_mk1, Ex, eval_one. cbn [obind ev1 ev2].
      destruct (Req_EM_T 1 0); [lra|reflexivity].
    + exists (cos t). unfold e_cos. rewrite eval_mk1, Ex. reflexivity.
    + exists 1. apply eval_one.
  - intros l r u v H. apply sinc_asks in H as [H|[H|[H|[H|[H|H]]]]]; discriminate H.
  - intros l r u v H Hu Hv. apply sinc_asks in H as [H|[H|[H|[H|[H|H]]]]]; try discriminate H;
      apply mk2_inj in H as (_ & -> & ->).
    + pose proof (answers_det _ _ _ _ _ _ Hu ans_sin) as ->.
      pose proof (answers_det _ _ _ _ _ _ Hv ans_x) as ->. exact I.
    + pose proof (answers_det _ _ _ _ _ _ Hu ans_cos) as ->.
      pose proof (answers_det _ _ _ _ _ _ Hv ans_one) as ->.
      cbn [safe_div]. rewrite eval_one. intros [=]. lra.
  - intros u [H|H]; apply sinc_asks in H as [H|[H|[H|[H|[H|H]]]]]; try discriminate H;
      apply mk1_inj in H as (_ & ->); exists 0; apply Ex.
  - intros u _ H. apply sinc_asks in H as [H|[H|[H|[H|[H|H]]]]]; try discriminate H.
    apply mk1_inj in H as (_ & ->). apply Ex.
Qed.
(** so the theorem gives the classical limit *)
Corollary c39_sinc rho : filterlim (fun t => evalx rho "x" ex_sinc t) (near 0) (locally 1).
Proof.
  destruct (c39_example_sinc rho) as (W & P & Hr & H).
  destruct (c39_limit_sound 5 rho "x" e_zero 0 1 ex_sinc _ W P wf_zero (plain_e_of_i64 0) npi_zero (eval_zero rho) Hr H) as (v & Hv & L).
  rewrite eval_one in Hv. injection Hv as <-. exact L.
Qed.

(** ** C40 limit of sin at 0 *)
Definition sin_rule_sound : Prop := forall fuel rho x to a e z,
  wf e -> plain e -> eval rho to = Some a -> defined (upd rho x a) (e_sin e) ->
  limit fuel Strict (e_sin e) (e_var x) to 0 = Ok (ROk z) -> describes (near a) rho (evalx rho x (e_sin e)) z.
Lemma lim_unique (f : R -> R) a u v : filterlim f (near a) (locally u) -> filterlim f (near a) (locally v) -> u = v.
Proof.
  intros H1 H2. apply (@filterlim_locally_unique R R_AbsRing R_NormedModule (near a) (@Proper_StrongProper _ _ (Proper_near a)) f u v H1 H2).
Qed.
(** sin(y) at x -> 0, for a variable y different from x *)
Theorem c40_refuted_sin_at_zero : ~ sin_rule_sound.
Proof.
  intros H. specialize (H 1%nat (fun _ => PI / 2) "x" e_zero 0 ex_y Infinitesimal (wf_var _) (plain_var _) (eval_zero _)).
  assert (forall t, eval (upd (fun _ => PI / 2) "x" t) (e_sin ex_y) = Some 1) as E.
  { intros t. unfold e_sin. rewrite eval_mk1. cbn. rewrite sin_PI2. reflexivity. }
  specialize (H (ex_intro _ 1 (E 0)) eq_refl). cbn [describes] in H.
  assert (filterlim (evalx (fun _ => PI / 2) "x" (e_sin ex_y)) (near 0) (locally 1)) as K.
  { apply (filterlim_ext (fun _ => 1)); [|apply filterlim_const]. intros t. unfold evalx. rewrite E. reflexivity. }
  pose proof (lim_unique _ _ _ _ H K). lra.
Qed.
Print Assumptions c40_refuted_sin_at_zero.
(** the answer at 0 is Infinitesimal whatever the argument is *)
Theorem c40_sin_at_zero_ignores_argument fuel m e x to ord :
  is_zero to = true -> limit (S fuel) m (e_sin e) (e_var x) to ord = Ok (ROk Infinitesimal).
Proof. intros Z. unfold limit. cbn. unfold sin_limit_expr_rule. rewrite Z. reflexivity. Qed.
Print Assumptions c40_sin_at_zero_ignores_argument.
(** away from 0 the rule is right *)
Theorem c40_sin_elsewhere fuel rho x to a e z :
  wf e -> plain (e_sin e) -> wf to -> plain to -> ~ has_pi to -> eval rho to = Some a -> is_zero to = false ->
  defined (upd rho x a) e ->
  limit fuel Strict (e_sin e) (e_var x) to 0 = Ok (ROk z) ->
  describes (near a) rho (evalx rho x (e_sin e)) z.
Proof.
  intros W P Wt Pt N Ht Z [u Hu] H.
  assert (eval (upd rho x a) (e_sin e) = Some (sin u)) as Hv. { unfold e_sin. rewrite eval_mk1, Hu. reflexivity. }
  assert (wf (e_sin e)) as Ws by (apply wf_mk1; [reflexivity|exact W]).
  destruct (c39_limit_is_value fuel rho x to a 0 (e_sin e) (sin u) (ROk z) Ws P Wt Pt N ltac:(lia) Ht Hv ltac:(congruence) H)
    as (z' & [= <-] & V).
  pose proof (c39_value_is_limit rho x a (e_sin e) (sin u) Ws P Hv) as L.
  destruct z as [| | |w]; try discriminate.
  - injection V as V. cbn [describes]. rewrite V. exact L.
  - exists (sin u). split; [exact V|exact L].
Qed.
Print Assumptions c40_sin_elsewhere.
Example c40_example rho : wf (e_mul ex_x ex_x) /\ plain (e_sin (e_mul ex_x ex_x)) /\ defined (upd rho "x" 1) (e_mul ex_x ex_x) /\
  is_zero e_one = false /\ limit 5 Strict (e_sin (e_mul ex_x ex_x)) ex_x e_one 0 = Ok (ROk (Normal (e_sin e_one))).
Proof.
  assert (~ has_pi ex_x) as Nx by exact (npi_var "x").
  split; [wfp|]. split.
  { apply plain_mk1. split; [discriminate|]. split; [wfp|]. intros _ K. apply has_pi_mk2 in K. tauto. }
  split; [exists (1 * 1); reflexivity|]. split; [reflexivity|vm_compute; reflexivity].
Qed.

(** ** C44 BoundedFluctuation is never answered *)
Theorem c44_never_bounded_fluctuation fuel m e of_ to ord z :
  limit fuel m e of_ to ord = Ok (ROk z) -> z <> BoundedFluctuation.
Proof.
  unfold limit. destruct (to_variable of_) as [x|]; [|discriminate]. apply limit_no_bf.
Qed.
Print Assumptions c44_never_bounded_fluctuation.
Example c44_example : limit 5 Debug ex_sinc ex_x e_zero 1 = Ok (ROk (Normal e_one)).
Proof. vm_compute. reflexivity. Qed.

(** ** C45 wrong limits: a zero that is not written Infinitesimal, and cos at pi *)
Definition limit_always_sound : Prop := forall fuel rho x to a ord e z,
  wf e -> wf to -> eval rho to = Some a -> eventually_defined (near a) rho x e ->
  limit fuel Strict e (e_var x) to ord = Ok (ROk z) -> describes (near a) rho (evalx rho x e) z.
(** (1/x) * 0 at 0 is answered Infinity *)
Definition ex_inf0 : expr := e_mul (e_div e_one ex_x) e_zero.
Theorem c45_refuted_infinity_times_zero : ~ limit_always_sound.
Proof.
  intros H. specialize (H 5%nat (fun _ => 0) "x" e_zero 0 0%Z ex_inf0 Infinity).
  assert (forall t, t <> 0 -> eval (upd (fun _ => 0) "x" t) ex_inf0 = Some 0) as E.
  { intros t Nt. unfold ex_inf0, e_mul, e_div. rewrite !eval_mk2, eval_one, eval_zero.
    change (eval (upd (fun _ => 0) "x" t) ex_x) with (Some t). cbn [obind ev2].
    destruct (Req_EM_T t 0); [contradiction|]. cbn. f_equal. ring. }
  apply zero_not_inf.
  assert (describes (near 0) (fun _ => 0) (evalx (fun _ => 0) "x" ex_inf0) Infinity) as K.
  { apply H; [unfold ex_inf0; wfp|apply wf_zero|apply eval_zero| |vm_compute; reflexivity].
    unfold eventually_defined. generalize near_nonzero. apply filter_imp. intros t Nt. exists 0. exact (E t Nt). }
  cbn [describes] in K. revert K. apply filterlim_ext_loc. generalize near_nonzero. apply filter_imp.
  intros t Nt. unfold evalx. rewrite (E t Nt). reflexivity.
Qed.
Print Assumptions c45_refuted_infinity_times_zero.
(** (x+1)/((x+1)+(-1)) at 0 tends to infinity; the answer is the number 1/0 *)
Definition ex_hidden0 : expr := e_div (e_add ex_x e_one) (e_add (e_add ex_x e_one) (e_of_i64 (-1))).
Theorem c45_refuted_division_by_hidden_zero :
  exists n, limit 6 Strict ex_hidden0 ex_x e_zero 0 = Ok (ROk (Normal (e_num n))) /\ num_R n = None /\
  forall rho, filterlim (fun t => Rabs (evalx rho "x" ex_hidden0 t)) (near 0) (Rbar_locally p_infty).
Proof.
  eexists. split; [vm_compute; reflexivity|]. split; [reflexivity|]. intros rho.
  assert (forall t, eval (upd rho "x" t) (e_of_i64 (-1)) = Some (-1)) as Em.
  { intros t. unfold e_of_i64, e_num. rewrite eval_num. exact (num_R_int (-1)). }
  apply (filterlim_ext_loc (fun t => Rabs ((t + 1) / t))).
  { generalize near_nonzero. apply filter_imp. intros t Nt. unfold evalx, ex_hidden0, e_div, e_add.
    rewrite !eval_mk2, eval_one, Em. change (eval (upd rho "x" t) ex_x) with (Some t). cbn [obind ev2].
    replace (t + 1 + -1) with t by ring. destruct (Req_EM_T t 0); [contradiction|reflexivity]. }
  apply (away_big (near 0) (fun t => t + 1) (fun t => / t) (1 / 2)); [lra| |exact inv_inf].
  pose proof (near_id 0) as L. rewrite (lim_iff (near 0)) in L by typeclasses eauto. generalize (L (1 / 2) ltac:(lra)). apply filter_imp.
  intros t Ht. rewrite Rminus_0_r in Ht. apply Rabs_def2 in Ht. rewrite Rabs_right; lra.
Qed.
Print Assumptions c45_refuted_division_by_hidden_zero.
(** cos(x) at pi is answered 1 *)
Theorem c45_refuted_cos_at_pi :
  limit 2 Strict (e_cos ex_x) ex_x e_pi 0 = Ok (ROk (Normal e_one)) /\
  forall rho, filterlim (evalx rho "x" (e_cos ex_x)) (near PI) (locally (-1)).
Proof.
  split; [vm_compute; reflexivity|]. intros rho. apply c39_value_is_limit.
  - wfp.
  - apply plain_mk1. split; [discriminate|]. split; [apply plain_var|]. intros _. exact (npi_var "x").
  - unfold e_cos. rewrite eval_mk1. cbn. rewrite cos_PI. reflexivity.
Qed.
Print Assumptions c45_refuted_cos_at_pi.
