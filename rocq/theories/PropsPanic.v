(** * PropsPanic: when a debug build panics on integer expressions (C81) *)
From Coq Require Import ZArith List String Bool Lia Reals.
From Verif Require Import Base Float Rational SmartNum Ast Compute Spec SpecTree SpecR SpecInt SpecMod SpecPanic.
From Verif Require Import BaseProofs RationalProofs NumProofs NumProofs2 TreeProofs TreeProofs2 TreeProofs4 RealProofs IntProofs ModProofs PropsTree PropsInt PropsStd.
Import ListNotations.
Open Scope Z_scope.

(** the value of [s] is the integer [n] whatever the variables stand for *)
Definition constant_value (s : expr) (n : Z) : Prop := forall rho, eval rho s = Some (IZR n).

Lemma ip_tp e : int_poly e -> trig_poly e.
Proof. induction 1; constructor; assumption. Qed.

Lemma tp_is_num e : trig_poly e -> is_num e = true -> exists z, in_i64 z = true /\ e = e_of_i64 z.
Proof. intros H N. inversion H; subst; try discriminate N. eexists; split; [eassumption|reflexivity]. Qed.

Lemma rule2_debug t l r : trig_poly l -> trig_poly r -> t = OAdd \/ t = OSub \/ t = OMul ->
  (exists z, eval_rule Debug t [Ok l; Ok r] = Ok z) \/
  (exists y z, l = e_of_i64 y /\ r = e_of_i64 z /\ in_i64 (zop t y z) = false /\ eval_rule Debug t [Ok l; Ok r] = Panic).
Proof.
  intros L R T.
  assert (eval_rule Debug t [Ok l; Ok r] = match t with OAdd => add_eval_rule Debug [Ok l; Ok r] | OSub => sub_eval_rule Debug [Ok l; Ok r] | _ => mul_eval_rule Debug [Ok l; Ok r] end) as ->
    by (destruct T as [-> | [-> | ->]]; reflexivity).
  destruct (is_num l && is_num r) eqn:N.
  - apply andb_true_iff in N as (N1 & N2). destruct (tp_is_num l L N1) as (y & Iy & ->). destruct (tp_is_num r R N2) as (z & Iz & ->).
    assert (int_outcome Debug (zop t y z) (sn_op Debug t (sn_of_i64 y) (sn_of_i64 z))) as O.
    { destruct T as [-> | [-> | ->]]; [apply sn_add_int|apply sn_sub_int|apply sn_mul_int]; assumption. }
    unfold int_outcome in O. destruct (in_i64 (zop t y z)) eqn:I.
    + left. destruct T as [-> | [-> | ->]]; cbn [sn_op] in O; unfold add_eval_rule, sub_eval_rule, mul_eval_rule;
        cbn -[sn_add sn_sub sn_mul sn_of_i64]; rewrite O; eexists; reflexivity.
    + right. exists y, z. split; [reflexivity|]. split; [reflexivity|]. split; [assumption|].
      destruct T as [-> | [-> | ->]]; cbn [sn_op] in O; unfold add_eval_rule, sub_eval_rule, mul_eval_rule;
        cbn -[sn_add sn_sub sn_mul sn_of_i64]; rewrite O; reflexivity.
  - left. destruct T as [-> | [-> | ->]]; unfold add_eval_rule, sub_eval_rule, mul_eval_rule; cbn [eval2 pop_unwrap pop rev app bind]; rewrite N.
    + destruct (is_zero l); [eexists; reflexivity|]. destruct (is_zero r); eexists; reflexivity.
    + destruct (is_zero l); [eexists; reflexivity|]. destruct (is_zero r); eexists; reflexivity.
    + destruct (is_zero l || is_zero r); [eexists; reflexivity|]. destruct (is_one l); [eexists; reflexivity|]. destruct (is_one r); eexists; reflexivity.
Qed.

Lemma rule1_debug t a : trig_poly a -> t = ONeg \/ t = OSin \/ t = OCos ->
  (exists z, eval_rule Debug t [Ok a] = Ok z) \/
  (t = ONeg /\ exists y, a = e_of_i64 y /\ in_i64 (- y) = false /\ eval_rule Debug t [Ok a] = Panic).
Proof.
  intros A [-> | [-> | ->]].
  - destruct (is_num a) eqn:N.
    + destruct (tp_is_num a A N) as (y & Iy & ->). pose proof (sn_neg_int Debug y) as O. unfold int_outcome in O.
      destruct (in_i64 (- y)) eqn:I.
      * left. exists (e_of_i64 (- y)). cbn -[sn_neg sn_of_i64]. rewrite O. reflexivity.
      * right. split; [reflexivity|]. exists y. split; [reflexivity|]. split; [assumption|]. cbn -[sn_neg sn_of_i64]. rewrite O. reflexivity.
    + left. inversion A; subst; try discriminate N; eexists; reflexivity.
  - left. cbn [eval_rule]. unfold sin_eval_rule. cbn [pop_unwrap pop rev app bind].
    destruct (root a); [eexists; reflexivity|]. destruct (od_is_zero o || od_is_pi o); eexists; reflexivity.
  - left. cbn [eval_rule]. unfold cos_eval_rule. cbn [pop_unwrap pop rev app bind].
    destruct (root a); [eexists; reflexivity|]. destruct (od_is_zero o || od_is_pi o); eexists; reflexivity.
Qed.

Lemma tp_value e z rho : trig_poly e -> num_aggregate Debug e = Ok z -> exists v, eval rho e = Some v /\ eval rho z = Some v.
Proof.
  intros T H. destruct (tp_defined rho e T) as (v & V). exists v. split; [exact V|].
  apply (c66_simplify rho e z v (tp_ie e T)); try assumption.
  intros a b S. exfalso. apply (tp_ops e OPow T); [right; right; right; left; reflexivity|]. exists (gen_op OPow), [a; b]. split; [reflexivity|exact S].
Qed.

Lemma sub_mk1 s t a : subterm s a -> subterm s (mk1 t a).
Proof. intros H. apply (sub_child _ _ _ a); [left; reflexivity|exact H]. Qed.
Lemma sub_mk2l s t a b : subterm s a -> subterm s (mk2 t a b).
Proof. intros H. apply (sub_child _ _ _ a); [left; reflexivity|exact H]. Qed.
Lemma sub_mk2r s t a b : subterm s b -> subterm s (mk2 t a b).
Proof. intros H. apply (sub_child _ _ _ b); [right; left; reflexivity|exact H]. Qed.

Lemma const_of e y : trig_poly e -> num_aggregate Debug e = Ok (e_of_i64 y) -> constant_value e y.
Proof.
  intros T H rho. destruct (tp_value e _ rho T H) as (v & V & W). unfold e_of_i64, e_num in W. rewrite eval_num, num_R_int in W.
  rewrite V, <- W. reflexivity.
Qed.

Lemma panic_open e : trig_poly e -> (forall s n, subterm s e -> constant_value s n -> in_i64 n = true) ->
  exists z, num_aggregate Debug e = Ok z.
Proof.
  assert (forall t a, t = ONeg \/ t = OSin \/ t = OCos -> trig_poly a -> trig_poly (mk1 t a) ->
    ((forall s n, subterm s a -> constant_value s n -> in_i64 n = true) -> exists z, num_aggregate Debug a = Ok z) ->
    (forall s n, subterm s (mk1 t a) -> constant_value s n -> in_i64 n = true) -> exists z, num_aggregate Debug (mk1 t a) = Ok z) as U.
  { intros t a Ht Ta Tm IH H. destruct IH as (a' & Ha); [intros s n S; apply H, sub_mk1, S|].
    rewrite agg_mk1 by (destruct Ht as [-> | [-> | ->]]; reflexivity). rewrite Ha. cbn [bind].
    destruct (rule1_debug t a' (tp_agg a a' Ta Ha) Ht) as [R|(-> & y & -> & I & _)]; [exact R|].
    rewrite (H (mk1 ONeg a) (- y) (sub_refl _)) in I; [discriminate|].
    intros rho. rewrite eval_mk1, (const_of a y Ta Ha rho). cbn [obind ev1]. rewrite opp_IZR. reflexivity. }
  assert (forall t a b, t = OAdd \/ t = OSub \/ t = OMul -> trig_poly a -> trig_poly b -> 
    ((forall s n, subterm s a -> constant_value s n -> in_i64 n = true) -> exists z, num_aggregate Debug a = Ok z) ->
    ((forall s n, subterm s b -> constant_value s n -> in_i64 n = true) -> exists z, num_aggregate Debug b = Ok z) ->
    (forall s n, subterm s (mk2 t a b) -> constant_value s n -> in_i64 n = true) -> exists z, num_aggregate Debug (mk2 t a b) = Ok z) as B.
  { intros t a b Ht Ta Tb IHa IHb H. destruct IHa as (a' & Ha); [intros s n S; apply H, sub_mk2l, S|].
    destruct IHb as (b' & Hb); [intros s n S; apply H, sub_mk2r, S|].
    rewrite agg_mk2 by (destruct Ht as [-> | [-> | ->]]; reflexivity). rewrite Ha, Hb. cbn [bind].
    destruct (rule2_debug t a' b' (tp_agg a a' Ta Ha) (tp_agg b b' Tb Hb) Ht) as [R|(y & z & -> & -> & I & _)]; [exact R|].
    rewrite (H (mk2 t a b) (zop t y z) (sub_refl _)) in I; [discriminate|].
    intros rho. rewrite eval_mk2, (const_of a y Ta Ha rho), (const_of b z Tb Hb rho). cbn [obind].
    destruct Ht as [-> | [-> | ->]]; cbn [ev2 zop]; rewrite ?plus_IZR, ?minus_IZR, ?mult_IZR; reflexivity. }
  intros T. induction T.
  - intros _. eexists; reflexivity.
  - intros _. eexists; reflexivity.
  - apply (U ONeg); auto. constructor; assumption.
  - apply (U OSin); auto. constructor; assumption.
  - apply (U OCos); auto. constructor; assumption.
  - apply (B OAdd); auto.
  - apply (B OSub); auto.
  - apply (B OMul); auto.
Qed.

Lemma agg_subterm m e : wf e -> forall z, num_aggregate m e = Ok z -> forall s, subterm s e -> exists y, num_aggregate m s = Ok y.
Proof.
  intros W. pattern e. revert e W. apply wf_ind1.
  - intros n _ z H s S. inversion S; subst; [eexists; reflexivity|contradiction].
  - intros x z H s S. inversion S; subst; [eexists; reflexivity|contradiction].
  - intros t a Ha _ IH z H s S. pose proof H as H'. rewrite agg_mk1 in H by exact Ha. apply bind_ok in H as (a' & E & _).
    inversion S as [|? ? ? c' I S' ]; subst; [exists z; exact H'|]. destruct I as [<-|[]]. exact (IH _ E _ S').
  - intros t a b Ha _ _ IHa IHb z H s S. pose proof H as H'. rewrite agg_mk2 in H by exact Ha. apply bind_ok in H as (r & E1 & H).
    apply bind_ok in H as (l & E2 & _).
    inversion S as [|? ? ? c' I S' ]; subst; [exists z; exact H'|]. destruct I as [<-|[<-|[]]]; [exact (IHa _ E2 _ S')|exact (IHb _ E1 _ S')].
Qed.

Lemma sub_closed s e : subterm s e -> (forall x, ~ occurs x e) -> forall x, ~ occurs x s.
Proof.
  intros S H x (c & O). apply (H x). exists c. clear H. induction S; [exact O|]. apply (sub_child _ _ _ c'); auto.
Qed.

Lemma closed_fold e z : int_poly e -> (forall x, ~ occurs x e) -> num_aggregate Debug e = Ok z -> exists n, in_i64 n = true /\ z = e_of_i64 n.
Proof.
  intros P C H. assert (closed_arith e) as A.
  { clear H z. revert C. induction P as [z I|x|a P IH|a b Pa IHa Pb IHb|a b Pa IHa Pb IHb|a b Pa IHa Pb IHb]; intros C.
    - apply ca_num, sn_of_i64_ok, I.
    - elim (C x). exists []. apply sub_refl.
    - apply ca_neg, IH. exact (sub_closed a _ (sub_mk1 _ ONeg a (sub_refl a)) C).
    - apply ca_add; [apply IHa, (sub_closed a _ (sub_mk2l _ OAdd a b (sub_refl a)) C)|apply IHb, (sub_closed b _ (sub_mk2r _ OAdd a b (sub_refl b)) C)].
    - apply ca_sub; [apply IHa, (sub_closed a _ (sub_mk2l _ OSub a b (sub_refl a)) C)|apply IHb, (sub_closed b _ (sub_mk2r _ OSub a b (sub_refl b)) C)].
    - apply ca_mul; [apply IHa, (sub_closed a _ (sub_mk2l _ OMul a b (sub_refl a)) C)|apply IHb, (sub_closed b _ (sub_mk2r _ OMul a b (sub_refl b)) C)]. }
  destruct (c24_closed Debug e z A H) as (n & ->).
  destruct (tp_is_num _ (tp_agg e _ (ip_tp e P) H) eq_refl) as (y & I & E). exists y. split; assumption.
Qed.

(** ** C81 *)
(** Closed integer arithmetic: a debug build returns exactly when the value of every
    subexpression fits into 64 bits. *)
Theorem c81_closed e rho : int_poly e -> (forall x, ~ occurs x e) ->
  ((exists z, num_aggregate Debug e = Ok z) <->
   (forall s n, subterm s e -> eval rho s = Some (IZR n) -> (- 2 ^ 63 <= n < 2 ^ 63)%Z)).
Proof.
  intros P C. split.
  - intros (z & H) s n S V. assert (int_poly s) as Ps.
    { clear - P S. induction P; inversion S; subst; try (constructor; assumption); try contradiction;
        repeat match goal with H : In _ [_] |- _ => destruct H as [<-|[]] | H : In _ [_; _] |- _ => destruct H as [<-|[<-|[]]] end; auto. }
    destruct (agg_subterm Debug e (ip_wf e P) z H s S) as (y & Y).
    destruct (closed_fold s y Ps (sub_closed s e S C) Y) as (k & I & ->).
    pose proof (const_of s k (ip_tp s Ps) Y rho) as K. rewrite V in K. injection K as K. apply eq_IZR in K. subst k.
    apply in_i64_iff in I. exact I.
  - intros H. apply panic_open; [apply ip_tp, P|]. intros s n S K. apply in_i64_iff. apply (H s n S (K rho)).
Qed.
Print Assumptions c81_closed.

(** With variables, sin and cos: it returns if every subexpression whose value is a constant
    integer has a value that fits. *)
Theorem c81_open e : trig_poly e ->
  (forall s n, subterm s e -> (forall rho, eval rho s = Some (IZR n)) -> (- 2 ^ 63 <= n < 2 ^ 63)%Z) ->
  exists z, num_aggregate Debug e = Ok z /\ forall rho, exists v, eval rho e = Some v /\ eval rho z = Some v.
Proof.
  intros T H. destruct (panic_open e T) as (z & E); [intros s n S K; apply in_i64_iff, (H s n S K)|].
  exists z. split; [exact E|]. intros rho. exact (tp_value e z rho T E).
Qed.
Print Assumptions c81_open.

(** a product that overflows although the whole value fits: panics; without the overflow: returns *)
Example c81_witness :
  let e := e_sub (e_mul (e_of_i64 (2 ^ 62)) (e_of_i64 2)) (e_of_i64 1) in
  int_poly e /\ eval (fun _ => 0%R) e = Some (IZR (2 ^ 63 - 1)) /\ num_aggregate Debug e = Panic /\
  (exists z, num_aggregate Debug (e_sub (e_mul (e_of_i64 (2 ^ 61)) (e_of_i64 2)) (e_var "x")) = Ok z).
Proof.
  cbv zeta. split; [repeat constructor|]. split; [|split; [vm_compute; reflexivity|eexists; vm_compute; reflexivity]].
  unfold e_sub, e_mul, e_of_i64, e_num. rewrite !eval_mk2, !eval_num, !num_R_int. cbn [obind ev2].
  rewrite <- mult_IZR, <- minus_IZR. reflexivity.
Qed.

(** ** C82: explicit bounds *)
Lemma w_lit z : weight (e_of_i64 z) = Z.max 1 (Z.abs z). Proof. reflexivity. Qed.
Lemma w_pos e : int_poly e -> 1 <= weight e.
Proof.
  induction 1; [rewrite w_lit; lia|reflexivity|exact IHint_poly|..].
  - change (1 <= weight a + weight b). lia.
  - change (1 <= weight a + weight b). lia.
  - change (1 <= weight a * weight b). nia.
Qed.
Lemma f_pos e : int_poly e -> 1 <= factors e.
Proof.
  induction 1; [reflexivity|reflexivity|exact IHint_poly|..].
  - change (1 <= Z.max (factors a) (factors b)). lia.
  - change (1 <= Z.max (factors a) (factors b)). lia.
  - change (1 <= factors a + factors b). lia.
Qed.

(** what happens to the two sizes *)
Definition within (z : expr) (w f : Z) : Prop := int_poly z /\ weight z <= w /\ factors z <= f.

Lemma ip_is_num e : int_poly e -> is_num e = true -> exists z, in_i64 z = true /\ e = e_of_i64 z.
Proof. intros H N. exact (tp_is_num e (ip_tp e H) N). Qed.

Lemma lit_within z w f : Z.abs z <= w -> 1 <= w -> w < two63 -> 1 <= f -> within (e_of_i64 z) w f.
Proof.
  intros A B C D. split; [apply ip_num, in_i64_iff; lia|]. split; [rewrite w_lit; lia|exact D].
Qed.
Lemma within_le z w f w' f' : within z w f -> w <= w' -> f <= f' -> within z w' f'.
Proof. intros (P & W & F) A B. split; [exact P|]. split; lia. Qed.
Lemma within_self z : int_poly z -> within z (weight z) (factors z).
Proof. intros P. split; [exact P|]. split; lia. Qed.

Lemma rule_neg a : int_poly a -> weight a < two63 -> exists z, eval_rule Debug ONeg [Ok a] = Ok z /\ within z (weight a) (factors a).
Proof.
  intros A W. pose proof (w_pos a A) as WP. pose proof (f_pos a A) as FP.
  destruct (is_num a) eqn:N.
  - destruct (ip_is_num a A N) as (y & Iy & ->). pose proof (sn_neg_int Debug y) as O. unfold int_outcome in O.
    rewrite w_lit in W. apply in_i64_iff in Iy.
    destruct (in_i64 (- y)) eqn:I; [|exfalso; assert (in_i64 (- y) = true) by (apply in_i64_iff; lia); congruence].
    exists (e_of_i64 (- y)). split; [cbn -[sn_neg sn_of_i64]; rewrite O; reflexivity|].
    apply lit_within; try (rewrite w_lit; lia). reflexivity.
  - inversion A as [|x|b Pb|b c Pb Pc|b c Pb Pc|b c Pb Pc]; subst; try discriminate N.
    + exists (e_neg (e_var x)). split; [reflexivity|]. split; [repeat constructor|]. split; reflexivity.
    + exists b. split; [reflexivity|]. exact (within_self b Pb).
    + exists (e_neg (e_add b c)). split; [reflexivity|]. apply (within_self (e_neg (e_add b c))). constructor. exact A.
    + exists (e_neg (e_sub b c)). split; [reflexivity|]. apply (within_self (e_neg (e_sub b c))). constructor. exact A.
    + exists (e_neg (e_mul b c)). split; [reflexivity|]. apply (within_self (e_neg (e_mul b c))). constructor. exact A.
Qed.

Definition wop (t : optype) (a b : Z) : Z := match t with OMul => a * b | _ => a + b end.
Definition fop (t : optype) (a b : Z) : Z := match t with OMul => a + b | _ => Z.max a b end.
Lemma w_mk2 t a b : weight (mk2 t a b) = wop t (weight a) (weight b).
Proof. destruct t; reflexivity. Qed.
Lemma f_mk2 t a b : factors (mk2 t a b) = fop t (factors a) (factors b).
Proof. destruct t; reflexivity. Qed.

Lemma rule_bin t l r : int_poly l -> int_poly r -> t = OAdd \/ t = OSub \/ t = OMul -> wop t (weight l) (weight r) < two63 ->
  exists z, eval_rule Debug t [Ok l; Ok r] = Ok z /\ within z (wop t (weight l) (weight r)) (fop t (factors l) (factors r)).
Proof.
  intros L R T W. pose proof (w_pos l L) as Wl. pose proof (w_pos r R) as Wr. pose proof (f_pos l L) as Fl. pose proof (f_pos r R) as Fr.
  assert (weight l <= wop t (weight l) (weight r) /\ weight r <= wop t (weight l) (weight r)) as (W1 & W2)
    by (destruct T as [-> | [-> | ->]]; cbn [wop]; nia).
  assert (factors l <= fop t (factors l) (factors r) /\ factors r <= fop t (factors l) (factors r)) as (F1 & F2)
    by (destruct T as [-> | [-> | ->]]; cbn [fop]; nia).
  destruct (rule2_debug t l r (ip_tp l L) (ip_tp r R) T) as [(z & E)|(y & z & -> & -> & I & _)].
  2:{ exfalso. rewrite !w_lit in *. assert (in_i64 (zop t y z) = true); [|congruence]. apply in_i64_iff.
      destruct T as [-> | [-> | ->]]; cbn [zop wop] in *; try lia. nia. }
  exists z. split; [exact E|].
  assert (within (mk2 t l r) (wop t (weight l) (weight r)) (fop t (factors l) (factors r))) as M.
  { split; [destruct T as [-> | [-> | ->]]; constructor; assumption|]. rewrite w_mk2, f_mk2. lia. }
  assert (within l (wop t (weight l) (weight r)) (fop t (factors l) (factors r))) as ML by (split; [exact L|lia]).
  assert (within r (wop t (weight l) (weight r)) (fop t (factors l) (factors r))) as MR by (split; [exact R|lia]).
  assert (within (e_of_i64 0) (wop t (weight l) (weight r)) (fop t (factors l) (factors r))) as M0 by (apply lit_within; lia).
  destruct (is_num l && is_num r) eqn:N.
  - apply andb_true_iff in N as (N1 & N2). destruct (ip_is_num l L N1) as (y & Iy & ->). destruct (ip_is_num r R N2) as (u & Iu & ->).
    assert (z = e_of_i64 (zop t y u)) as ->.
    { assert (int_outcome Debug (zop t y u) (sn_op Debug t (sn_of_i64 y) (sn_of_i64 u))) as O.
      { destruct T as [-> | [-> | ->]]; [apply sn_add_int|apply sn_sub_int|apply sn_mul_int]; assumption. }
      unfold int_outcome in O. destruct (in_i64 (zop t y u));
        destruct T as [-> | [-> | ->]]; cbn [sn_op] in O; cbn -[sn_add sn_sub sn_mul sn_of_i64] in E; rewrite O in E; cbn [bind] in E;
        try discriminate E; injection E as <-; reflexivity. }
    apply lit_within; try lia. rewrite !w_lit in *. destruct T as [-> | [-> | ->]]; cbn [zop wop] in *; nia.
  - destruct T as [-> | [-> | ->]]; cbn [eval_rule] in E; unfold add_eval_rule, sub_eval_rule, mul_eval_rule in E; cbn [eval2 pop_unwrap pop rev app bind] in E; rewrite N in E.
    + destruct (is_zero l); [injection E as <-; exact MR|]. destruct (is_zero r); injection E as <-; [exact ML|exact M].
    + destruct (is_zero l); [injection E as <-; split; [constructor; exact R|exact (proj2 MR)]|].
      destruct (is_zero r); injection E as <-; [exact ML|exact M].
    + destruct (is_zero l || is_zero r); [injection E as <-; exact M0|]. destruct (is_one l); [injection E as <-; exact MR|].
      destruct (is_one r); injection E as <-; [exact ML|exact M].
Qed.

Lemma wop_mono t a b a' b' : 1 <= a -> 1 <= b -> a <= a' -> b <= b' -> wop t a b <= wop t a' b'.
Proof. intros. destruct t; cbn [wop]; nia. Qed.
Lemma fop_mono t a b a' b' : a <= a' -> b <= b' -> fop t a b <= fop t a' b'.
Proof. intros. destruct t; cbn [fop]; lia. Qed.

Lemma agg_within e : int_poly e -> weight e < two63 -> exists z, num_aggregate Debug e = Ok z /\ within z (weight e) (factors e).
Proof.
  assert (forall t a b, t = OAdd \/ t = OSub \/ t = OMul -> int_poly a -> int_poly b ->
    (weight a < two63 -> exists z, num_aggregate Debug a = Ok z /\ within z (weight a) (factors a)) ->
    (weight b < two63 -> exists z, num_aggregate Debug b = Ok z /\ within z (weight b) (factors b)) ->
    weight (mk2 t a b) < two63 ->
    exists z, num_aggregate Debug (mk2 t a b) = Ok z /\ within z (weight (mk2 t a b)) (factors (mk2 t a b))) as B.
  { intros t a b T Pa Pb IHa IHb W. rewrite w_mk2 in W. rewrite w_mk2, f_mk2. pose proof (w_pos a Pa). pose proof (w_pos b Pb).
    destruct IHa as (a' & Ha & Qa & Wa & Fa); [destruct T as [-> | [-> | ->]]; cbn [wop] in W; nia|].
    destruct IHb as (b' & Hb & Qb & Wb & Fb); [destruct T as [-> | [-> | ->]]; cbn [wop] in W; nia|].
    pose proof (w_pos a' Qa) as Pa'. pose proof (w_pos b' Qb) as Pb'. pose proof (wop_mono t _ _ _ _ Pa' Pb' Wa Wb) as WM.
    destruct (rule_bin t a' b' Qa Qb T ltac:(lia)) as (z & E & Z).
    exists z. split; [rewrite agg_mk2 by (destruct T as [-> | [-> | ->]]; reflexivity); rewrite Ha, Hb; exact E|].
    apply (within_le _ _ _ _ _ Z WM). apply fop_mono; assumption. }
  induction 1; intros W.
  - eexists. split; [reflexivity|]. apply within_self. constructor. assumption.
  - eexists. split; [reflexivity|]. apply within_self. constructor.
  - change (weight (e_neg a)) with (weight a) in *. change (factors (e_neg a)) with (factors a).
    destruct (IHint_poly W) as (a' & Ha & Qa & Wa & Fa). destruct (rule_neg a' Qa ltac:(lia)) as (z & E & Z).
    exists z. split; [unfold e_neg; rewrite agg_mk1 by reflexivity; rewrite Ha; exact E|]. exact (within_le _ _ _ _ _ Z Wa Fa).
  - apply (B OAdd); auto.
  - apply (B OSub); auto.
  - apply (B OMul); auto.
Qed.

Lemma deriv_within x e : int_poly e -> weight e * factors e < two63 ->
  exists d, deriv Debug x e = Ok d /\ within d (weight e * factors e) (factors e).
Proof.
  induction 1 as [z I|y|a P IH|a b Pa IHa Pb IHb|a b Pa IHa Pb IHb|a b Pa IHa Pb IHb]; intros W.
  - exists e_zero. split; [reflexivity|]. change (within (e_of_i64 0) (weight (e_of_i64 z) * 1) 1). rewrite w_lit in *.
    change (factors (e_of_i64 z)) with 1 in W. apply lit_within; lia.
  - unfold e_var. rewrite deriv_var. eexists. split; [reflexivity|]. change (weight _ * factors _) with 1. change (factors _) with 1.
    destruct (String.eqb x y); [apply (lit_within 1); reflexivity|apply (lit_within 0); reflexivity || discriminate].
  - change (weight (e_neg a)) with (weight a) in *. change (factors (e_neg a)) with (factors a) in *.
    destruct (IH W) as (da & Ha & Qa & Wa & Fa).
    destruct (agg_within (e_neg da)) as (z & E & Z); [constructor; exact Qa|change (weight da < two63); lia|].
    exists z. split; [unfold e_neg; rewrite deriv_mk1 by reflexivity; rewrite Ha; exact E|]. exact (within_le _ _ _ _ _ Z Wa Fa).
  - pose proof (w_pos a Pa). pose proof (w_pos b Pb). pose proof (f_pos a Pa). pose proof (f_pos b Pb).
    unfold e_add in *. rewrite w_mk2, f_mk2 in *. cbn [wop fop] in *.
    destruct IHa as (da & Ha & Qa & Wa & Fa); [nia|]. destruct IHb as (db & Hb & Qb & Wb & Fb); [nia|].
    destruct (agg_within (e_add da db)) as (z & E & Z); [constructor; assumption|unfold e_add; rewrite w_mk2; cbn [wop]; nia|].
    exists z. split; [rewrite deriv_mk2 by reflexivity; rewrite Ha, Hb; exact E|].
    apply (within_le _ _ _ _ _ Z); unfold e_add; rewrite ?w_mk2, ?f_mk2; cbn [wop fop]; nia.
  - pose proof (w_pos a Pa). pose proof (w_pos b Pb). pose proof (f_pos a Pa). pose proof (f_pos b Pb).
    unfold e_sub in *. rewrite w_mk2, f_mk2 in *. cbn [wop fop] in *.
    destruct IHa as (da & Ha & Qa & Wa & Fa); [nia|]. destruct IHb as (db & Hb & Qb & Wb & Fb); [nia|].
    destruct (agg_within (e_sub da db)) as (z & E & Z); [constructor; assumption|unfold e_sub; rewrite w_mk2; cbn [wop]; nia|].
    exists z. split; [rewrite deriv_mk2 by reflexivity; rewrite Ha, Hb; exact E|].
    apply (within_le _ _ _ _ _ Z); unfold e_sub; rewrite ?w_mk2, ?f_mk2; cbn [wop fop]; nia.
  - pose proof (w_pos a Pa). pose proof (w_pos b Pb). pose proof (f_pos a Pa). pose proof (f_pos b Pb).
    unfold e_mul in *. rewrite w_mk2, f_mk2 in *. cbn [wop fop] in *.
    destruct IHa as (da & Ha & Qa & Wa & Fa); [nia|]. destruct IHb as (db & Hb & Qb & Wb & Fb); [nia|].
    assert (weight da * weight b <= weight a * factors a * weight b) by nia.
    assert (weight a * weight db <= weight a * (weight b * factors b)) by nia.
    destruct (agg_within (e_add (e_mul da b) (e_mul a db))) as (z & E & Z); [repeat constructor; assumption|unfold e_add, e_mul; rewrite !w_mk2; cbn [wop]; nia|].
    exists z. split; [rewrite deriv_mk2 by reflexivity; rewrite Ha, Hb; exact E|].
    apply (within_le _ _ _ _ _ Z); unfold e_add, e_mul; rewrite ?w_mk2, ?f_mk2; cbn [wop fop]; rewrite ?w_mk2, ?f_mk2; cbn [wop fop]; nia.
Qed.

Lemma deriv_n_within x k : forall e, int_poly e -> weight e * factors e ^ Z.of_nat k < two63 ->
  exists d, deriv_n Debug x k e = Ok d /\ within d (weight e * factors e ^ Z.of_nat k) (factors e).
Proof.
  induction k as [|k IH]; intros e P W.
  - exists e. split; [reflexivity|]. change (Z.of_nat 0) with 0. rewrite Z.pow_0_r, Z.mul_1_r. apply within_self, P.
  - rewrite Nat2Z.inj_succ, Z.pow_succ_r in * by lia. pose proof (w_pos e P). pose proof (f_pos e P).
    assert (1 <= factors e ^ Z.of_nat k) as G by (pose proof (Z.pow_pos_nonneg (factors e) (Z.of_nat k)); lia).
    destruct (deriv_within x e P) as (d & Hd & Qd & Wd & Fd); [nia|].
    assert (1 <= factors d) by (apply f_pos, Qd). assert (1 <= weight d) by (apply w_pos, Qd).
    assert (factors d ^ Z.of_nat k <= factors e ^ Z.of_nat k) as G2 by (apply Z.pow_le_mono_l; lia).
    assert (1 <= factors d ^ Z.of_nat k) as G3 by (pose proof (Z.pow_pos_nonneg (factors d) (Z.of_nat k)); lia).
    assert (weight d * factors d ^ Z.of_nat k <= weight e * factors e * factors e ^ Z.of_nat k) by nia.
    destruct (IH d Qd) as (z & E & Z); [nia|].
    exists z. split; [cbn [deriv_n]; rewrite Hd; exact E|]. apply (within_le _ _ _ _ _ Z); [nia|exact Fd].
Qed.

Lemma subst_within x v e : int_poly v -> int_poly e ->
  int_poly (subst x v e) /\ weight (subst x v e) <= weight e * weight v ^ factors e.
Proof.
  intros V. pose proof (w_pos v V) as Wv.
  assert (forall n m, 0 <= n <= m -> 1 <= weight v ^ n <= weight v ^ m) as M.
  { intros n m H. split; [pose proof (Z.pow_pos_nonneg (weight v) n); lia|]. apply Z.pow_le_mono_r; lia. }
  induction 1 as [z I|y|a P IH|a b Pa IHa Pb IHb|a b Pa IHa Pb IHb|a b Pa IHa Pb IHb].
  - split; [constructor; exact I|]. change (subst x v (e_of_i64 z)) with (e_of_i64 z). change (factors (e_of_i64 z)) with 1.
    rewrite w_lit. nia.
  - unfold e_var. cbn [subst]. destruct (String.eqb y x); [|split; [constructor|]].
    + split; [exact V|]. change (weight (Expr (Operand (Var y)) [])) with 1. change (factors (Expr (Operand (Var y)) [])) with 1. lia.
    + change (factors (Expr (Operand (Var y)) [])) with 1. change (weight (Expr (Operand (Var y)) [])) with 1. lia.
  - destruct IH as (Q & W). split; [constructor; exact Q|exact W].
  - destruct IHa as (Qa & Wa), IHb as (Qb & Wb). unfold e_add. rewrite subst_mk2. split; [apply (ip_add _ _ Qa Qb)|].
    rewrite !w_mk2, f_mk2. cbn [wop fop]. pose proof (f_pos a Pa). pose proof (f_pos b Pb). pose proof (w_pos a Pa). pose proof (w_pos b Pb).
    destruct (M (factors a) (Z.max (factors a) (factors b)) ltac:(lia)). destruct (M (factors b) (Z.max (factors a) (factors b)) ltac:(lia)). nia.
  - destruct IHa as (Qa & Wa), IHb as (Qb & Wb). unfold e_sub. rewrite subst_mk2. split; [apply (ip_sub _ _ Qa Qb)|].
    rewrite !w_mk2, f_mk2. cbn [wop fop]. pose proof (f_pos a Pa). pose proof (f_pos b Pb). pose proof (w_pos a Pa). pose proof (w_pos b Pb).
    destruct (M (factors a) (Z.max (factors a) (factors b)) ltac:(lia)). destruct (M (factors b) (Z.max (factors a) (factors b)) ltac:(lia)). nia.
  - destruct IHa as (Qa & Wa), IHb as (Qb & Wb). unfold e_mul. rewrite subst_mk2. split; [apply (ip_mul _ _ Qa Qb)|].
    rewrite !w_mk2, f_mk2. cbn [wop fop]. pose proof (f_pos a Pa). pose proof (f_pos b Pb). pose proof (w_pos a Pa). pose proof (w_pos b Pb).
    rewrite Z.pow_add_r by lia. pose proof (w_pos _ Qa). pose proof (w_pos _ Qb).
    replace (weight a * weight b * (weight v ^ factors a * weight v ^ factors b)) with ((weight a * weight v ^ factors a) * (weight b * weight v ^ factors b)) by ring.
    apply Z.mul_le_mono_nonneg; lia.
Qed.

Lemma int_div_returns y f : Z.abs y < two63 -> 0 < f < two63 -> exists v, sn_div Debug (sn_of_i64 y) (sn_of_i64 f) = Ok v.
Proof.
  intros Y F. unfold sn_div. rewrite !approx_int. cbn [orb andb]. rewrite guard_false. unfold sn_of_i64, sn_of_val, val_of_i64. cbn [nval]. unfold val_div.
  cbn [val_is_zero]. destruct (Z.eqb_spec y 0) as [->|N]; [eexists; reflexivity|].
  assert (forall z, Z.abs z < two63 -> z <> 0 -> rat_of_i64 Debug z = Ok (mkRat (Z.sgn z) (Z.abs z) 1)) as R.
  { intros z A B. unfold rat_of_i64, i64_abs, ovf_i64, cast_u64, i64_signum.
    assert (in_i64 (Z.abs z) = true) as -> by (apply in_i64_iff; lia). cbn [bind].
    assert (in_u64 (Z.abs z) = true) as -> by (apply in_u64_iff; unfold two64, two63 in *; lia). cbn [bind].
    destruct (Z.eqb_spec z 0); [contradiction|reflexivity]. }
  rewrite (R y Y N), (R f ltac:(lia) ltac:(lia)). cbn [bind]. unfold rat_div. cbn [rsign rnum rden]. unfold i64_mul, u64_mul, ovf_i64, ovf_u64.
  assert (in_i64 (Z.sgn y * Z.sgn f) = true) as -> by (apply in_i64_iff; destruct y, f; cbn; unfold two63; lia).
  rewrite Z.mul_1_r, Z.mul_1_l. cbn [bind].
  assert (in_u64 (Z.abs y) = true) as -> by (apply in_u64_iff; unfold two64, two63 in *; lia). cbn [bind].
  assert (in_u64 (Z.abs f) = true) as -> by (apply in_u64_iff; unfold two64, two63 in *; lia). cbn [bind]. eexists. reflexivity.
Qed.

Lemma coef_returns s f : int_poly s -> weight s < two63 -> 0 < f < two63 ->
  exists c, num_aggregate Debug (e_div s (e_num (sn_of_i64 f))) = Ok c.
Proof.
  intros P W F. destruct (agg_within s P W) as (z & E & Q & Wz & _). unfold e_div. rewrite agg_mk2 by reflexivity. rewrite E.
  cbn [num_aggregate e_num bind eval_rule]. unfold div_eval_rule. cbn [eval2 pop_unwrap pop rev app bind].
  destruct (is_num z) eqn:N.
  - destruct (ip_is_num z Q N) as (y & I & ->). rewrite w_lit in Wz.
    destruct (int_div_returns y f ltac:(lia) F) as (v & V). cbn -[sn_div sn_of_i64]. rewrite V. eexists. reflexivity.
  - cbn [andb]. destruct (is_zero z); eexists; reflexivity.
Qed.

Lemma taylor_returns x at_ F : int_poly at_ -> 1 <= F -> forall n k D c, int_poly D -> (k + n <= 21)%nat -> factors D <= F ->
  weight D * F ^ Z.of_nat n * weight at_ ^ F < two63 ->
  exists p, taylor_loop Debug x at_ n (Z.of_nat k) (sn_of_i64 (Zfact (pred k))) D c = Ok p.
Proof.
  intros A HF. pose proof (w_pos at_ A) as WA. assert (1 <= weight at_ ^ F) as GA by (pose proof (Z.pow_pos_nonneg (weight at_) F); lia).
  induction n as [|n IH]; intros k D c P K FD W; [eexists; reflexivity|].
  cbn [taylor_loop].
  assert (exists kn, sn_of_u64 Debug (Z.max (Z.of_nat k) 1) = Ok kn /\
    sn_mul Debug (sn_of_i64 (Zfact (pred k))) kn = Ok (sn_of_i64 (Zfact k)) /\ 0 < Zfact k < two63) as (kn & -> & E & F1).
  { clear - K. assert (k <= 20)%nat as L by lia. clear K.
    do 21 (destruct k as [|k]; [eexists; split; [vm_compute; reflexivity|split; [vm_compute; reflexivity|split; vm_compute; reflexivity]]|]). lia. }
  cbn [bind]. rewrite E. cbn [bind].
  rewrite Nat2Z.inj_succ, Z.pow_succ_r in W by lia.
  assert (1 <= F ^ Z.of_nat n) as GF by (pose proof (Z.pow_pos_nonneg F (Z.of_nat n)); lia).
  pose proof (w_pos D P) as WD. pose proof (f_pos D P) as FP.
  destruct (subst_within x at_ D A P) as (Ps & Ws).
  assert (weight at_ ^ factors D <= weight at_ ^ F) as GM by (apply Z.pow_le_mono_r; lia).
  assert (weight D * weight at_ ^ factors D <= weight D * weight at_ ^ F) as G1 by (apply Z.mul_le_mono_nonneg_l; lia).
  assert (weight D * weight at_ ^ F <= weight D * (F * F ^ Z.of_nat n) * weight at_ ^ F) as G2.
  { apply Z.mul_le_mono_nonneg_r; [lia|]. assert (1 <= F * F ^ Z.of_nat n) by nia. nia. }
  destruct (agg_within (subst x at_ D) Ps ltac:(lia)) as (s & -> & Qs & Wss & _). cbn [bind].
  destruct (coef_returns s (Zfact k) Qs ltac:(lia) F1) as (ck & ->). cbn [bind].
  assert (weight D * factors D <= weight D * F) as G3 by (apply Z.mul_le_mono_nonneg_l; lia).
  assert (weight D * F * (F ^ Z.of_nat n * weight at_ ^ F) < two63) as G4.
  { replace (weight D * F * (F ^ Z.of_nat n * weight at_ ^ F)) with (weight D * (F * F ^ Z.of_nat n) * weight at_ ^ F) by ring. exact W. }
  assert (1 <= F ^ Z.of_nat n * weight at_ ^ F) as G5 by nia.
  assert (1 <= weight D * F) as G6 by nia.
  destruct (deriv_within x D P) as (D' & -> & QD & WD' & FD'); [nia|]. cbn [bind].
  replace (Z.of_nat k + 1) with (Z.of_nat (S k)) by lia. apply (IH (S k)); [exact QD|lia|lia|].
  apply Z.le_lt_trans with (2 := G4). rewrite <- Z.mul_assoc. apply Z.mul_le_mono_nonneg_r; lia.
Qed.

(** ** C82 *)
(** If the coefficients of an integer polynomial (multiplied out) are small enough, a debug
    build does not panic: simplification, *)
Theorem c82_simplify e : int_poly e -> weight e < 2 ^ 63 ->
  exists z, num_aggregate Debug e = Ok z /\ forall rho, exists v, eval rho e = Some v /\ eval rho z = Some v.
Proof.
  intros P W. destruct (agg_within e P W) as (z & E & _). exists z. split; [exact E|]. intros rho. exact (tp_value e z rho (ip_tp e P) E).
Qed.
Print Assumptions c82_simplify.

(** k-fold differentiation, *)
Theorem c82_derivative e x k : int_poly e -> weight e * factors e ^ Z.of_nat k < 2 ^ 63 ->
  exists d, deriv_n Debug x k e = Ok d /\
    forall rho t0, eval (upd rho x t0) d = Some (Coquelicot.Derive.Derive_n (evalx rho x e) k t0).
Proof.
  intros P W. destruct (deriv_n_within x k e P W) as (d & E & _). exists d. split; [exact E|]. intros rho t0.
  apply (c66_nth_derivative rho x t0 e k d (tp_ie e (ip_tp e P))); [|exact E|apply tp_defined, ip_tp, P].
  apply tp_ops; [apply ip_tp, P|right; right; right; left; reflexivity].
Qed.
Print Assumptions c82_derivative.

(** and expansion to any order up to 20 around any integer polynomial (in particular around
    any integer); the coefficients are then the right ones. *)
Theorem c82_taylor e x at_ n : int_poly e -> int_poly at_ -> (n <= 20)%nat ->
  weight e * factors e ^ Z.of_nat (S n) * weight at_ ^ factors e < 2 ^ 63 ->
  exists t, taylor_expansion Debug e (e_var x) at_ (Z.of_nat n) = Ok (ROk t) /\
    forall rho a, eval rho at_ = Some a -> forall k, (k <= n)%nat -> exists ck, nth_error (ex_coef t) k = Some ck /\
      eval rho ck = Some (Coquelicot.Derive.Derive_n (evalx rho x e) k a / INR (fact k))%R.
Proof.
  intros P A N W.
  assert (exists t, taylor_expansion Debug e (e_var x) at_ (Z.of_nat n) = Ok (ROk t)) as (t & T).
  { unfold taylor_expansion. cbn [to_variable e_var root]. unfold taylor_var.
    replace (Z.to_nat (Z.of_nat n + 1)) with (S n) by lia.
    destruct (taylor_returns x at_ (factors e) A (f_pos e P) (S n) 0%nat e [] P ltac:(lia) (Z.le_refl _) W) as ([cs r] & E).
    change (Z.of_nat 0) with 0 in E. change (Zfact (pred 0)) with 1 in E. rewrite E. cbn [bind]. eexists. reflexivity. }
  exists t. split; [exact T|]. intros rho a V k K.
  destruct (c66_taylor rho x at_ a e n t (ip_tp e P) (ip_tp at_ A) V T) as (C & _).
  destruct (C k K) as (ck & H1 & H2 & _). exists ck. split; assumption.
Qed.
Print Assumptions c82_taylor.

(** (3*x*x - 7*y)*(x + 2) around x = -5, order 6 *)
Example c82_witness :
  let e := e_mul (e_sub (e_mul (e_mul (e_of_i64 3) (e_var "x")) (e_var "x")) (e_mul (e_of_i64 7) (e_var "y"))) (e_add (e_var "x") (e_of_i64 2)) in
  int_poly e /\ weight e = 30 /\ factors e = 4 /\
  weight e * factors e ^ Z.of_nat 7 * weight (e_of_i64 (-5)) ^ factors e < 2 ^ 63.
Proof. cbv zeta. split; [repeat constructor|]. split; [reflexivity|]. split; [reflexivity|]. vm_compute. reflexivity. Qed.

(** the bound on the weight cannot be dropped: 2*(2^62*x) differentiated *)
Theorem c82_bound_needed : exists e, int_poly e /\ weight e = 2 ^ 63 /\
  derivative Debug e (e_var "x") = Panic.
Proof.
  exists (e_mul (e_of_i64 2) (e_mul (e_of_i64 (2 ^ 62)) (e_var "x"))). split; [repeat constructor|]. split; [reflexivity|].
  vm_compute. reflexivity.
Qed.
Print Assumptions c82_bound_needed.
