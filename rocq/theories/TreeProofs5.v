(** * TreeProofs5: shape of Taylor expansions, panics of limit, mode agreement of limit *)
From Coq Require Import ZArith List String Bool Lia Factorial.
From Verif Require Import Base Float Rational SmartNum Ast Compute Limit Spec SpecTree.
From Verif Require Import BaseProofs NumProofs NumProofs2 TreeProofs TreeProofs2 TreeProofs3 TreeProofs4.
Import ListNotations.
Open Scope Z_scope.
Open Scope res_scope.

(** ** factorials modulo 2^64 *)
Lemma wrap_unique v z : in_i64 v = true -> (v - z) mod two64 = 0 -> v = wrap_i64 z.
Proof.
  intros Hv H. apply in_i64_iff in Hv. pose proof (wrap_i64_range z) as Hr.
  pose proof (wrap_i64_mod z) as Hm.
  apply Z.mod_divide in H as [a Ha]; [|discriminate].
  apply Z.mod_divide in Hm as [b Hb]; [|discriminate].
  unfold two63, two64 in *. lia.
Qed.
Lemma wrap_in z : in_i64 z = true -> wrap_i64 z = z.
Proof. intros H. symmetry. apply wrap_unique; [assumption|]. rewrite Z.sub_diag. reflexivity. Qed.
Lemma wrap_in64 z : in_i64 (wrap_i64 z) = true.
Proof. apply in_i64_iff, wrap_i64_range. Qed.

Lemma wrap_mul a b : wrap_i64 (wrap_i64 a * wrap_i64 b) = wrap_i64 (a * b).
Proof.
  symmetry. apply wrap_unique; [apply wrap_in64|].
  pose proof (wrap_i64_mod a) as H1. pose proof (wrap_i64_mod b) as H2.
  pose proof (wrap_i64_mod (a * b)) as H3.
  apply Z.mod_divide in H1 as [x Hx]; [|discriminate].
  apply Z.mod_divide in H2 as [y Hy]; [|discriminate].
  apply Z.mod_divide in H3 as [w Hw]; [|discriminate].
  apply Z.mod_divide; [discriminate|].
  exists (w - (x * wrap_i64 b + a * y)).
  replace (wrap_i64 a) with (a + x * two64) at 1 by lia.
  replace (wrap_i64 b) with (b + y * two64) at 1 by lia.
  replace (wrap_i64 (a * b)) with (a * b + w * two64) by lia.
  replace (wrap_i64 b) with (b + y * two64) by lia. ring.
Qed.

Lemma sn_mul_wrap m a b z : in_i64 a = true -> in_i64 b = true ->
  sn_mul m (sn_of_i64 a) (sn_of_i64 b) = Ok z ->
  z = sn_of_i64 (wrap_i64 (a * b)) /\ (m <> Release -> in_i64 (a * b) = true).
Proof.
  intros Ha Hb H. pose proof (sn_mul_int m a b Ha Hb) as K. unfold int_outcome in K.
  destruct (in_i64 (a * b)) eqn:E.
  - rewrite K in H. injection H as <-. rewrite wrap_in by assumption. auto.
  - destruct m; try (rewrite K in H; discriminate).
    destruct K as (v & Hv & Hm & K). rewrite K in H. injection H as <-.
    rewrite <- (wrap_unique v (a * b) Hv Hm). split; [reflexivity|congruence].
Qed.

Lemma sn_of_u64_wrap m v z : sn_of_u64 m v = Ok z -> z = sn_of_i64 (wrap_i64 v).
Proof.
  unfold sn_of_u64, val_of_u64, cast_i64. destruct (in_i64 v) eqn:E.
  - intros [= <-]. rewrite wrap_in by assumption. reflexivity.
  - destruct m; intros [= <-]; reflexivity.
Qed.

Lemma factZ_S k : factZ (S k) = Z.of_nat (S k) * factZ k.
Proof. unfold factZ. rewrite <- Nat2Z.inj_mul. reflexivity. Qed.
Lemma factZ_pos k : 1 <= factZ k.
Proof. unfold factZ. pose proof (lt_O_fact k). lia. Qed.

Lemma fact_step m k f kn f' : f = sn_of_i64 (wrap_i64 (factZ (pred k))) ->
  sn_of_u64 m (Z.max (Z.of_nat k) 1) = Ok kn -> sn_mul m f kn = Ok f' ->
  f' = sn_of_i64 (wrap_i64 (factZ k)).
Proof.
  intros -> H1 H2. apply sn_of_u64_wrap in H1. subst kn.
  apply sn_mul_wrap in H2 as [-> _]; try apply wrap_in64. rewrite wrap_mul. do 2 f_equal.
  destruct k as [|k]; [reflexivity|]. rewrite factZ_S. cbn [pred].
  rewrite Z.max_l by lia. ring.
Qed.

Lemma fact_step_in m k f kn f' : m <> Release -> in_i64 (factZ (pred k)) = true ->
  f = sn_of_i64 (factZ (pred k)) -> 
  sn_of_u64 m (Z.max (Z.of_nat k) 1) = Ok kn -> sn_mul m f kn = Ok f' -> Z.of_nat k < two63 ->
  in_i64 (factZ k) = true.
Proof.
  intros Hm Hf -> H1 H2 Hk. apply sn_of_u64_wrap in H1. subst kn.
  assert (in_i64 (Z.max (Z.of_nat k) 1) = true) as Hin.
  { apply in_i64_iff. unfold two63 in *. lia. }
  rewrite wrap_in in H2 by assumption.
  apply sn_mul_wrap in H2 as [_ H2]; try assumption. specialize (H2 Hm).
  destruct k as [|k]; [reflexivity|]. rewrite factZ_S. cbn [pred] in H2.
  rewrite Z.max_l in H2 by lia. rewrite Z.mul_comm. exact H2.
Qed.

(** ** the Taylor loop *)
Lemma taylor_loop_spec m x at_ : forall n k f r c coef res,
  f = sn_of_i64 (wrap_i64 (factZ (pred k))) ->
  taylor_loop m x at_ n (Z.of_nat k) f r c = Ok (coef, res) ->
  exists cs, coef = c ++ cs /\ List.length cs = n /\ deriv_n m x n r = Ok res /\
    forall j, (j < n)%nat -> exists d s cj,
      deriv_n m x j r = Ok d /\ num_aggregate m (subst x at_ d) = Ok s /\
      num_aggregate m (e_div s (e_num (sn_of_i64 (wrap_i64 (factZ (k + j)))))) = Ok cj /\
      nth_error cs j = Some cj.
Proof.
  induction n as [|n IH]; intros k f r c coef res Hf H.
  - injection H as <- <-. exists []. rewrite app_nil_r.
    refine (conj eq_refl (conj eq_refl (conj eq_refl _))). intros; lia.
  - cbn [taylor_loop] in H. inv_bind H. inv_bind H. inv_bind H. inv_bind H. inv_bind H.
    pose proof (fact_step _ _ _ _ _ Hf Hb Hb0) as Hf'.
    replace (Z.of_nat k + 1) with (Z.of_nat (S k)) in H by lia.
    apply IH in H; [|exact Hf']. destruct H as (cs & -> & Hl & Hd & Hj).
    exists (a2 :: cs). rewrite <- app_assoc. refine (conj eq_refl (conj _ (conj _ _))).
    + simpl. rewrite Hl. reflexivity.
    + cbn [deriv_n]. rewrite Hb3. exact Hd.
    + intros j Hjn. destruct j as [|j].
      * exists r, a1, a2. rewrite Nat.add_0_r. subst a0.
        refine (conj eq_refl (conj Hb1 (conj Hb2 eq_refl))).
      * destruct (Hj j ltac:(lia)) as (d & s & cj & E1 & E2 & E3 & E4).
        exists d, s, cj. cbn [deriv_n]. rewrite Hb3. rewrite <- Nat.add_succ_comm.
        refine (conj E1 (conj E2 (conj E3 E4))).
Qed.

Lemma factZ_21 : in_i64 (factZ 21) = false.
Proof.
  unfold factZ. assert (Z.of_nat (fact 21) = 51090942171709440000) as ->; [|reflexivity].
  assert (forall k, Z.of_nat (fact (S k)) = Z.of_nat (S k) * Z.of_nat (fact k)) as S_.
  { intros k. apply factZ_S. }
  do 21 rewrite S_. reflexivity.
Qed.

Lemma taylor_loop_21 m x at_ : m <> Release -> forall n k f r c p,
  (k <= 21)%nat -> (21 < k + n)%nat ->
  in_i64 (factZ (pred k)) = true -> f = sn_of_i64 (factZ (pred k)) ->
  taylor_loop m x at_ n (Z.of_nat k) f r c = Ok p -> False.
Proof.
  intros Hm. induction n as [|n IH]; intros k f r c p Hk Hn Hin Hf H; [lia|].
  cbn [taylor_loop] in H. inv_bind H. inv_bind H. inv_bind H. inv_bind H. inv_bind H.
  assert (in_i64 (factZ k) = true) as Hin'.
  { eapply (fact_step_in m k f); eauto. unfold two63. lia. }
  assert (f = sn_of_i64 (wrap_i64 (factZ (pred k)))) as Hf'.
  { rewrite wrap_in; assumption. }
  pose proof (fact_step _ _ _ _ _ Hf' Hb Hb0) as Hfk. rewrite wrap_in in Hfk by assumption.
  destruct (Nat.eq_dec k 21) as [->|Hne].
  { rewrite factZ_21 in Hin'. discriminate. }
  replace (Z.of_nat k + 1) with (Z.of_nat (S k)) in H by lia.
  eapply IH; [| | | |exact H]; try lia; assumption.
Qed.

Lemma taylor_loop_safe m x at_ : wf at_ -> forall n k f r c, wf r -> num_ok f ->
  safe m (taylor_loop m x at_ n k f r c).
Proof.
  intros Wa. induction n as [|n IH]; intros k f r c Wr Hf; [exact I|]. cbn [taylor_loop].
  apply safe_bind; [apply sn_of_u64_safe|]. intros kn Hkn. apply sn_of_u64_ok in Hkn.
  apply safe_bind; [apply sn_mul_safe|]. intros f' Hf'.
  assert (num_ok f') by exact (sn_mul_ok _ _ _ _ Hf Hkn Hf').
  apply safe_bind; [apply agg_safe; apply subst_wf; assumption|]. intros s Hs.
  assert (wf s). { eapply agg_wf; [|exact Hs]. apply subst_wf; assumption. }
  apply safe_bind.
  { apply agg_safe. apply wf_mk2; [reflexivity|assumption|]. apply wf_num. assumption. }
  intros c' Hc'. apply safe_bind; [apply deriv_safe; assumption|]. intros r' Hr'.
  apply IH; [|assumption]. exact (deriv_wf _ _ _ _ Wr Hr').
Qed.

Lemma taylor_loop_wf m x at_ : wf at_ -> forall n k f r c coef res, wf r -> num_ok f -> Forall wf c ->
  taylor_loop m x at_ n k f r c = Ok (coef, res) -> Forall wf coef /\ wf res.
Proof.
  intros Wa. induction n as [|n IH]; intros k f r c coef res Wr Hf Hc H.
  - injection H as <- <-. auto.
  - cbn [taylor_loop] in H. inv_bind H. inv_bind H. inv_bind H. inv_bind H. inv_bind H.
    apply sn_of_u64_ok in Hb. pose proof (sn_mul_ok _ _ _ _ Hf Hb Hb0) as Hf'.
    assert (wf a1) as Ws. { eapply agg_wf; [|exact Hb1]. apply subst_wf; assumption. }
    eapply IH; [| | |exact H].
    + exact (deriv_wf _ _ _ _ Wr Hb3).
    + exact Hf'.
    + apply Forall_app. split; [assumption|]. constructor; [|constructor].
      eapply agg_wf; [|exact Hb2]. apply wf_mk2; [reflexivity|assumption|]. apply wf_num. assumption.
Qed.

(** ** limit: agreement of builds, fuel monotonicity *)
Lemma refines_qbind {A B E} (a b : res (result A E)) (f g : A -> res (result B E)) :
  refines a b -> (forall x, refines (f x) (g x)) -> refines (qbind a f) (qbind b g).
Proof.
  intros Hab Hfg. unfold qbind. apply refines_bind; [assumption|]. intros [z|e] _; [apply Hfg|apply refines_refl].
Qed.

Lemma subst_limit_mono m1 m2 x to e : mle m1 m2 ->
  refines (subst_limit m1 x to e) (subst_limit m2 x to e).
Proof.
  intros Hm. unfold subst_limit. apply refines_bind; [apply agg_mono, Hm|]. intros; apply refines_refl.
Qed.

Section LimitMono.
  Variables (m1 m2 : mode) (Hm : mle m1 m2) (x : string) (to : expr) (ord : Z).
  Variables lim1 lim2 : expr -> res lres.
  Hypothesis Hlim : forall e, refines (lim1 e) (lim2 e).

  Lemma div_loop_mono n : forall l r, refines (div_loop m1 x lim1 n l r) (div_loop m2 x lim2 n l r).
  Proof.
    induction n as [|n IH]; intros l r; [apply refines_refl|]. cbn [div_loop].
    apply refines_qbind; [apply Hlim|]. intros a. apply refines_qbind; [apply Hlim|]. intros b.
    destruct (l_div a b); [apply refines_refl|].
    apply refines_bind; [apply deriv_mono, Hm|]. intros l' _.
    apply refines_bind; [apply deriv_mono, Hm|]. intros r' _. apply IH.
  Qed.

  Lemma limit_rule_mono e : refines (limit_rule m1 x to ord lim1 e) (limit_rule m2 x to ord lim2 e).
  Proof.
    unfold limit_rule. destruct (root e) as [op|[n|v]]; [|apply refines_refl..].
    destruct (descriptor op).
    - apply refines_refl.
    - unfold add_limit_expr_rule. apply refines_bind; [apply refines_refl|]. intros [r rest] _.
      apply refines_bind; [apply refines_refl|]. intros [l rest'] _.
      apply refines_qbind; [apply Hlim|]. intros a. apply refines_qbind; [apply Hlim|]. intros b.
      destruct (l_add b a); [apply refines_refl|apply Hlim].
    - unfold sub_limit_expr_rule. apply refines_bind; [apply refines_refl|]. intros [r rest] _.
      apply refines_bind; [apply refines_refl|]. intros [l rest'] _. apply Hlim.
    - unfold mul_limit_expr_rule. apply refines_bind; [apply refines_refl|]. intros [r rest] _.
      apply refines_bind; [apply refines_refl|]. intros [l rest'] _.
      apply refines_qbind; [apply Hlim|]. intros a. apply refines_qbind; [apply Hlim|]. intros b.
      destruct (l_mul b a); [apply refines_refl|]. destruct (lim_is_zero a); apply Hlim.
    - unfold div_limit_expr_rule. apply refines_bind; [apply refines_refl|]. intros [r rest] _.
      apply refines_bind; [apply refines_refl|]. intros [l rest'] _. apply div_loop_mono.
    - unfold sin_limit_expr_rule. apply refines_if; [apply refines_refl|]. apply subst_limit_mono, Hm.
    - unfold cos_limit_expr_rule. apply subst_limit_mono, Hm.
    - apply refines_refl.
    - apply refines_refl.
    - apply refines_refl.
  Qed.
End LimitMono.

Lemma limit_var_mono m1 m2 (Hm : mle m1 m2) x to ord : forall f1 f2 e, (f1 <= f2)%nat ->
  refines (limit_var f1 m1 x to ord e) (limit_var f2 m2 x to ord e).
Proof.
  induction f1 as [|f1 IH]; intros f2 e Hf; [intros v H; discriminate|].
  destruct f2 as [|f2]; [lia|]. cbn [limit_var].
  apply refines_qbind.
  - apply limit_rule_mono; [exact Hm|]. intros e'. apply IH. lia.
  - intros [| | |ex]; try apply refines_refl. apply refines_bind; [apply agg_mono, Hm|].
    intros; apply refines_refl.
Qed.
Lemma limit_mono m1 m2 (Hm : mle m1 m2) f1 f2 e of_ to ord : (f1 <= f2)%nat ->
  refines (limit f1 m1 e of_ to ord) (limit f2 m2 e of_ to ord).
Proof.
  intros Hf. unfold limit. destruct (to_variable of_); [|apply refines_refl].
  apply limit_var_mono; assumption.
Qed.

(** ** more fuel never changes an outcome other than [Fuel] *)
Definition fle {A} (a b : res A) : Prop := a = Fuel \/ a = b.
Lemma fle_refl {A} (a : res A) : fle a a. Proof. right. reflexivity. Qed.
Lemma fle_bind {A B} (a b : res A) (f g : A -> res B) :
  fle a b -> (forall x, fle (f x) (g x)) -> fle (bind a f) (bind b g).
Proof. intros [->| ->] H; [left; reflexivity|]. destruct b; cbn [bind]; try apply fle_refl. apply H. Qed.
Lemma fle_qbind {A B E} (a b : res (result A E)) (f g : A -> res (result B E)) :
  fle a b -> (forall x, fle (f x) (g x)) -> fle (qbind a f) (qbind b g).
Proof. intros Hab H. unfold qbind. apply fle_bind; [assumption|]. intros [z|e]; [apply H|apply fle_refl]. Qed.

Section LimitFuel.
  Variables (m : mode) (x : string) (to : expr) (ord : Z) (lim1 lim2 : expr -> res lres).
  Hypothesis Hlim : forall e, fle (lim1 e) (lim2 e).

  Lemma div_loop_fle n : forall l r, fle (div_loop m x lim1 n l r) (div_loop m x lim2 n l r).
  Proof.
    induction n as [|n IH]; intros l r; [apply fle_refl|]. cbn [div_loop].
    apply fle_qbind; [apply Hlim|]. intros a. apply fle_qbind; [apply Hlim|]. intros b.
    destruct (l_div a b); [apply fle_refl|].
    apply fle_bind; [apply fle_refl|]. intros l'. apply fle_bind; [apply fle_refl|]. intros r'. apply IH.
  Qed.

  Lemma limit_rule_fle e : fle (limit_rule m x to ord lim1 e) (limit_rule m x to ord lim2 e).
  Proof.
    unfold limit_rule. destruct (root e) as [op|[n|v]]; [|apply fle_refl..].
    destruct (descriptor op); try apply fle_refl.
    - unfold add_limit_expr_rule. apply fle_bind; [apply fle_refl|]. intros [r rest].
      apply fle_bind; [apply fle_refl|]. intros [l rest'].
      apply fle_qbind; [apply Hlim|]. intros a. apply fle_qbind; [apply Hlim|]. intros b.
      destruct (l_add b a); [apply fle_refl|apply Hlim].
    - unfold sub_limit_expr_rule. apply fle_bind; [apply fle_refl|]. intros [r rest].
      apply fle_bind; [apply fle_refl|]. intros [l rest']. apply Hlim.
    - unfold mul_limit_expr_rule. apply fle_bind; [apply fle_refl|]. intros [r rest].
      apply fle_bind; [apply fle_refl|]. intros [l rest'].
      apply fle_qbind; [apply Hlim|]. intros a. apply fle_qbind; [apply Hlim|]. intros b.
      destruct (l_mul b a); [apply fle_refl|]. destruct (lim_is_zero a); apply Hlim.
    - unfold div_limit_expr_rule. apply fle_bind; [apply fle_refl|]. intros [r rest].
      apply fle_bind; [apply fle_refl|]. intros [l rest']. apply div_loop_fle.
  Qed.
End LimitFuel.

Lemma limit_var_fle m x to ord : forall f1 f2 e, (f1 <= f2)%nat ->
  fle (limit_var f1 m x to ord e) (limit_var f2 m x to ord e).
Proof.
  induction f1 as [|f1 IH]; intros f2 e Hf; [left; reflexivity|].
  destruct f2 as [|f2]; [lia|]. cbn [limit_var].
  apply fle_qbind.
  - apply limit_rule_fle. intros e'. apply IH. lia.
  - intros [| | |ex]; apply fle_refl.
Qed.

(** ** the panicking rules *)
Lemma neg_limit_panics e : neg_limit_expr_rule e = Panic.
Proof.
  induction e as [r c IH] using expr_ind'. cbn [neg_limit_expr_rule].
  destruct (pop_unwrap (map neg_limit_expr_rule c)) as [[p rest]| | |] eqn:E; try reflexivity.
  - apply pop_unwrap_map in E as (pre & a & -> & -> & ->). apply Forall_app in IH as [_ IH].
    inversion IH; subst. cbn [bind]. rewrite H1. reflexivity.
  - unfold pop_unwrap in E. destruct (pop _); discriminate.
  - unfold pop_unwrap in E. destruct (pop _); discriminate.
Qed.

Lemma pop_unwrap_cases {A} (l : list A) : pop_unwrap l = Panic \/ exists p, pop_unwrap l = Ok p.
Proof. unfold pop_unwrap. destruct (pop l); eauto. Qed.

Lemma limit_neg_panics f m x to ord op c : descriptor op = ONeg ->
  limit_var (S f) m x to ord (Expr (Operator op) c) = Panic.
Proof. intros D. cbn [limit_var]. unfold limit_rule. cbn [root]. rewrite D, neg_limit_panics. reflexivity. Qed.

Lemma limit_sub_panics f m x to ord op c : descriptor op = OSub ->
  limit_var (S (S (S f))) m x to ord (Expr (Operator op) c) = Panic.
Proof.
  intros D. remember (S (S f)) as g. cbn [limit_var]. unfold limit_rule. cbn [root]. rewrite D.
  unfold sub_limit_expr_rule. cbn [child].
  destruct (pop_unwrap_cases c) as [->|[[r rest] ->]]; [reflexivity|]. cbn [bind].
  destruct (pop_unwrap_cases rest) as [->|[[l rest'] ->]]; [reflexivity|]. cbn [bind].
  subst g. remember (S f) as g. cbn [limit_var]. unfold limit_rule at 1. cbn [root e_add mk2].
  rewrite descriptor_gen. unfold add_limit_expr_rule, e_add, mk2. cbn [child].
  change (pop_unwrap [l; e_neg r]) with (Ok (e_neg r, [l])). cbn [bind].
  change (pop_unwrap [l]) with (Ok (l, @nil expr)). cbn [bind].
  subst g. unfold e_neg, mk1. rewrite limit_neg_panics by reflexivity. reflexivity.
Qed.

Lemma limit_todo_panics f m x to ord op c : descriptor op = OExp \/ descriptor op = OLn \/ descriptor op = OPow ->
  limit_var (S f) m x to ord (Expr (Operator op) c) = Panic.
Proof. intros [D|[D|D]]; cbn [limit_var]; unfold limit_rule; cbn [root]; rewrite D; reflexivity. Qed.

Lemma qbind_ok {A B E} (r : res (result A E)) (f : A -> res (result B E)) z :
  qbind r f = Ok (ROk z) -> exists a, r = Ok (ROk a) /\ f a = Ok (ROk z).
Proof.
  unfold qbind. destruct r as [[a|e]| | |]; cbn [bind]; try discriminate. eauto.
Qed.

(** a blocked expression never gets a limit value *)
Lemma limit_blocked_no_value m x to ord e : 0 <= ord -> limit_blocked e ->
  forall f z, limit_var f m x to ord e <> Ok (ROk z).
Proof.
  intros Ho H. induction H as [op c Hin|op a b Hin Ha IH|op a b Hin Hb IH]; intros f z K.
  - assert (limit_var (S (S (S f))) m x to ord (Expr (Operator op) c) = Ok (ROk z)) as K'.
    { apply (limit_var_mono m m (mle_refl m) x to ord f); [lia|exact K]. }
    destruct Hin as [D|[D|[D|[D|[D|[]]]]]]; symmetry in D.
    + rewrite limit_neg_panics in K' by assumption. discriminate.
    + rewrite limit_sub_panics in K' by assumption. discriminate.
    + rewrite limit_todo_panics in K' by tauto. discriminate.
    + rewrite limit_todo_panics in K' by tauto. discriminate.
    + rewrite limit_todo_panics in K' by tauto. discriminate.
  - destruct f as [|f]; [discriminate|]. cbn [limit_var] in K. apply qbind_ok in K as (w & K & _).
    unfold limit_rule in K. cbn [root] in K.
    destruct Hin as [D|[D|[D|[]]]]; rewrite <- D in K.
    + unfold add_limit_expr_rule in K. cbn in K.
      apply qbind_ok in K as (u & _ & K). apply qbind_ok in K as (v & K & _). exact (IH _ _ K).
    + unfold mul_limit_expr_rule in K. cbn in K.
      apply qbind_ok in K as (u & _ & K). apply qbind_ok in K as (v & K & _). exact (IH _ _ K).
    + unfold div_limit_expr_rule in K. cbn in K.
      destruct (Z.to_nat (ord + 1)) as [|n] eqn:En; [lia|]. cbn [div_loop] in K.
      apply qbind_ok in K as (u & K & _). exact (IH _ _ K).
  - destruct f as [|f]; [discriminate|]. cbn [limit_var] in K. apply qbind_ok in K as (w & K & _).
    unfold limit_rule in K. cbn [root] in K.
    destruct Hin as [D|[D|[D|[]]]]; rewrite <- D in K.
    + unfold add_limit_expr_rule in K. cbn in K.
      apply qbind_ok in K as (u & K & _). exact (IH _ _ K).
    + unfold mul_limit_expr_rule in K. cbn in K.
      apply qbind_ok in K as (u & K & _). exact (IH _ _ K).
    + unfold div_limit_expr_rule in K. cbn in K.
      destruct (Z.to_nat (ord + 1)) as [|n] eqn:En; [lia|]. cbn [div_loop] in K.
      apply qbind_ok in K as (u & _ & K). apply qbind_ok in K as (v & K & _). exact (IH _ _ K).
Qed.
