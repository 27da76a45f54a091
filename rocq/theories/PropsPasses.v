(** * PropsPasses: C25, how many passes of [num_aggregate] reach a fixed point *)
From Coq Require Import ZArith List String Bool Lia.
From Verif Require Import Base Float Rational SmartNum Ast Compute Limit Spec SpecTree SpecPasses.
From Verif Require Import BaseProofs TreeProofs TreeProofs2 TreeProofs3 TreeProofs4 NumProofs PropsTree.
Import ListNotations.
Open Scope res_scope.
Open Scope nat_scope.

Lemma cop_mk1 t a : arity t = 1 -> count_op OSub (mk1 t a) = count_op OSub a.
Proof. intros H. destruct t; try discriminate H; cbn; lia. Qed.
Lemma cop_mk2 t a b : arity t = 2 -> t <> OSub -> count_op OSub (mk2 t a b) = count_op OSub a + count_op OSub b.
Proof. intros H N. destruct t; try discriminate H; try congruence; cbn; lia. Qed.
Lemma cop_sub a b : count_op OSub (mk2 OSub a b) = S (count_op OSub a + count_op OSub b).
Proof. cbn. lia. Qed.
Lemma cop_num n : count_op OSub (e_num n) = 0. Proof. reflexivity. Qed.
Lemma cop_last op r c : count_op OSub c <= count_op OSub (Expr (Operator op) (r ++ [c])).
Proof. cbn [count_op]. rewrite map_app, list_sum_app. cbn [map list_sum fold_right]. lia. Qed.

Lemma ar1_cop m t a z : ar1 m t a z -> count_op OSub z <= count_op OSub a.
Proof.
  intros H. destruct H; try apply cop_last; try (change (count_op OSub z <= count_op OSub a)); cbn -[count_op]; try (rewrite ?cop_num; lia);
    try (unfold e_neg, e_sin, e_cos, e_exp, e_ln; rewrite cop_mk1 by reflexivity; lia); unfold e_zero, e_one, e_e, e_of_i64; rewrite cop_num; lia.
Qed.
Lemma ar2_cop m t l r z : ar2 m t l r z -> t <> OSub -> count_op OSub z <= count_op OSub l + count_op OSub r.
Proof.
  intros H N. destruct H; try congruence; try (unfold e_zero, e_one, e_of_i64; rewrite ?cop_num; lia);
    try (unfold e_add, e_mul, e_div, e_pow; rewrite cop_mk2 by (reflexivity || discriminate); lia).
  pose proof (cop_last op k c). lia.
Qed.
Lemma ar2_cop_sub m l r z : ar2 m OSub l r z ->
  z = mk2 OSub l r \/ count_op OSub z <= count_op OSub l + count_op OSub r.
Proof.
  intros H. inversion H; subst; auto; right; rewrite ?cop_num; try lia.
  unfold e_neg. rewrite cop_mk1 by reflexivity. lia.
Qed.

Lemma agg_cop m e : wf e -> forall z, num_aggregate m e = Ok z ->
  count_op OSub z <= count_op OSub e /\ (count_op OSub z = count_op OSub e -> NF m z).
Proof.
  intros W. pattern e. revert e W. apply wf_ind1.
  - intros n _ z [= <-]. split; [reflexivity|constructor].
  - intros x z [= <-]. split; [reflexivity|constructor].
  - intros t a Ha Wa IH z H. rewrite agg_mk1 in H by assumption. inv_bind H.
    destruct (IH _ Hb) as [L E]. pose proof (ar1_cop _ _ _ _ (rule1_ar _ _ _ _ Ha H)) as C.
    rewrite cop_mk1 by assumption. split; [lia|]. intros Q.
    eapply ar1_NF; [exact Ha| |exact H]. apply E. lia.
  - intros t a b Ha Wa Wb IHa IHb z H. rewrite agg_mk2 in H by assumption. do 2 inv_bind H.
    destruct (IHb _ Hb) as [Lb Eb]. destruct (IHa _ Hb0) as [La Ea].
    pose proof (rule2_ar _ _ _ _ _ Ha H) as R.
    destruct (optype_eqb t OSub) eqn:T.
    + assert (t = OSub) by (destruct t; try discriminate T; reflexivity). subst t.
      rewrite cop_sub. destruct (ar2_cop_sub _ _ _ _ R) as [-> | C].
      * rewrite cop_sub. split; [lia|]. intros Q. apply NF_2; [reflexivity|apply Ea; lia|apply Eb; lia|exact H].
      * split; [lia|]. intros Q. lia.
    + assert (t <> OSub) as N by (intros ->; discriminate T).
      pose proof (ar2_cop _ _ _ _ _ R N) as C. rewrite cop_mk2 by assumption. split; [lia|]. intros Q.
      eapply ar2_NF; [exact Ha|exact N| | |exact H]; [apply Ea|apply Eb]; lia.
Qed.

(** C25: one pass more than there are subtractions is always enough *)
Theorem c25_passes m e z : wf e -> agg_iter m (S (count_op OSub e)) e = Ok z -> num_aggregate m z = Ok z.
Proof.
  assert (G : forall k e z, wf e -> count_op OSub e <= k -> agg_iter m (S k) e = Ok z -> num_aggregate m z = Ok z).
  { clear. induction k as [|k IH]; intros e z W L H; cbn [agg_iter] in H; inv_bind H; destruct (agg_cop m e W a Hb) as [C F].
    - cbn [agg_iter] in H. injection H as <-. apply NF_fix, F. lia.
    - destruct (Nat.eq_dec (count_op OSub a) (count_op OSub e)) as [E|E].
      + pose proof (NF_fix _ _ (F E)) as X. assert (agg_iter m (S k) a = Ok a) as Y by (apply agg_iter_fix; exact X).
        change (agg_iter m (S k) a = Ok z) in H. rewrite Y in H. injection H as <-. exact X.
      + apply (IH a z); [exact (agg_wf m e a W Hb)|lia|exact H]. }
  intros W H. exact (G _ e z W (le_n _) H).
Qed.

(** ... and no fewer: a tree with [k] subtractions that [k] passes do not finish *)
Fixpoint slow (k : nat) : expr :=
  match k with
  | O => e_zero
  | S k' => e_exp (e_sub (slow k') (e_neg (e_ln e_zero)))
  end.
Lemma slow_wf k : wf (slow k).
Proof.
  assert (wf e_zero) as Z by (apply wf_num; vm_compute; auto).
  induction k as [|k IH]; [exact Z|]. cbn [slow]. apply wf_mk1; [reflexivity|]. apply wf_mk2; [reflexivity|exact IH|].
  apply wf_mk1; [reflexivity|]. apply wf_mk1; [reflexivity|exact Z].
Qed.
Lemma slow_count k : count_op OSub (slow k) = k.
Proof.
  induction k as [|k IH]; [reflexivity|]. cbn [slow]. unfold e_exp, e_sub. rewrite cop_mk1, cop_sub, IH by reflexivity.
  cbn. lia.
Qed.
Definition layer (a : expr) : expr := e_exp (e_sub a (e_neg (e_ln e_zero))).
Definition stuck : expr := e_exp (e_neg (e_neg (e_ln e_zero))).
Fixpoint layers (n : nat) (b : expr) : expr := match n with O => b | S n' => layer (layers n' b) end.
Lemma agg_layer m a a' : num_aggregate m a = Ok a' ->
  (a' = e_zero -> num_aggregate m (layer a) = Ok stuck) /\
  (is_num a' = false -> is_zero a' = false -> num_aggregate m (layer a) = Ok (layer a')).
Proof.
  intros H. unfold layer, e_exp, e_sub. rewrite agg_mk1, agg_mk2 by reflexivity.
  change (num_aggregate m (e_neg (e_ln e_zero))) with (Ok (e_neg (e_ln e_zero))). cbn [bind]. rewrite H. cbn [bind].
  split.
  - intros ->. reflexivity.
  - intros N Z. destruct a' as [[op|[n|x]] c]; cbn in N, Z; try discriminate N; reflexivity.
Qed.
Lemma layers_pass m b : num_aggregate m b = Ok e_zero -> forall n, num_aggregate m (layers (S n) b) = Ok (layers n stuck).
Proof.
  intros H. induction n as [|n IH].
  - apply (proj1 (agg_layer m b e_zero H)). reflexivity.
  - apply (proj2 (agg_layer m _ _ IH)); destruct n; reflexivity.
Qed.
Lemma slow_layers k : slow k = layers k e_zero.
Proof. induction k as [|k IH]; [reflexivity|]. cbn [slow layers]. rewrite IH. reflexivity. Qed.
Lemma agg_stuck m : num_aggregate m stuck = Ok e_zero.
Proof. reflexivity. Qed.
Lemma stuck_iter m n : forall k, agg_iter m n (layers (n + k) stuck) = Ok (layers k stuck).
Proof.
  induction n as [|n IH]; intros k; [reflexivity|]. cbn [agg_iter Nat.add]. rewrite (layers_pass m stuck (agg_stuck m)).
  cbn [bind]. apply IH.
Qed.
Theorem c25_passes_tight m k : (1 <= k)%nat -> exists e z, wf e /\ count_op OSub e = k /\
  agg_iter m k e = Ok z /\ num_aggregate m z <> Ok z.
Proof.
  intros K. destruct k as [|k]; [lia|]. exists (slow (S k)), stuck.
  split; [apply slow_wf|]. split; [apply slow_count|]. split; [|rewrite agg_stuck; discriminate].
  rewrite slow_layers. cbn [agg_iter]. rewrite (layers_pass m e_zero eq_refl). cbn [bind].
  pose proof (stuck_iter m k 0) as E. rewrite Nat.add_0_r in E. exact E.
Qed.
Print Assumptions c25_passes.
Print Assumptions c25_passes_tight.
(** one subtraction, two passes *)
Example c25_passes_witness : let e := e_sub e_zero (e_neg (e_var "x")) in
  wf e /\ count_op OSub e = 1 /\ agg_iter Debug 2 e = Ok (e_var "x").
Proof.
  split; [|split; reflexivity]. apply wf_mk2; [reflexivity|apply wf_zero|]. apply wf_mk1; [reflexivity|constructor].
Qed.

(** ** Derivatives and Taylor coefficients come out simplified *)
Lemma has_mk1 t s a : has_op t (mk1 s a) <-> s = t \/ has_op t a.
Proof.
  split.
  - intros (o & k & E & H). inversion H as [|? ? ? c I S]; subst.
    + left. symmetry. apply descriptor_gen.
    + right. destruct I as [<- |[]]. exists o, k. auto.
  - intros [<- |(o & k & E & H)].
    + exists (gen_op s), [a]. split; [apply descriptor_gen|constructor].
    + exists o, k. split; [exact E|]. eapply sub_child; [left; reflexivity|exact H].
Qed.
Lemma has_mk2 t s a b : has_op t (mk2 s a b) <-> s = t \/ has_op t a \/ has_op t b.
Proof.
  split.
  - intros (o & k & E & H). inversion H as [|? ? ? c I S]; subst.
    + left. symmetry. apply descriptor_gen.
    + right. destruct I as [<- |[<- |[]]]; [left|right]; exists o, k; auto.
  - intros [<- |[(o & k & E & H)|(o & k & E & H)]].
    + exists (gen_op s), [a; b]. split; [apply descriptor_gen|constructor].
    + exists o, k. split; [exact E|]. eapply sub_child; [left; reflexivity|exact H].
    + exists o, k. split; [exact E|]. eapply sub_child; [right; left; reflexivity|exact H].
Qed.
Lemma has_num t n : ~ has_op t (e_num n).
Proof. intros (o & k & E & H). inversion H as [|? ? ? c I S]; destruct I. Qed.
Lemma has_var t y : ~ has_op t (e_var y).
Proof. intros (o & k & E & H). inversion H as [|? ? ? c I S]; destruct I. Qed.
Lemma agg_has m t e z : t <> ONeg -> num_aggregate m e = Ok z -> has_op t z -> has_op t e.
Proof. intros N H K. destruct (c23_operators m e z t H K) as [Q|[Q _]]; [exact Q|congruence]. Qed.

(** free of all the operators in [l] *)
Definition without (l : list optype) (e : expr) : Prop := forall t, In t l -> ~ has_op t e.
Lemma without_1 l t a : without l (mk1 t a) <-> ~ In t l /\ without l a.
Proof.
  split.
  - intros H. split; [intros I; apply (H t I); apply has_mk1; auto|]. intros s I K. apply (H s I). apply has_mk1; auto.
  - intros [N H] s I K. apply has_mk1 in K. destruct K as [-> |K]; [exact (N I)|exact (H s I K)].
Qed.
Lemma without_2 l t a b : without l (mk2 t a b) <-> ~ In t l /\ without l a /\ without l b.
Proof.
  split.
  - intros H. split; [intros I; apply (H t I); apply has_mk2; auto|].
    split; intros s I K; apply (H s I); apply has_mk2; auto.
  - intros (N & Ha & Hb) s I K. apply has_mk2 in K. destruct K as [-> |[K|K]]; [exact (N I)|exact (Ha s I K)|exact (Hb s I K)].
Qed.
Lemma without_agg m l e z : ~ In ONeg l -> num_aggregate m e = Ok z -> without l e -> without l z.
Proof. intros N H W t I K. apply (W t I). apply (agg_has m t e z); [intros ->; exact (N I)|exact H|exact K]. Qed.
Lemma without_num l n : without l (e_num n). Proof. intros t _. apply has_num. Qed.
Lemma without_var l y : without l (e_var y). Proof. intros t _. apply has_var. Qed.

Ltac notin := let H := fresh in intros H; cbn in H; repeat (destruct H as [H|H]; [discriminate H|]); exact H.
Ltac wo := repeat first [assumption | apply without_num | apply without_2; split; [notin|split] | apply without_1; split; [notin|] ].

(** free of - and /: no subtraction in the derivative *)
Lemma deriv_without1 m x e : wf e -> without [OSub; ODiv] e -> forall d, deriv m x e = Ok d ->
  without [OSub] d /\ num_aggregate m d = Ok d.
Proof.
  assert (R : forall e, without [OSub; ODiv] e -> without [OSub] e) by (intros e0 H t I; apply H; destruct I as [<- |[]]; left; reflexivity).
  assert (F : forall r d, wf r -> without [OSub] r -> num_aggregate m r = Ok d -> without [OSub] d /\ num_aggregate m d = Ok d).
  { intros r d W Q H. split; [eapply without_agg; [|exact H|exact Q]; notin|].
    apply (agg_idem m r d W); [apply Q; left; reflexivity|exact H]. }
  intros W. pattern e. revert e W. apply wf_ind1.
  - intros n _ _ d [= <-]. split; [apply without_num|reflexivity].
  - intros y _ d H. change (e_var y) with (Expr (Operand (Var y)) []) in H. rewrite deriv_var in H.
    destruct (String.eqb x y); injection H as <-; (split; [apply without_num|reflexivity]).
  - intros t a Ha Wa IH Q d H. rewrite deriv_mk1 in H by assumption. inv_bind H.
    apply without_1 in Q. destruct Q as [_ Qa]. destruct (IH Qa _ Hb) as [IH' _]. apply R in Qa.
    pose proof (deriv_wf m x a _ Wa Hb) as Wd.
    apply (F _ _ (raw1_wf t _ _ Ha Wa Wd)); [|exact H]. destruct t; try discriminate Ha; cbn [raw1]; wo.
  - intros t a b Ha Wa Wb IHa IHb Q d H. rewrite deriv_mk2 in H by assumption. do 2 inv_bind H.
    apply without_2 in Q. destruct Q as (N & Qa & Qb). destruct (IHb Qb _ Hb) as [IHb' _]. destruct (IHa Qa _ Hb0) as [IHa' _]. apply R in Qa, Qb.
    pose proof (deriv_wf m x b _ Wb Hb) as Wdb. pose proof (deriv_wf m x a _ Wa Hb0) as Wda.
    apply (F _ _ (raw2_wf t _ _ _ _ Ha Wa Wb Wda Wdb)); [|exact H].
    destruct t; try discriminate Ha; try (exfalso; apply N; cbn; tauto); cbn [raw2]; wo.
Qed.
(** free of -, /, ^ and ln: so are all derivatives *)
Definition smooth_ops : list optype := [OSub; ODiv; OPow; OLn].
Lemma deriv_without4 m x e : wf e -> without smooth_ops e -> forall d, deriv m x e = Ok d -> without smooth_ops d.
Proof.
  intros W. pattern e. revert e W. apply wf_ind1.
  - intros n _ _ d [= <-]. apply without_num.
  - intros y _ d H. change (e_var y) with (Expr (Operand (Var y)) []) in H. rewrite deriv_var in H.
    destruct (String.eqb x y); injection H as <-; apply without_num.
  - intros t a Ha Wa IH Q d H. rewrite deriv_mk1 in H by assumption. inv_bind H.
    apply without_1 in Q. destruct Q as [N Qa]. specialize (IH Qa _ Hb).
    eapply without_agg; [|exact H|]; [notin|]. destruct t; try discriminate Ha; try (exfalso; apply N; cbn; tauto); cbn [raw1]; wo.
  - intros t a b Ha Wa Wb IHa IHb Q d H. rewrite deriv_mk2 in H by assumption. do 2 inv_bind H.
    apply without_2 in Q. destruct Q as (N & Qa & Qb). specialize (IHb Qb _ Hb). specialize (IHa Qa _ Hb0).
    eapply without_agg; [|exact H|]; [notin|]. destruct t; try discriminate Ha; try (exfalso; apply N; cbn; tauto); cbn [raw2]; wo.
Qed.

Lemma subst_has t x v e : wf e -> has_op t (subst x v e) -> has_op t e \/ has_op t v.
Proof.
  intros W. pattern e. revert e W. apply wf_ind1.
  - intros n _ H. left. exact H.
  - intros y H. cbn [subst e_var] in H. destruct (String.eqb y x); auto.
  - intros s a Ha Wa IH H. rewrite subst_mk1 in H. apply has_mk1 in H. destruct H as [-> |H].
    + left. apply has_mk1. auto.
    + destruct (IH H); [left; apply has_mk1|]; auto.
  - intros s a b Ha Wa Wb IHa IHb H. rewrite subst_mk2 in H. apply has_mk2 in H. destruct H as [-> |[H|H]].
    + left. apply has_mk2. auto.
    + destruct (IHa H); [left; apply has_mk2|]; auto.
    + destruct (IHb H); [left; apply has_mk2|]; auto.
Qed.
Lemma without_le l l' e : incl l' l -> without l e -> without l' e.
Proof. intros I W t H. apply W, I, H. Qed.
Lemma without_subst l x v e : wf e -> without l e -> without l v -> without l (subst x v e).
Proof. intros W A B t I K. destruct (subst_has t x v e W K) as [Q|Q]; [exact (A t I Q)|exact (B t I Q)]. Qed.

(** the derivative of an expression without subtraction and division is in simplest form *)
Theorem c25_derivative m e x d : wf e -> ~ has_op OSub e -> ~ has_op ODiv e ->
  derivative m e (e_var x) = Ok (ROk d) -> num_aggregate m d = Ok d.
Proof.
  intros W A B H. change (derivative m e (e_var x)) with (let* z := deriv m x e in Ok (@ROk expr derivative_error z)) in H.
  inv_bind H. injection H as <-. apply (deriv_without1 m x e W); [|exact Hb].
  intros t [<- |[<- |[]]]; assumption.
Qed.
(** with a division it need not be: 1/(-sin x) gives (-(-cos x))/... *)
Theorem c25_derivative_refuted m : exists e d d', wf e /\ derivative m e (e_var "x") = Ok (ROk d) /\
  num_aggregate m d = Ok d' /\ d' <> d.
Proof.
  exists (e_div e_one (e_neg (e_sin (e_var "x")))). eexists. eexists.
  split; [apply wf_mk2; [reflexivity|apply wf_one|]; repeat (apply wf_mk1; [reflexivity|]); constructor|].
  split; [destruct m; vm_compute; reflexivity|]. split; [destruct m; vm_compute; reflexivity|]. vm_compute. discriminate.
Qed.

Lemma taylor_fixed m x at_ n : wf at_ -> ~ has_op OSub at_ -> forall k fa r coef coef' r',
  num_ok fa -> wf r -> without smooth_ops r -> num_aggregate m r = Ok r \/ n <> 0 ->
  Forall (fun c => num_aggregate m c = Ok c) coef ->
  taylor_loop m x at_ n k fa r coef = Ok (coef', r') ->
  Forall (fun c => num_aggregate m c = Ok c) coef' /\ num_aggregate m r' = Ok r'.
Proof.
  intros Wa Na. induction n as [|n IH]; intros k fa r coef coef' r' Hf W Q Fr F H; cbn [taylor_loop] in H.
  - injection H as <- <-. split; [exact F|]. destruct Fr; [assumption|congruence].
  - inv_bind H. rename a into kn. inv_bind H. rename a into fa'. inv_bind H. rename a into s. inv_bind H. rename a into c. inv_bind H. rename a into d.
    pose proof (sn_of_u64_ok _ _ _ Hb) as Okn. pose proof (sn_mul_ok _ _ _ _ Hf Okn Hb0) as Ofa.
    assert (without [OSub] r) as Q1 by (eapply without_le; [|exact Q]; intros t [<- |[]]; cbn; auto).
    assert (without [OSub] (subst x at_ r)) as Qs by (apply without_subst; [exact W|exact Q1|intros t [<- |[]]; exact Na]).
    pose proof (subst_wf x at_ r W Wa) as Ws. pose proof (agg_wf _ _ _ Ws Hb1) as Wz.
    assert (without [OSub] s) as Qz by (eapply without_agg; [|exact Hb1|exact Qs]; notin).
    refine (IH _ _ _ _ _ _ Ofa (deriv_wf _ _ _ _ W Hb3) (deriv_without4 _ _ _ W Q _ Hb3) _ _ H).
    + left. apply (deriv_without1 m x r W); [|exact Hb3]. eapply without_le; [|exact Q]. intros t [<- |[<- |[]]]; cbn; auto.
    + apply Forall_app. split; [exact F|]. constructor; [|constructor].
      apply (agg_idem m (e_div s (e_num fa')) c); [|  |exact Hb2].
      * apply wf_mk2; [reflexivity|exact Wz|constructor; exact Ofa].
      * intros K. assert (without [OSub] (e_div s (e_num fa'))) as Qd by (unfold e_div; wo). exact (Qd OSub (or_introl eq_refl) K).
Qed.

(** the coefficients of a Taylor expansion and its last derivative are in simplest form *)
Theorem c25_taylor m e x at_ (n : nat) t : wf e -> wf at_ -> ~ has_op OSub at_ ->
  ~ has_op OSub e -> ~ has_op ODiv e -> ~ has_op OPow e -> ~ has_op OLn e ->
  taylor_expansion m e (e_var x) at_ (Z.of_nat n) = Ok (ROk t) ->
  Forall (fun c => num_aggregate m c = Ok c) (ex_coef t) /\ num_aggregate m (ex_residual t) = Ok (ex_residual t).
Proof.
  intros W Wa Na A B C D H. unfold taylor_expansion in H. cbn [to_variable root e_var] in H. inv_bind H. injection H as <-.
  unfold taylor_var in Hb. inv_bind Hb. destruct a0 as [coef r]. injection Hb as <-. cbn [ex_coef ex_residual].
  replace (Z.to_nat (Z.of_nat n + 1)) with (S n) in Hb0 by lia.
  eapply (taylor_fixed m x at_ (S n) Wa Na); [| | | | |exact Hb0].
  - vm_compute. auto.
  - exact W.
  - intros s [<- |[<- |[<- |[<- |[]]]]]; assumption.
  - right. discriminate.
  - constructor.
Qed.
Print Assumptions c25_derivative.
Print Assumptions c25_taylor.
(** x*exp(x) + sin(2*x) around 1 *)
Example c25_taylor_witness : let x := e_var "x" in
  let e := e_add (e_mul x (e_exp x)) (e_sin (e_mul (e_of_i64 2) x)) in
  wf e /\ without smooth_ops e /\ exists t, taylor_expansion Debug e x e_one 4 = Ok (ROk t).
Proof.
  split; [|split].
  - assert (wf (e_var "x")) as V by constructor. assert (wf (e_of_i64 2)) as T by (constructor; vm_compute; auto).
    repeat first [exact V | exact T | apply wf_mk2; [reflexivity| |] | apply wf_mk1; [reflexivity|]].
  - repeat first [apply without_var | apply without_num | apply without_2; split; [notin|split] | apply without_1; split; [notin|] ].
  - eexists. vm_compute. reflexivity.
Qed.
