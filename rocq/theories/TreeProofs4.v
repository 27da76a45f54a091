(** * TreeProofs4: substitution, derivative of constants, Taylor shape, limit panics *)
From Coq Require Import ZArith List String Bool Lia Factorial.
From Verif Require Import Base Float Rational SmartNum Ast Compute Limit Spec SpecTree.
From Verif Require Import BaseProofs NumProofs NumProofs2 TreeProofs TreeProofs2 TreeProofs3.
Import ListNotations.
Open Scope Z_scope.
Open Scope res_scope.

(** ** substitution *)
Lemma subst_mk1 x v t a : subst x v (mk1 t a) = mk1 t (subst x v a).
Proof. reflexivity. Qed.
Lemma subst_mk2 x v t a b : subst x v (mk2 t a b) = mk2 t (subst x v a) (subst x v b).
Proof. reflexivity. Qed.

Lemma occurs_child x r c a : In a c -> occurs x a -> occurs x (Expr r c).
Proof. intros Hin [k H]. exists k. eapply sub_child; eauto. Qed.

Lemma subst_absent x v e : ~ occurs x e -> subst x v e = e.
Proof.
  induction e as [r c IH] using expr_ind'. intros H. cbn [subst].
  destruct r as [op|[n|y]]; [|reflexivity|].
  - f_equal. rewrite <- (map_id c) at 2. apply map_ext_in. intros a Ha.
    rewrite Forall_forall in IH. apply IH; [assumption|]. intros K. apply H.
    eapply occurs_child; eauto.
  - destruct (String.eqb y x) eqn:E; [|reflexivity]. apply String.eqb_eq in E. subst.
    exfalso. apply H. exists c. constructor.
Qed.

Lemma subst_self x e : wf e -> subst x (e_var x) e = e.
Proof.
  intros W. pattern e. revert e W. apply wf_ind1.
  - reflexivity.
  - intros y. cbn. destruct (String.eqb y x) eqn:E; [|reflexivity].
    apply String.eqb_eq in E. subst. reflexivity.
  - intros t a _ _ IH. rewrite subst_mk1, IH. reflexivity.
  - intros t a b _ _ _ IHa IHb. rewrite subst_mk2, IHa, IHb. reflexivity.
Qed.

Lemma occurs_num x n : ~ occurs x (Expr (Operand (Num n)) []).
Proof. intros [k H]. inversion H as [|? ? ? ? Hin]; subst. destruct Hin. Qed.
Lemma occurs_var x y : occurs x (Expr (Operand (Var y)) []) <-> x = y.
Proof.
  split.
  - intros [k H]. inversion H as [|? ? ? ? Hin]; subst; [reflexivity|destruct Hin].
  - intros ->. exists []. constructor.
Qed.
Lemma occurs_mk1 x t a : occurs x (mk1 t a) <-> occurs x a.
Proof.
  split.
  - intros [k H]. apply subterm_mk1 in H as [[=]|H]. exists k. assumption.
  - intros H. eapply occurs_child; [left; reflexivity|assumption].
Qed.
Lemma occurs_mk2 x t a b : occurs x (mk2 t a b) <-> occurs x a \/ occurs x b.
Proof.
  split.
  - intros [k H]. apply subterm_mk2 in H as [[=]|[H|H]]; [left|right]; exists k; assumption.
  - intros [H|H]; (eapply occurs_child; [|exact H]); [left|right; left]; reflexivity.
Qed.

Lemma subst_occurs x v e y : wf e ->
  (occurs y (subst x v e) <-> (y <> x /\ occurs y e) \/ (occurs x e /\ occurs y v)).
Proof.
  intros W. pattern e. revert e W. apply wf_ind1.
  - intros n _. cbn [subst]. pose proof (occurs_num y n). pose proof (occurs_num x n). tauto.
  - intros z. cbn [subst]. destruct (String.eqb z x) eqn:E.
    + apply String.eqb_eq in E. subst. rewrite !occurs_var. intuition congruence.
    + apply String.eqb_neq in E. rewrite !occurs_var. intuition congruence.
  - intros t a _ _ IH. rewrite subst_mk1, !occurs_mk1. exact IH.
  - intros t a b _ _ _ IHa IHb. rewrite subst_mk2, !occurs_mk2, IHa, IHb. tauto.
Qed.

Lemma subst_subst x v y w e : x <> y -> ~ occurs y v ->
  subst x v (subst y w e) = subst y (subst x v w) (subst x v e).
Proof.
  intros Hxy Hv. induction e as [r c IH] using expr_ind'. cbn [subst].
  destruct r as [op|[n|z]].
  - cbn [subst]. f_equal. rewrite !map_map. apply map_ext_in. intros a Ha.
    rewrite Forall_forall in IH. apply IH. assumption.
  - reflexivity.
  - destruct (String.eqb z y) eqn:Ey.
    + apply String.eqb_eq in Ey. subst. destruct (String.eqb y x) eqn:Ex.
      * apply String.eqb_eq in Ex. congruence.
      * cbn [subst]. rewrite String.eqb_refl. reflexivity.
    + destruct (String.eqb z x) eqn:Ex; cbn [subst]; rewrite Ex.
      * symmetry. apply subst_absent. assumption.
      * rewrite Ey. reflexivity.
Qed.

Lemma subst_commute x v y w e : x <> y -> ~ occurs y v -> ~ occurs x w ->
  subst x v (subst y w e) = subst y w (subst x v e).
Proof. intros H1 H2 H3. rewrite subst_subst by assumption. f_equal. apply subst_absent. assumption. Qed.

Lemma subst_size x v e : wf e ->
  (size (subst x v e) + count_var x e = size e + count_var x e * size v)%nat.
Proof.
  intros W. pattern e. revert e W. apply wf_ind1.
  - intros n _. simpl. lia.
  - intros y. cbn. destruct (String.eqb y x); simpl; lia.
  - intros t a _ _ IH. rewrite subst_mk1, !size_mk1. cbn [mk1 count_var map list_sum fold_right].
    nia.
  - intros t a b _ _ _ IHa IHb. rewrite subst_mk2, !size_mk2.
    cbn [mk2 count_var map list_sum fold_right]. nia.
Qed.

Lemma list_sum_in l n : In n l -> (n <= list_sum l)%nat.
Proof.
  induction l as [|a l IH]; [intros []|]. intros [->|H]; simpl; [lia|]. apply IH in H. 
  change (fold_right Nat.add 0%nat l) with (list_sum l). lia.
Qed.
Lemma list_sum_zero l : (forall n, In n l -> n = 0%nat) -> list_sum l = 0%nat.
Proof.
  induction l as [|a l IH]; intros H; [reflexivity|]. simpl. rewrite (H a) by (left; reflexivity).
  change (fold_right Nat.add 0%nat l) with (list_sum l). rewrite IH; [reflexivity|].
  intros n Hn. apply H. right. assumption.
Qed.

Lemma count_var_occurs x e : count_var x e = 0%nat <-> ~ occurs x e.
Proof.
  induction e as [r c IH] using expr_ind'. rewrite Forall_forall in IH. cbn [count_var]. split.
  - intros H [k Hs]. inversion Hs as [|? ? ? a Hin Ha]; subst.
    + rewrite String.eqb_refl in H. discriminate.
    + assert (count_var x a = 0)%nat as H0.
      { assert (count_var x a <= list_sum (map (count_var x) c))%nat; [|lia].
        apply list_sum_in. apply in_map. assumption. }
      apply IH in H0; [|assumption]. apply H0. exists k. assumption.
  - intros H. rewrite list_sum_zero.
    + destruct r as [op|[n|y]]; try reflexivity. destruct (String.eqb y x) eqn:E; [|reflexivity].
      apply String.eqb_eq in E. subst. exfalso. apply H. exists c. constructor.
    + intros n Hn. apply in_map_iff in Hn as (a & <- & Ha). apply IH; [assumption|].
      intros K. apply H. eapply occurs_child; eauto.
Qed.

(** ** the derivative of an expression without the variable *)
Lemma agg_zero m : num_aggregate m e_zero = Ok e_zero. Proof. reflexivity. Qed.

Lemma agg_ok_is m e z z' : num_aggregate m e = Ok z -> num_aggregate m e = Ok z' -> z = z'.
Proof. congruence. Qed.

Lemma mul_zero_r m a z : num_aggregate m (mk2 OMul a e_zero) = Ok z -> z = e_zero.
Proof.
  intros H. rewrite agg_mk2 in H by reflexivity. rewrite agg_zero in H. cbn [bind] in H.
  inv_bind H. apply rule2_ar in H; [|reflexivity].
  inversion H; subst; try reflexivity; try discriminate.
  - match goal with E : sn_op _ _ _ _ = Ok _ |- _ => cbn [sn_op] in E; unfold e_zero, e_of_i64, e_num in *;
      rename E into Hv end.
    unfold sn_mul in Hv. destruct (sn_is_one x) eqn:E1; [injection Hv as <-; reflexivity|].
    cbn -[val_mul] in Hv. inv_bind Hv. apply guard_ok in Hb0 as [Hb0 _].
    unfold val_mul in Hb0. rewrite orb_true_r in Hb0. injection Hb0 as <-. injection Hv as <-. reflexivity.
  - match goal with E : _ || is_zero e_zero = false |- _ => rewrite orb_true_r in E; discriminate end.
Qed.
Lemma mul_zero_l m a z : num_aggregate m (mk2 OMul e_zero a) = Ok z -> z = e_zero.
Proof.
  intros H. rewrite agg_mk2 in H by reflexivity. inv_bind H. rewrite agg_zero in H. cbn [bind] in H.
  apply rule2_ar in H; [|reflexivity].
  inversion H; subst; try reflexivity; try discriminate.
  match goal with E : sn_op _ _ _ _ = Ok _ |- _ => cbn [sn_op] in E; rename E into Hv end.
  unfold sn_mul in Hv. change (sn_is_one (sn_of_i64 0)) with false in Hv. cbn [negb] in Hv. 
  destruct (sn_is_one y) eqn:E1; [injection Hv as <-; reflexivity|].
  cbn -[val_mul] in Hv. inv_bind Hv. apply guard_ok in Hb0 as [Hb0 _].
  injection Hb0 as <-. injection Hv as <-. reflexivity.
Qed.
Lemma div_zero_l m u a z : num_aggregate m u = Ok e_zero -> num_aggregate m (mk2 ODiv u a) = Ok z -> z = e_zero.
Proof.
  intros Hu H. rewrite agg_mk2 in H by reflexivity. inv_bind H. rewrite Hu in H. cbn [bind] in H.
  apply rule2_ar in H; [|reflexivity].
  inversion H; subst; try reflexivity; try discriminate.
  match goal with E : sn_op _ _ _ _ = Ok _ |- _ => cbn [sn_op] in E; rename E into Hv end.
  rewrite sn_div_0_l in Hv; [injection Hv as <-; reflexivity| |reflexivity].
  apply sn_of_i64_ok. reflexivity.
Qed.
Lemma add_zero_zero m u v z : num_aggregate m u = Ok e_zero -> num_aggregate m v = Ok e_zero ->
  num_aggregate m (mk2 OAdd u v) = Ok z -> z = e_zero.
Proof.
  intros Hu Hv H. rewrite agg_mk2 in H by reflexivity. rewrite Hu, Hv in H. injection H as <-. reflexivity.
Qed.
Lemma sub_zero_zero m u v z : num_aggregate m u = Ok e_zero -> num_aggregate m v = Ok e_zero ->
  num_aggregate m (mk2 OSub u v) = Ok z -> z = e_zero.
Proof.
  intros Hu Hv H. rewrite agg_mk2 in H by reflexivity. rewrite Hu, Hv in H. cbn [bind] in H.
  destruct m; vm_compute in H; injection H as <-; reflexivity.
Qed.

Lemma agg2_children m t a b z : arity t = 2%nat -> num_aggregate m (mk2 t a b) = Ok z ->
  exists l r, num_aggregate m a = Ok l /\ num_aggregate m b = Ok r.
Proof. intros Ht H. rewrite agg_mk2 in H by assumption. do 2 inv_bind H. eauto. Qed.

Lemma mul_any_zero m u v z : num_aggregate m v = Ok e_zero ->
  num_aggregate m (mk2 OMul u v) = Ok z -> z = e_zero.
Proof.
  intros Hv H. apply mul_zero_r with (m := m) (a := u). rewrite agg_mk2 in * by reflexivity.
  rewrite Hv in H. rewrite agg_zero. exact H.
Qed.

Lemma deriv_absent m x e : wf e -> ~ occurs x e -> forall d, deriv m x e = Ok d -> d = e_zero.
Proof.
  intros W. pattern e. revert e W. apply wf_ind1.
  - intros n _ _ d [= <-]. reflexivity.
  - intros y Hy d. rewrite deriv_var. rewrite occurs_var in Hy.
    apply String.eqb_neq in Hy. rewrite Hy. intros [= <-]. reflexivity.
  - intros t a Ha Wa IH Hx d H. rewrite occurs_mk1 in Hx. rewrite deriv_mk1 in H by assumption.
    inv_bind H. rewrite (IH Hx _ Hb) in H. destruct t; try discriminate; cbn [raw1] in H.
    + destruct m; injection H as <-; reflexivity.
    + exact (mul_zero_r _ _ _ H).
    + exact (mul_zero_r _ _ _ H).
    + exact (mul_zero_l _ _ _ H).
    + exact (div_zero_l _ _ _ _ (agg_zero m) H).
  - intros t a b Ha Wa Wb IHa IHb Hx d H. rewrite occurs_mk2 in Hx.
    rewrite deriv_mk2 in H by assumption. do 2 inv_bind H.
    rewrite (IHb (fun K => Hx (or_intror K)) _ Hb), (IHa (fun K => Hx (or_introl K)) _ Hb0) in H.
    assert (forall u v z, num_aggregate m (mk2 OAdd (e_mul e_zero v) (e_mul u e_zero)) = Ok z -> z = e_zero) as Add.
    { intros u v z K. destruct (agg2_children m OAdd _ _ _ eq_refl K) as (l & r & E1 & E2).
      pose proof (mul_zero_l _ _ _ E1). pose proof (mul_zero_r _ _ _ E2). subst.
      exact (add_zero_zero _ _ _ _ E1 E2 K). }
    assert (forall u v z, num_aggregate m (mk2 OSub (e_mul e_zero v) (e_mul u e_zero)) = Ok z -> z = e_zero) as Sub.
    { intros u v z K. destruct (agg2_children m OSub _ _ _ eq_refl K) as (l & r & E1 & E2).
      pose proof (mul_zero_l _ _ _ E1). pose proof (mul_zero_r _ _ _ E2). subst.
      exact (sub_zero_zero _ _ _ _ E1 E2 K). }
    destruct t; try discriminate; cbn [raw2] in H.
    + exact (add_zero_zero _ _ _ _ (agg_zero m) (agg_zero m) H).
    + exact (sub_zero_zero _ _ _ _ (agg_zero m) (agg_zero m) H).
    + exact (Add _ _ _ H).
    + destruct (agg2_children m ODiv _ _ _ eq_refl H) as (l & r & E1 & E2).
      pose proof (Sub _ _ _ E1). subst. exact (div_zero_l _ _ _ _ E1 H).
    + destruct (agg2_children m OMul _ _ _ eq_refl H) as (l & r & E1 & E2).
      destruct (agg2_children m OAdd _ _ _ eq_refl E2) as (l' & r' & E3 & E4).
      destruct (agg2_children m ODiv _ _ _ eq_refl E4) as (l'' & r'' & E5 & E6).
      pose proof (mul_zero_l _ _ _ E3). pose proof (mul_zero_r _ _ _ E5). subst.
      pose proof (div_zero_l _ _ _ _ E5 E4). subst.
      pose proof (add_zero_zero _ _ _ _ E3 E4 E2). subst.
      exact (mul_any_zero _ _ _ _ E2 H).
Qed.
