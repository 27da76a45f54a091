(** * TreeProofs3: size, variables, operators, folding, idempotence of num_aggregate *)
From Coq Require Import ZArith List String Bool Lia.
From Verif Require Import Base Float Rational SmartNum Ast Compute Spec SpecTree.
From Verif Require Import BaseProofs NumProofs NumProofs2 TreeProofs TreeProofs2.
Import ListNotations.
Open Scope Z_scope.
Open Scope res_scope.

Lemma size_pos e : (1 <= size e)%nat.
Proof. destruct e; simpl; lia. Qed.
Lemma list_sum_app l1 l2 : list_sum (l1 ++ l2) = (list_sum l1 + list_sum l2)%nat.
Proof. induction l1; simpl; lia. Qed.
Lemma size_snoc r pre a : (S (size a) <= size (Expr r (pre ++ [a])))%nat.
Proof. cbn [size]. rewrite map_app, list_sum_app. simpl. lia. Qed.
Lemma size_snoc2 r pre a b : (S (size a + size b) <= size (Expr r (pre ++ [a; b])))%nat.
Proof. cbn [size]. rewrite map_app, list_sum_app. simpl. lia. Qed.
Lemma size_mk1 t a : size (mk1 t a) = S (size a).
Proof. simpl. lia. Qed.
Lemma size_mk2 t a b : size (mk2 t a b) = S (size a + size b).
Proof. simpl. lia. Qed.

(** every outcome is the rebuilt node or strictly smaller than it *)
Lemma ar1_size m t a z : ar1 m t a z -> z = mk1 t a \/ (size z < size (mk1 t a))%nat.
Proof.
  intros H. destruct H; try (left; reflexivity); right; rewrite size_mk1;
    try match goal with |- (_ < S (size ?a))%nat => pose proof (size_pos a) end;
    try (simpl; simpl in *; lia).
  all: pose proof (size_snoc (Operator op) r c); lia.
Qed.
Lemma ar2_size m t l r z : ar2 m t l r z -> z = mk2 t l r \/ (size z < size (mk2 t l r))%nat.
Proof.
  intros H. destruct H; try (left; reflexivity); right; rewrite size_mk2;
    try match goal with |- (_ < S (size ?a + size ?b))%nat =>
          pose proof (size_pos a); pose proof (size_pos b) end;
    try (simpl; simpl in *; lia).
  pose proof (size_snoc (Operator op) k c); lia.
Qed.

Lemma agg_size m e : forall z, num_aggregate m e = Ok z -> (size z <= size e)%nat.
Proof.
  induction e as [r c IH] using expr_ind'. intros z H. destruct r as [op|o].
  2: { injection H as <-. lia. }
  destruct (arity (descriptor op)) as [|[|[|k]]] eqn:At; try (destruct (descriptor op); discriminate).
  - apply agg_inv1 in H as (pre & a & a' & -> & H1 & H2); [|assumption].
    apply rule1_ar in H2; [|assumption]. apply Forall_app in IH as [_ IH]. inversion IH; subst.
    apply ar1_size in H2. rewrite size_mk1 in H2. pose proof (size_snoc (Operator op) pre a).
    assert (size a' <= size a)%nat by auto.
    destruct H2 as [->|H2]; rewrite ?size_mk1; lia.
  - apply agg_inv2 in H as (pre & a & b & l & r & -> & H1 & H2 & H3); [|assumption].
    apply rule2_ar in H3; [|assumption]. apply Forall_app in IH as [_ IH].
    inversion IH as [|? ? Ia IH']; subst. inversion IH'; subst.
    apply ar2_size in H3. rewrite size_mk2 in H3. pose proof (size_snoc2 (Operator op) pre a b).
    assert (size l <= size a)%nat by auto. assert (size r <= size b)%nat by auto.
    destruct H3 as [->|H3]; rewrite ?size_mk2; lia.
Qed.

(** on well-formed trees: unchanged or strictly smaller *)
Lemma agg_shrinks m e : wf e -> forall z, num_aggregate m e = Ok z ->
  z = e \/ (size z < size e)%nat.
Proof.
  intros W. pattern e. revert e W. apply wf_ind1.
  - intros n _ z [= <-]. auto.
  - intros x z [= <-]. auto.
  - intros t a Ha Wa IH z H. rewrite agg_mk1 in H by assumption. inv_bind H.
    apply rule1_ar in H; [|assumption]. apply ar1_size in H. rewrite size_mk1 in *.
    destruct (IH _ Hb) as [->|Hlt].
    + exact H.
    + right. destruct H as [->|H]; rewrite ?size_mk1; lia.
  - intros t a b Ha Wa Wb IHa IHb z H. rewrite agg_mk2 in H by assumption. do 2 inv_bind H.
    apply rule2_ar in H; [|assumption]. apply ar2_size in H. rewrite size_mk2 in *.
    destruct (IHb _ Hb) as [->|Hlt], (IHa _ Hb0) as [->|Hlt'].
    + exact H.
    + right. destruct H as [->|H]; rewrite ?size_mk2; lia.
    + right. destruct H as [->|H]; rewrite ?size_mk2; lia.
    + right. destruct H as [->|H]; rewrite ?size_mk2; lia.
Qed.

(** ** subterms *)
Lemma subterm_trans a b c : subterm a b -> subterm b c -> subterm a c.
Proof.
  intros H1 H2. induction H2; [assumption|]. eapply sub_child; eauto.
Qed.
Lemma subterm_last s op r c : subterm s c -> subterm s (Expr op (r ++ [c])).
Proof. intros H. eapply sub_child; [|exact H]. apply in_or_app. right. left. reflexivity. Qed.
Lemma subterm_mk1 s t a : subterm s (mk1 t a) -> s = mk1 t a \/ subterm s a.
Proof.
  intros H. inversion H as [|? ? ? c' Hin Hs]; subst; [auto|].
  right. destruct Hin as [<-|[]]. assumption.
Qed.
Lemma subterm_mk2 s t a b : subterm s (mk2 t a b) -> s = mk2 t a b \/ subterm s a \/ subterm s b.
Proof.
  intros H. inversion H as [|? ? ? c' Hin Hs]; subst; [auto|].
  right. destruct Hin as [<-|[<-|[]]]; auto.
Qed.
Lemma subterm_num s n : subterm s (e_num n) -> s = e_num n.
Proof. intros H. inversion H as [|? ? ? c' Hin Hs]; subst; [reflexivity|destruct Hin]. Qed.

Lemma ar1_subterm m t a z s : ar1 m t a z -> subterm s z ->
  subterm s a \/ (exists n, s = e_num n) \/ s = mk1 t a.
Proof.
  intros H Hs. destruct H;
    try (apply subterm_mk1 in Hs as [->|Hs]; [right; right; reflexivity|auto]);
    try (apply subterm_num in Hs; right; left; eexists; exact Hs);
    try (left; apply subterm_last; assumption).
Qed.
Lemma ar2_subterm m t l r z s : ar2 m t l r z -> subterm s z ->
  subterm s l \/ subterm s r \/ (exists n, s = e_num n) \/ s = mk2 t l r \/
  (t = OSub /\ s = e_neg r).
Proof.
  intros H Hs. destruct H; auto;
    try (apply subterm_mk2 in Hs as [->|[Hs|Hs]]; [right; right; right; left; reflexivity|auto|auto]; fail);
    try (apply subterm_num in Hs; right; right; left; eexists; exact Hs);
    try (left; apply subterm_last; assumption).
  apply subterm_mk1 in Hs as [->|Hs]; [|auto]. auto 6.
Qed.

Lemma agg_subterm_var m x e : forall z, num_aggregate m e = Ok z -> occurs x z -> occurs x e.
Proof.
  induction e as [r c IH] using expr_ind'. intros z H [k Hs]. destruct r as [op|o].
  2: { injection H as <-. exists k. assumption. }
  destruct (arity (descriptor op)) as [|[|[|n]]] eqn:At; try (destruct (descriptor op); discriminate).
  - apply agg_inv1 in H as (pre & a & a' & -> & H1 & H2); [|assumption].
    apply rule1_ar in H2; [|assumption]. apply Forall_app in IH as [_ IH]. inversion IH as [|? ? IHa _]; subst.
    destruct (ar1_subterm _ _ _ _ _ H2 Hs) as [Hs'|[(n & [=])|[=]]].
    destruct (IHa _ H1) as [k' Hk]; [exists k; assumption|].
    exists k'. apply subterm_last. assumption.
  - apply agg_inv2 in H as (pre & a & b & l & r & -> & H1 & H2 & H3); [|assumption].
    apply rule2_ar in H3; [|assumption]. apply Forall_app in IH as [_ IH].
    inversion IH as [|? ? IHa IH']; subst. inversion IH' as [|? ? IHb _]; subst.
    destruct (ar2_subterm _ _ _ _ _ _ H3 Hs) as [Hs'|[Hs'|[(n & [=])|[[=]|(_ & [=])]]]].
    + destruct (IHa _ H1) as [k' Hk]; [exists k; assumption|].
      exists k'. eapply sub_child; [|eassumption]. apply in_or_app. right. left. reflexivity.
    + destruct (IHb _ H2) as [k' Hk]; [exists k; assumption|].
      exists k'. eapply sub_child; [|eassumption]. apply in_or_app. right. right. left. reflexivity.
Qed.

Lemma has_op_child t op c a : In a c -> has_op t a -> has_op t (Expr (Operator op) c).
Proof. intros Hin (o & k & E & H). exists o, k. split; [assumption|]. eapply sub_child; eauto. Qed.
Lemma has_op_root op c : has_op (descriptor op) (Expr (Operator op) c).
Proof. exists op, c. split; [reflexivity|constructor]. Qed.

Lemma agg_ops m t e : forall z, num_aggregate m e = Ok z -> has_op t z ->
  has_op t e \/ (t = ONeg /\ has_op OSub e).
Proof.
  induction e as [r c IH] using expr_ind'. intros z H (o & k & E & Hs). destruct r as [op|od].
  2: { injection H as <-. left. exists o, k. auto. }
  destruct (arity (descriptor op)) as [|[|[|n]]] eqn:At; try (destruct (descriptor op); discriminate).
  - apply agg_inv1 in H as (pre & a & a' & -> & H1 & H2); [|assumption].
    apply rule1_ar in H2; [|assumption]. apply Forall_app in IH as [_ IH]. inversion IH as [|? ? IHa _]; subst.
    assert (In a (pre ++ [a])) as Ha by (apply in_or_app; right; left; reflexivity).
    destruct (ar1_subterm _ _ _ _ _ H2 Hs) as [Hs'|[(n & [=])|[= -> ->]]].
    + destruct (IHa _ H1) as [K|[K1 K2]].
      * exists o, k. split; [reflexivity|assumption].
      * left. eapply has_op_child; eauto.
      * right. split; [assumption|]. eapply has_op_child; eauto.
    + left. rewrite descriptor_gen. apply has_op_root.
  - apply agg_inv2 in H as (pre & a & b & l & r & -> & H1 & H2 & H3); [|assumption].
    apply rule2_ar in H3; [|assumption]. apply Forall_app in IH as [_ IH].
    inversion IH as [|? ? IHa IH']; subst. inversion IH' as [|? ? IHb _]; subst.
    assert (In a (pre ++ [a; b])) as Ha by (apply in_or_app; right; left; reflexivity).
    assert (In b (pre ++ [a; b])) as Hb by (apply in_or_app; right; right; left; reflexivity).
    destruct (ar2_subterm _ _ _ _ _ _ H3 Hs) as [Hs'|[Hs'|[(n & [=])|[[= -> ->]|(D & [= -> ->])]]]].
    + destruct (IHa _ H1) as [K|[K1 K2]].
      * exists o, k. split; [reflexivity|assumption].
      * left. eapply has_op_child; [exact Ha|assumption].
      * right. split; [assumption|]. eapply has_op_child; [exact Ha|assumption].
    + destruct (IHb _ H2) as [K|[K1 K2]].
      * exists o, k. split; [reflexivity|assumption].
      * left. eapply has_op_child; [exact Hb|assumption].
      * right. split; [assumption|]. eapply has_op_child; [exact Hb|assumption].
    + left. rewrite descriptor_gen. apply has_op_root.
    + right. split; [reflexivity|]. rewrite <- D. apply has_op_root.
Qed.

(** ** folding *)
Lemma folded_num n : folded (e_num n).
Proof. intros op c Hs. apply subterm_num in Hs. discriminate. Qed.
Lemma folded_sub a z : subterm a z -> folded z -> folded a.
Proof. intros H Hz op c Hs. apply Hz. eapply subterm_trans; eauto. Qed.
Lemma folded_mk1 t a : folded a -> (arith t = true -> is_num a = false) -> folded (mk1 t a).
Proof.
  intros Ha Hn op c Hs Har. apply subterm_mk1 in Hs as [[= -> ->]|Hs].
  - rewrite descriptor_gen in Har. simpl. rewrite Hn by assumption. reflexivity.
  - eapply Ha; eauto.
Qed.
Lemma folded_mk2 t a b : folded a -> folded b -> (arith t = true -> is_num a && is_num b = false) ->
  folded (mk2 t a b).
Proof.
  intros Ha Hb Hn op c Hs Har. apply subterm_mk2 in Hs as [[= -> ->]|[Hs|Hs]].
  - rewrite descriptor_gen in Har. specialize (Hn Har). simpl. destruct (is_num a); [|reflexivity].
    simpl in *. rewrite Hn. reflexivity.
  - eapply Ha; eauto.
  - eapply Hb; eauto.
Qed.

Lemma is_zero_is_num a : is_zero a = true -> is_num a = true.
Proof. destruct a as [[op|[n|x]] k]; try discriminate. reflexivity. Qed.

Lemma ar1_folded m t a z : folded a -> ar1 m t a z -> folded z.
Proof.
  intros Ha H. destruct H; try apply folded_num;
    try (eapply folded_sub; [|exact Ha]; apply subterm_last; constructor).
  all: apply folded_mk1; [assumption|]; intros Har; try discriminate; assumption.
Qed.
Lemma ar2_folded m t l r z : folded l -> folded r -> ar2 m t l r z -> folded z.
Proof.
  intros Hl Hr H. destruct H; try apply folded_num; try assumption;
    try (eapply folded_sub; [|exact Hl]; apply subterm_last; constructor);
    try (apply folded_mk2; [assumption|assumption|]; intros Har; try discriminate; assumption).
  apply folded_mk1; [assumption|]. intros _. rewrite (is_zero_is_num l) in H by assumption.
  exact H.
Qed.

Lemma agg_folded m e z : wf e -> num_aggregate m e = Ok z -> folded z.
Proof.
  intros W. revert z. pattern e. revert e W. apply wf_ind1.
  - intros n Hn z [= <-]. apply folded_num.
  - intros x z [= <-] op c Hs. inversion Hs as [|? ? ? ? Hin]; subst. destruct Hin.
  - intros t a Ha Wa IH z H. rewrite agg_mk1 in H by assumption. inv_bind H.
    apply rule1_ar in H; [|assumption]. eapply ar1_folded; [|eassumption]. auto.
  - intros t a b Ha Wa Wb IHa IHb z H. rewrite agg_mk2 in H by assumption. do 2 inv_bind H.
    apply rule2_ar in H; [|assumption]. eapply ar2_folded; [| |eassumption]; auto.
Qed.

Lemma ar1_neg_num m a z : ar1 m ONeg a z -> is_num a = true -> exists n, z = e_num n.
Proof. intros H N. inversion H; subst; eauto; try discriminate; congruence. Qed.
Lemma ar2_arith_num m t l r z : ar2 m t l r z -> arith t = true ->
  is_num l && is_num r = true -> exists n, z = e_num n.
Proof. intros H A N. inversion H; subst; eauto; try discriminate; congruence. Qed.

Lemma closed_arith_num m e : closed_arith e ->
  forall z, num_aggregate m e = Ok z -> exists n, z = e_num n.
Proof.
  induction 1 as [n Hn|a Ha IHa|a b Ha IHa Hb' IHb|a b Ha IHa Hb' IHb|a b Ha IHa Hb' IHb
                 |a b Ha IHa Hb' IHb]; intros z H.
  - injection H as <-. exists n. reflexivity.
  - change (num_aggregate m (mk1 ONeg a) = Ok z) in H. rewrite agg_mk1 in H by reflexivity. inv_bind H.
    apply rule1_ar in H; [|reflexivity]. destruct (IHa _ Hb) as (n & ->).
    eapply ar1_neg_num; [eassumption|reflexivity].
  - change (num_aggregate m (mk2 OAdd a b) = Ok z) in H. rewrite agg_mk2 in H by reflexivity.
    do 2 inv_bind H. apply rule2_ar in H; [|reflexivity].
    destruct (IHb _ Hb) as (n & ->), (IHa _ Hb0) as (n' & ->).
    eapply ar2_arith_num; [eassumption|reflexivity|reflexivity].
  - change (num_aggregate m (mk2 OSub a b) = Ok z) in H. rewrite agg_mk2 in H by reflexivity.
    do 2 inv_bind H. apply rule2_ar in H; [|reflexivity].
    destruct (IHb _ Hb) as (n & ->), (IHa _ Hb0) as (n' & ->).
    eapply ar2_arith_num; [eassumption|reflexivity|reflexivity].
  - change (num_aggregate m (mk2 OMul a b) = Ok z) in H. rewrite agg_mk2 in H by reflexivity.
    do 2 inv_bind H. apply rule2_ar in H; [|reflexivity].
    destruct (IHb _ Hb) as (n & ->), (IHa _ Hb0) as (n' & ->).
    eapply ar2_arith_num; [eassumption|reflexivity|reflexivity].
  - change (num_aggregate m (mk2 ODiv a b) = Ok z) in H. rewrite agg_mk2 in H by reflexivity.
    do 2 inv_bind H. apply rule2_ar in H; [|reflexivity].
    destruct (IHb _ Hb) as (n & ->), (IHa _ Hb0) as (n' & ->).
    eapply ar2_arith_num; [eassumption|reflexivity|reflexivity].
Qed.

(** ** idempotence without subtraction *)
Inductive NF (m : mode) : expr -> Prop :=
| NF_num n k : NF m (Expr (Operand (Num n)) k)
| NF_var x k : NF m (Expr (Operand (Var x)) k)
| NF_1 t a : arity t = 1%nat -> NF m a -> eval_rule m t [Ok a] = Ok (mk1 t a) -> NF m (mk1 t a)
| NF_2 t a b : arity t = 2%nat -> NF m a -> NF m b ->
    eval_rule m t [Ok a; Ok b] = Ok (mk2 t a b) -> NF m (mk2 t a b).

Lemma NF_fix m e : NF m e -> num_aggregate m e = Ok e.
Proof.
  induction 1; try reflexivity.
  - rewrite agg_mk1 by assumption. rewrite IHNF. exact H1.
  - rewrite agg_mk2 by assumption. rewrite IHNF2, IHNF1. exact H2.
Qed.

Lemma NF_last m op r c : NF m (Expr (Operator op) (r ++ [c])) -> NF m c.
Proof.
  intros H. inversion H; subst.
  - match goal with E : [?a] = r ++ [c] |- _ => apply (app_inj_tail [] r) in E as [_ <-] end. assumption.
  - match goal with E : [?a; ?b] = r ++ [c] |- _ => apply (app_inj_tail [a] r) in E as [_ <-] end. assumption.
Qed.

Lemma ar1_NF m t a z : arity t = 1%nat -> NF m a -> eval_rule m t [Ok a] = Ok z -> NF m z.
Proof.
  intros Ht Ha H. pose proof (rule1_ar _ _ _ _ Ht H) as R.
  destruct R; try (constructor; fail); try (apply NF_last in Ha; assumption);
    apply NF_1; assumption.
Qed.
Lemma ar2_NF m t l r z : arity t = 2%nat -> t <> OSub -> NF m l -> NF m r ->
  eval_rule m t [Ok l; Ok r] = Ok z -> NF m z.
Proof.
  intros Ht Hs Hl Hr H. pose proof (rule2_ar _ _ _ _ _ Ht H) as R.
  destruct R; try (constructor; fail); try assumption; try (apply NF_last in Hl; assumption);
    try congruence; apply NF_2; assumption.
Qed.

Lemma has_op_mk1 t a : ~ has_op OSub (mk1 t a) -> ~ has_op OSub a.
Proof.
  intros H K. apply H. destruct K as (o & k & E & Hs). exists o, k. split; [assumption|].
  eapply sub_child; [left; reflexivity|assumption].
Qed.
Lemma has_op_mk2 t a b : ~ has_op OSub (mk2 t a b) ->
  t <> OSub /\ ~ has_op OSub a /\ ~ has_op OSub b.
Proof.
  intros H. split; [|split].
  - intros ->. apply H. exists (gen_op OSub), [a; b]. split; [reflexivity|constructor].
  - intros K. apply H. destruct K as (o & k & E & Hs). exists o, k. split; [assumption|].
    eapply sub_child; [left; reflexivity|assumption].
  - intros K. apply H. destruct K as (o & k & E & Hs). exists o, k. split; [assumption|].
    eapply sub_child; [right; left; reflexivity|assumption].
Qed.

Lemma agg_NF m e : wf e -> ~ has_op OSub e -> forall z, num_aggregate m e = Ok z -> NF m z.
Proof.
  intros W. pattern e. revert e W. apply wf_ind1.
  - intros n _ _ z [= <-]. constructor.
  - intros x _ z [= <-]. constructor.
  - intros t a Ha Wa IH Hs z H. rewrite agg_mk1 in H by assumption. inv_bind H.
    eapply ar1_NF; [exact Ha| |exact H]. apply has_op_mk1 in Hs. auto.
  - intros t a b Ha Wa Wb IHa IHb Hs z H. rewrite agg_mk2 in H by assumption. do 2 inv_bind H.
    apply has_op_mk2 in Hs as (Hs & Hsa & Hsb).
    eapply ar2_NF; [exact Ha|exact Hs| | |exact H]; auto.
Qed.

Lemma agg_idem m e z : wf e -> ~ has_op OSub e -> num_aggregate m e = Ok z ->
  num_aggregate m z = Ok z.
Proof. intros W Hs H. apply NF_fix. eapply agg_NF; eauto. Qed.

(** repeated aggregation *)
Lemma agg_iter_fix m k e : num_aggregate m e = Ok e -> agg_iter m k e = Ok e.
Proof. intros H. induction k as [|k IH]; [reflexivity|]. cbn [agg_iter]. rewrite H. exact IH. Qed.

Lemma agg_iter_reaches m : forall k e z, wf e -> (size e <= k)%nat -> agg_iter m k e = Ok z ->
  num_aggregate m z = Ok z.
Proof.
  induction k as [|k IH]; intros e z W Hk H.
  - pose proof (size_pos e). lia.
  - cbn [agg_iter] in H. inv_bind H. destruct (agg_shrinks m e W a Hb) as [->|Hlt].
    + rewrite (agg_iter_fix m k e Hb) in H. injection H as <-. assumption.
    + eapply IH; [|instantiate (1 := a); lia|exact H]. eapply agg_wf; eauto.
Qed.
