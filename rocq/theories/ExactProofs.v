(** * ExactProofs: arithmetic on integers and fractions never falls back to floats *)
From Coq Require Import ZArith List String Bool Lia.
From Verif Require Import Base Float Rational SmartNum Ast Compute Spec SpecTree SpecExact.
From Verif Require Import BaseProofs NumProofs NumProofs2 TreeProofs TreeProofs2 TreeProofs3 TreeProofs4 TreeProofs5.
Import ListNotations.
Open Scope Z_scope.
Open Scope res_scope.

Definition ev (v : val) : Prop := match v with Real _ => False | _ => True end.
Definition iv (v : val) : Prop := match v with Integer _ => True | _ => False end.
Lemma ev_wrap v : ev v -> not_float (wrap_val v).
Proof. unfold wrap_val, not_float. destruct (val_is_zero v); [exact (fun _ => I)|]. destruct (val_is_one v); [exact (fun _ => I)|]. auto. Qed.
Lemma iv_wrap v : iv v -> integer_num (wrap_val v).
Proof. unfold wrap_val, integer_num. destruct (val_is_zero v); [exact (fun _ => I)|]. destruct (val_is_one v); [exact (fun _ => I)|]. auto. Qed.
Lemma guard_ok m b r v : guard m b r = Ok v -> r = Ok v.
Proof. unfold guard. destruct (is_strict m && b); [discriminate|auto]. Qed.

Ltac kind H := repeat (inv_bind H); try (injection H as <-); try exact I; try contradiction.
Lemma neg_kind m a v : val_neg m a = Ok v -> (ev a -> ev v) /\ (iv a -> iv v).
Proof. destruct a; cbn; intros H; kind H; split; intros K; try exact I; contradiction. Qed.
Lemma add_kind m a b v : val_add m a b = Ok v -> (ev a -> ev b -> ev v) /\ (iv a -> iv b -> iv v).
Proof. destruct a, b; cbn; intros H; kind H; split; intros K L; try exact I; contradiction. Qed.
Lemma sub_kind m a b v : val_sub m a b = Ok v -> (ev a -> ev b -> ev v) /\ (iv a -> iv b -> iv v).
Proof. destruct a, b; cbn; intros H; kind H; split; intros K L; try exact I; contradiction. Qed.
Lemma mul_kind m a b v : val_mul m a b = Ok v -> (ev a -> ev b -> ev v) /\ (iv a -> iv b -> iv v).
Proof.
  unfold val_mul. destruct (val_is_zero a || val_is_zero b); [intros [= <-]; split; intros; exact I|].
  destruct a, b; cbn; intros H; kind H; split; intros K L; try exact I; contradiction.
Qed.
Lemma div_kind m a b v : val_div m a b = Ok v -> ev a -> ev b -> ev v.
Proof.
  unfold val_div. destruct (val_is_zero a); [intros [= <-]; intros; exact I|].
  destruct a, b; cbn; intros H; kind H; intros K L; try exact I; contradiction.
Qed.

Lemma sn_neg_kind m x z : sn_neg m x = Ok z -> (not_float x -> not_float z) /\ (integer_num x -> integer_num z).
Proof.
  unfold sn_neg. intros H. inv_bind H. injection H as <-. apply guard_ok in Hb. destruct (neg_kind _ _ _ Hb) as [E1 E2].
  split; intros K; [apply ev_wrap, E1, K|apply iv_wrap, E2, K].
Qed.
Lemma sn_add_kind m x y z : sn_add m x y = Ok z -> (not_float x -> not_float y -> not_float z) /\ (integer_num x -> integer_num y -> integer_num z).
Proof.
  unfold sn_add. destruct (sn_is_zero x); [intros [= <-]; auto|]. destruct (sn_is_zero y); [intros [= <-]; auto|].
  intros H. inv_bind H. injection H as <-. apply guard_ok in Hb. destruct (add_kind _ _ _ _ Hb) as [E1 E2].
  split; intros K L; [apply ev_wrap, E1; assumption|apply iv_wrap, E2; assumption].
Qed.
Lemma sn_sub_kind m x y z : sn_sub m x y = Ok z -> (not_float x -> not_float y -> not_float z) /\ (integer_num x -> integer_num y -> integer_num z).
Proof.
  unfold sn_sub. destruct (sn_is_zero x).
  { intros H. destruct (sn_neg_kind _ _ _ H). split; auto. }
  destruct (sn_is_zero y); [intros [= <-]; auto|].
  intros H. inv_bind H. injection H as <-. apply guard_ok in Hb. destruct (sub_kind _ _ _ _ Hb) as [E1 E2].
  split; intros K L; [apply ev_wrap, E1; assumption|apply iv_wrap, E2; assumption].
Qed.
Lemma sn_mul_kind m x y z : sn_mul m x y = Ok z -> (not_float x -> not_float y -> not_float z) /\ (integer_num x -> integer_num y -> integer_num z).
Proof.
  unfold sn_mul. destruct (sn_is_one x); [intros [= <-]; auto|]. destruct (sn_is_one y); [intros [= <-]; auto|].
  intros H. inv_bind H. injection H as <-. apply guard_ok in Hb. destruct (mul_kind _ _ _ _ Hb) as [E1 E2].
  split; intros K L; [apply ev_wrap, E1; assumption|apply iv_wrap, E2; assumption].
Qed.
Lemma sn_div_kind m x y z : sn_div m x y = Ok z -> not_float x -> not_float y -> not_float z.
Proof.
  unfold sn_div. intros H. inv_bind H. injection H as <-. apply guard_ok in Hb. intros K L. apply ev_wrap.
  exact (div_kind _ _ _ _ Hb K L).
Qed.
Lemma sn_op_kind m t x y z : sn_op m t x y = Ok z -> t = OAdd \/ t = OSub \/ t = OMul \/ t = ODiv ->
  not_float x -> not_float y -> not_float z.
Proof.
  intros H [-> | [-> | [-> | ->]]]; cbn [sn_op] in H.
  - exact (proj1 (sn_add_kind _ _ _ _ H)).
  - exact (proj1 (sn_sub_kind _ _ _ _ H)).
  - exact (proj1 (sn_mul_kind _ _ _ _ H)).
  - exact (sn_div_kind _ _ _ _ H).
Qed.
Lemma exact_of_i64 z : not_float (sn_of_i64 z). Proof. exact I. Qed.
Lemma exact_api_exact m x : exact_api m x -> not_float x.
Proof.
  induction 1; try exact I.
  - unfold sn_of_u64, val_of_u64 in H0. inv_bind H0. inv_bind Hb. injection Hb as <-. injection H0 as <-. exact I.
  - unfold sn_new_rational, val_new_rational in H2. inv_bind H2. inv_bind Hb. injection Hb as <-.
    destruct a0; [|discriminate]. injection H2 as <-. exact I.
  - exact (proj1 (sn_neg_kind _ _ _ H0) IHexact_api).
  - exact (proj1 (sn_add_kind _ _ _ _ H1) IHexact_api1 IHexact_api2).
  - exact (proj1 (sn_sub_kind _ _ _ _ H1) IHexact_api1 IHexact_api2).
  - exact (proj1 (sn_mul_kind _ _ _ _ H1) IHexact_api1 IHexact_api2).
  - exact (sn_div_kind _ _ _ _ H1 IHexact_api1 IHexact_api2).
Qed.

(** ** expressions *)
Lemma el_num n : not_float n -> exact_literals (e_num n).
Proof. intros H k c Hs. apply subterm_num in Hs. injection Hs as -> _. exact H. Qed.
Lemma el_var x : exact_literals (e_var x).
Proof. intros k c Hs. inversion Hs as [|? ? ? c' Hin Hs']; subst. destruct Hin. Qed.
Lemma el_mk1 t a : exact_literals (mk1 t a) <-> exact_literals a.
Proof.
  split; intros H k c Hs.
  - apply (H k c). apply sub_child with a; [left; reflexivity|exact Hs].
  - apply subterm_mk1 in Hs as [[=]|Hs]. exact (H k c Hs).
Qed.
Lemma el_mk2 t a b : exact_literals (mk2 t a b) <-> exact_literals a /\ exact_literals b.
Proof.
  split.
  - intros H. split; intros k c Hs; apply (H k c); [apply sub_child with a|apply sub_child with b]; cbn; auto.
  - intros [Ha Hb] k c Hs. apply subterm_mk2 in Hs as [[=]|[Hs|Hs]]; eauto.
Qed.
Lemma el_sub e s : exact_literals e -> subterm s e -> exact_literals s.
Proof. intros H Hs k c Hk. apply (H k c). exact (subterm_trans _ _ _ Hk Hs). Qed.
Lemma el_last op k c : exact_literals (Expr op (k ++ [c])) -> exact_literals c.
Proof. intros H. apply (el_sub _ _ H). apply sub_child with c; [apply in_or_app; right; left; reflexivity|apply sub_refl]. Qed.
Lemma el_root n k : exact_literals (Expr (Operand (Num n)) k) -> not_float n.
Proof. intros H. exact (H n k (sub_refl _)). Qed.
Lemma el_zero : exact_literals e_zero. Proof. apply el_num. exact I. Qed.
Lemma el_one : exact_literals e_one. Proof. apply el_num. exact I. Qed.

Lemma ar1_exact m t a z : ar1 m t a z -> t <> OExp -> exact_literals a -> exact_literals z.
Proof.
  intros H Nt Ha. destruct H; try congruence; try apply el_zero; try apply el_one;
    try (apply el_mk1; assumption); try (apply el_last in Ha; assumption).
  apply el_num. apply (proj1 (sn_neg_kind _ _ _ H)). exact (el_root _ _ Ha).
Qed.
Lemma ar2_exact m t l r z : ar2 m t l r z -> exact_literals l -> exact_literals r -> exact_literals z.
Proof.
  intros H Hl Hr. destruct H; try assumption; try apply el_zero; try apply el_one;
    try (apply el_mk2; split; assumption); try (apply el_last in Hl; assumption).
  - apply el_num. exact (sn_op_kind _ _ _ _ _ H0 H (el_root _ _ Hl) (el_root _ _ Hr)).
  - apply el_mk1. assumption.
Qed.
Lemma no_op_mk1 o t a : ~ has_op o (mk1 t a) -> t <> o /\ ~ has_op o a.
Proof.
  intros H. split.
  - intros <-. apply H. exists (gen_op t), [a]. split; [apply descriptor_gen|apply sub_refl].
  - intros (op & c & D & Hs). apply H. exists op, c. split; [exact D|]. apply sub_child with a; [left; reflexivity|exact Hs].
Qed.
Lemma no_op_mk2 o t a b : ~ has_op o (mk2 t a b) -> ~ has_op o a /\ ~ has_op o b.
Proof.
  intros H. split; intros (op & c & D & Hs); apply H; exists op, c; (split; [exact D|]);
    [apply sub_child with a|apply sub_child with b]; cbn; auto.
Qed.
Lemma agg_exact m e : wf e -> ~ has_op OExp e -> exact_literals e -> forall z, num_aggregate m e = Ok z -> exact_literals z.
Proof.
  intros W. pattern e. revert e W. apply wf_ind1.
  - intros n _ _ He z [= <-]. exact He.
  - intros x _ He z [= <-]. exact He.
  - intros t a Ha Wa IH Ho He z H. rewrite agg_mk1 in H by assumption. inv_bind H. apply rule1_ar in H; [|assumption].
    apply no_op_mk1 in Ho as [Nt Ho]. apply (proj1 (el_mk1 _ _)) in He. exact (ar1_exact _ _ _ _ H Nt (IH Ho He _ Hb)).
  - intros t a b Ha Wa Wb IHa IHb Ho He z H. rewrite agg_mk2 in H by assumption. do 2 inv_bind H.
    apply rule2_ar in H; [|assumption]. apply no_op_mk2 in Ho as [Hoa Hob]. apply (proj1 (el_mk2 _ _ _)) in He as [Hea Heb].
    exact (ar2_exact _ _ _ _ _ H (IHa Hoa Hea _ Hb0) (IHb Hob Heb _ Hb)).
Qed.

Lemma hop_mk1 o t a : ~ has_op o a -> t <> o -> ~ has_op o (mk1 t a).
Proof.
  intros H N (op & c & D & Hs). apply subterm_mk1 in Hs as [E|Hs]; [|apply H; exists op, c; auto].
  injection E as -> _. rewrite descriptor_gen in D. congruence.
Qed.
Lemma hop_mk2 o t a b : ~ has_op o a -> ~ has_op o b -> t <> o -> ~ has_op o (mk2 t a b).
Proof.
  intros Ha Hb N (op & c & D & Hs). apply subterm_mk2 in Hs as [E|[Hs|Hs]]; [|apply Ha; exists op, c; auto|apply Hb; exists op, c; auto].
  injection E as -> _. rewrite descriptor_gen in D. congruence.
Qed.
Lemma hop_num o n : ~ has_op o (e_num n).
Proof. intros (op & c & D & Hs). apply subterm_num in Hs. discriminate Hs. Qed.
Lemma hop_agg m e z : ~ has_op OExp e -> num_aggregate m e = Ok z -> ~ has_op OExp z.
Proof. intros H E K. destruct (agg_ops _ _ _ _ E K) as [L|[L _]]; [exact (H L)|discriminate L]. Qed.

Ltac elt := repeat first [assumption | apply el_mk1 | apply el_mk2; split].
Ltac hop := repeat first [assumption | apply hop_mk1; [|discriminate] | apply hop_mk2; [| |discriminate]].
Lemma deriv_exact m x e : wf e -> ~ has_op OExp e -> exact_literals e -> forall d, deriv m x e = Ok d ->
  exact_literals d /\ ~ has_op OExp d.
Proof.
  intros W. pattern e. revert e W. apply wf_ind1.
  - intros n _ _ He d [= <-]. split; [apply el_zero|apply hop_num].
  - intros y _ He d. rewrite deriv_var. intros [= <-].
    destruct (String.eqb x y); split; first [apply el_zero|apply el_one|apply hop_num].
  - intros t a Ha Wa IH Ho He d H. rewrite deriv_mk1 in H by assumption. inv_bind H.
    apply no_op_mk1 in Ho as [Nt Ho]. apply (proj1 (el_mk1 _ _)) in He. destruct (IH Ho He _ Hb) as [Ed Od].
    pose proof (deriv_wf _ _ _ _ Wa Hb) as Wd.
    assert (exact_literals (raw1 t a a0) /\ ~ has_op OExp (raw1 t a a0)) as [E1 O1].
    { destruct t; try discriminate Ha; try congruence; cbn [raw1]; split; unfold e_neg, e_mul, e_cos, e_sin, e_div; [elt|hop|elt|hop|elt|hop|elt|hop]. }
    split; [exact (agg_exact m _ (raw1_wf t a a0 Ha Wa Wd) O1 E1 _ H)|exact (hop_agg m _ _ O1 H)].
  - intros t a b Ha Wa Wb IHa IHb Ho He d H. rewrite deriv_mk2 in H by assumption. do 2 inv_bind H.
    apply no_op_mk2 in Ho as [Hoa Hob]. apply (proj1 (el_mk2 _ _ _)) in He as [Hea Heb].
    destruct (IHb Hob Heb _ Hb) as [Edb Odb]. destruct (IHa Hoa Hea _ Hb0) as [Eda Oda].
    pose proof (deriv_wf _ _ _ _ Wb Hb) as Wdb. pose proof (deriv_wf _ _ _ _ Wa Hb0) as Wda.
    assert (exact_literals (raw2 t a b a1 a0) /\ ~ has_op OExp (raw2 t a b a1 a0)) as [E1 O1].
    { destruct t; try discriminate Ha; cbn [raw2]; split; unfold e_add, e_sub, e_mul, e_div, e_pow, e_ln; first [elt; fail|hop; fail|idtac]; first [elt|hop]. }
    split; [exact (agg_exact m _ (raw2_wf t a b a1 a0 Ha Wa Wb Wda Wdb) O1 E1 _ H)|exact (hop_agg m _ _ O1 H)].
Qed.
Lemma deriv_n_exact m x k : forall e, wf e -> ~ has_op OExp e -> exact_literals e -> forall d, deriv_n m x k e = Ok d ->
  exact_literals d /\ ~ has_op OExp d /\ wf d.
Proof.
  induction k as [|k IH]; intros e W Ho He d H; cbn [deriv_n] in H.
  - injection H as <-. auto.
  - inv_bind H. destruct (deriv_exact m x e W Ho He _ Hb) as [E1 O1]. exact (IH _ (deriv_wf _ _ _ _ W Hb) O1 E1 _ H).
Qed.
Lemma subst_exact x v e : wf e -> ~ has_op OExp e -> exact_literals e -> ~ has_op OExp v -> exact_literals v ->
  ~ has_op OExp (subst x v e) /\ exact_literals (subst x v e).
Proof.
  intros W Ho He Hov Hev. revert Ho He. pattern e. revert e W. apply wf_ind1.
  - intros n _ Ho He. split; assumption.
  - intros y Ho He. cbn. destruct (String.eqb y x); split; assumption.
  - intros t a Ha Wa IH Ho He. change (subst x v (mk1 t a)) with (mk1 t (subst x v a)).
    apply no_op_mk1 in Ho as [Nt Ho]. apply (proj1 (el_mk1 _ _)) in He. destruct (IH Ho He) as [O E].
    split; [apply hop_mk1; assumption|apply el_mk1; assumption].
  - intros t a b Ha Wa Wb IHa IHb Ho He. change (subst x v (mk2 t a b)) with (mk2 t (subst x v a) (subst x v b)).
    pose proof Ho as Ho'. apply no_op_mk2 in Ho as [Hoa Hob]. apply (proj1 (el_mk2 _ _ _)) in He as [Hea Heb].
    destruct (IHa Hoa Hea) as [O1 E1], (IHb Hob Heb) as [O2 E2].
    split; [apply hop_mk2; try assumption; intros ->; discriminate Ha|apply el_mk2; split; assumption].
Qed.
