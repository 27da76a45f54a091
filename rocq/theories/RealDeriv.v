(** * RealDeriv: derivative computes the mathematical derivative *)
From Coq Require Import ZArith QArith List String Bool Lia Lra.
From Coq Require Import Reals Qreals.
From Coquelicot Require Import Coquelicot.
From Verif Require Import Base Float Rational SmartNum Ast Compute Spec SpecTree SpecR.
From Verif Require Import BaseProofs NumProofs NumProofs2 TreeProofs TreeProofs2 TreeProofs3 TreeProofs4 RealProofs.
Import ListNotations.
Open Scope R_scope.
Open Scope res_scope.

(** ** the literal pi never appears out of nothing *)
Lemma has_pi_sub e s : has_pi s -> subterm s e -> has_pi e.
Proof. intros (n & c & H & Hs) Hse. exists n, c. split; [assumption|]. eapply subterm_trans; eassumption. Qed.
Lemma has_pi_num n : has_pi (e_num n) <-> sn_is_pi n = true.
Proof.
  split.
  - intros (n' & c & H & Hs). apply subterm_num in Hs. injection Hs as -> _. assumption.
  - intros H. exists n, []. split; [assumption|constructor].
Qed.
Lemma has_pi_mk1 t a : has_pi (mk1 t a) <-> has_pi a.
Proof.
  split.
  - intros (n & c & H & Hs). apply subterm_mk1 in Hs as [[=]|Hs]. exists n, c. auto.
  - intros H. eapply has_pi_sub; [exact H|apply sub_mk1].
Qed.
Lemma has_pi_mk2 t a b : has_pi (mk2 t a b) <-> has_pi a \/ has_pi b.
Proof.
  split.
  - intros (n & c & H & Hs). apply subterm_mk2 in Hs as [[=]|[Hs|Hs]]; [left|right]; exists n, c; auto.
  - intros [H|H]; eapply has_pi_sub; try exact H; [apply sub_mk2_l|apply sub_mk2_r].
Qed.
Lemma wrap_not_pi v : sn_is_pi (wrap_val v) = false.
Proof. unfold wrap_val. destruct (val_is_zero v); [reflexivity|]. destruct (val_is_one v); reflexivity. Qed.

Lemma sn_neg_pi m x z : sn_neg m x = Ok z -> sn_is_pi z = false.
Proof. unfold sn_neg. intros H. inv_bind H. injection H as <-. apply wrap_not_pi. Qed.
Lemma sn_op_pi m t x y z : sn_op m t x y = Ok z -> sn_is_pi z = true -> sn_is_pi x = true \/ sn_is_pi y = true.
Proof.
  destruct t; cbn [sn_op]; unfold sn_add, sn_sub, sn_mul, sn_div; intros H Hz;
  repeat match type of H with (if ?c then _ else _) = _ => destruct c end;
  try (injection H as <-; auto; fail);
  try (apply sn_neg_pi in H; congruence);
  inv_bind H; injection H as <-; rewrite wrap_not_pi in Hz; discriminate.
Qed.

Lemma subterm_last_self op k c : subterm c (Expr op (k ++ [c])).
Proof. apply subterm_last. constructor. Qed.

Lemma npi_zero : ~ has_pi e_zero. Proof. intros H. apply has_pi_num in H. discriminate. Qed.
Lemma npi_one : ~ has_pi e_one. Proof. intros H. apply has_pi_num in H. discriminate. Qed.
Lemma npi_e : ~ has_pi e_e. Proof. intros H. apply has_pi_num in H. discriminate. Qed.
Lemma ar1_pi m t a z : ar1 m t a z -> has_pi z -> has_pi a.
Proof.
  intros H Hz. destruct H;
    try (destruct (npi_zero Hz)); try (destruct (npi_one Hz)); try (destruct (npi_e Hz));
    try (apply (proj1 (has_pi_num _)) in Hz);
    try (unfold e_neg, e_sin, e_cos, e_exp, e_ln in Hz; apply (proj1 (has_pi_mk1 _ _)) in Hz; assumption);
    try (eapply has_pi_sub; [exact Hz|apply subterm_last_self]).
  apply sn_neg_pi in H. congruence.
Qed.
Lemma ar2_pi m t l r z : ar2 m t l r z -> has_pi z -> has_pi l \/ has_pi r.
Proof.
  intros H Hz. destruct H; auto;
    try (destruct (npi_zero Hz)); try (destruct (npi_one Hz));
    try (apply (proj1 (has_pi_num _)) in Hz);
    try (unfold e_add, e_sub, e_mul, e_div, e_pow in Hz; apply (proj1 (has_pi_mk2 _ _ _)) in Hz; assumption);
    try (left; eapply has_pi_sub; [exact Hz|apply subterm_last_self]).
  - destruct (sn_op_pi _ _ _ _ _ H0 Hz) as [K|K]; [left|right].
    + exists x, k1. split; [assumption|constructor].
    + exists y, k2. split; [assumption|constructor].
  - unfold e_neg in Hz. apply (proj1 (has_pi_mk1 _ _)) in Hz. auto.
Qed.
Lemma agg_pi m e : wf e -> forall z, num_aggregate m e = Ok z -> has_pi z -> has_pi e.
Proof.
  intros W. pattern e. revert e W. apply wf_ind1.
  - intros n _ z [= <-] H. exact H.
  - intros x z [= <-] H. exact H.
  - intros t a Ha Wa IH z H Hz. rewrite agg_mk1 in H by assumption. inv_bind H.
    apply rule1_ar in H; [|assumption]. apply has_pi_mk1. apply (IH _ Hb). exact (ar1_pi _ _ _ _ H Hz).
  - intros t a b Ha Wa Wb IHa IHb z H Hz. rewrite agg_mk2 in H by assumption. do 2 inv_bind H.
    apply rule2_ar in H; [|assumption]. apply has_pi_mk2.
    destruct (ar2_pi _ _ _ _ _ H Hz) as [K|K]; [left; exact (IHa _ Hb0 K)|right; exact (IHb _ Hb K)].
Qed.

(** ** regularity *)

(** Generic regularity: [V] says which variables may be power bases whatever their value,
    [Q] which exponents are allowed over negative bases. *)
Definition pow_ok (V : string -> Prop) (Q : expr -> Prop) (rho : string -> R) (a b : expr) : Prop :=
  exists v, eval rho a = Some v /\ v <> 0 /\ (0 < v \/ Q b) /\
       ((exists y, V y /\ a = e_var y) \/ (~ has_op OLn a /\ v <> 1)).
Definition rgen (V : string -> Prop) (Q : expr -> Prop) (rho : string -> R) (e : expr) : Prop :=
  (forall a b, subterm (e_pow a b) e -> pow_ok V Q rho a b) /\
  (forall a, subterm (e_sin a) e \/ subterm (e_cos a) e -> ~ has_pi a).
Definition agg_stable (Q : expr -> Prop) : Prop :=
  forall b b', Q b -> num_aggregate Strict b = Ok b' -> Q b'.

Lemma rgen_sub V Q rho e s : rgen V Q rho e -> subterm s e -> rgen V Q rho s.
Proof.
  intros [H1 H2] Hs. split.
  - intros a b Hab. apply H1. eapply subterm_trans; eassumption.
  - intros a [Ha|Ha]; apply H2; [left|right]; eapply subterm_trans; eassumption.
Qed.
Lemma mk1_inj t t' a a' : mk1 t a = mk1 t' a' -> t = t' /\ a = a'.
Proof. unfold mk1. intros [= H1 -> ]. apply gen_op_inj in H1. auto. Qed.
Lemma mk2_inj t t' a a' b b' : mk2 t a b = mk2 t' a' b' -> t = t' /\ a = a' /\ b = b'.
Proof. unfold mk2. intros [= H1 -> -> ]. apply gen_op_inj in H1. auto. Qed.

Lemma rgen_num V Q rho n : rgen V Q rho (Expr (Operand (Num n)) []).
Proof.
  split.
  - intros a b H. apply subterm_num in H. discriminate.
  - intros a [H|H]; apply subterm_num in H; discriminate.
Qed.
Lemma subterm_var s x : subterm s (Expr (Operand (Var x)) []) -> s = e_var x.
Proof. intros H. inversion H as [|? ? ? ? Hin]; subst; [reflexivity|destruct Hin]. Qed.
Lemma rgen_var V Q rho y : rgen V Q rho (Expr (Operand (Var y)) []).
Proof.
  split.
  - intros a b H. apply subterm_var in H. discriminate.
  - intros a [H|H]; apply subterm_var in H; discriminate.
Qed.
Lemma rgen_mk1 V Q rho t a : rgen V Q rho (mk1 t a) <->
  rgen V Q rho a /\ (t = OSin \/ t = OCos -> ~ has_pi a).
Proof.
  split.
  - intros H. split; [eapply rgen_sub; [exact H|apply sub_mk1]|].
    intros [-> | ->]; apply (proj2 H); [left|right]; constructor.
  - intros [[H1 H2] H3]. split.
    + intros u b Hs. apply subterm_mk1 in Hs as [[=]|Hs]. eauto.
    + intros u [Hs|Hs]; (apply subterm_mk1 in Hs as [E|Hs];
        [apply mk1_inj in E as [E ->]; apply H3; auto|]); apply H2; auto.
Qed.
Lemma rgen_mk2 V Q rho t a b : rgen V Q rho (mk2 t a b) <->
  rgen V Q rho a /\ rgen V Q rho b /\ (t = OPow -> pow_ok V Q rho a b).
Proof.
  split.
  - intros H. split; [eapply rgen_sub; [exact H|apply sub_mk2_l]|].
    split; [eapply rgen_sub; [exact H|apply sub_mk2_r]|].
    intros ->. apply (proj1 H). constructor.
  - intros ([H1 H2] & [H3 H4] & H5). split.
    + intros u w Hs. apply subterm_mk2 in Hs as [E|[Hs|Hs]]; [|apply H1, Hs|apply H3, Hs].
      apply mk2_inj in E as (E & -> & ->). apply H5. auto.
    + intros u [Hs|Hs]; (apply subterm_mk2 in Hs as [[=]|[Hs|Hs]]; [apply H2; auto|apply H4; auto]).
Qed.

Lemma has_op_ln_sub s e : has_op OLn s -> subterm s e -> has_op OLn e.
Proof. intros (o & k & D & Hs) H. exists o, k. split; [assumption|]. eapply subterm_trans; eassumption. Qed.

Lemma agg_noln m e z : ~ has_op OLn e -> num_aggregate m e = Ok z -> ~ has_op OLn z.
Proof. intros H Ha Hz. destruct (agg_ops m OLn e z Ha Hz) as [K|[K _]]; [auto|discriminate]. Qed.

(** regular expressions avoid the wrong rules *)
Lemma pow_ok_agg V Q rho a b a' : wf a -> avoids_bad_rules a -> pow_ok V Q rho a b ->
  num_aggregate Strict a = Ok a' ->
  is_zero a' = false /\ is_one a' = false /\ (forall c, a' <> e_ln c) /\
  forall b', (Q b -> Q b') -> pow_ok V Q rho a' b'.
Proof.
  intros W Hav (v & Hv & Hv0 & Hx & Hb) H.
  pose proof (agg_sound rho a W Hav a' v H Hv) as Hv'. pose proof (agg_wf _ _ _ W H) as W'.
  assert (is_zero a' = false) as Z0.
  { destruct (is_zero a') eqn:E; [|reflexivity]. exfalso. apply Hv0. exact (eval_is_zero _ _ _ W' E Hv'). }
  split; [assumption|]. destruct Hb as [(y & Vy & ->)|[Hln H1]].
  - injection H as <-. split; [reflexivity|]. split; [discriminate|]. intros b' Hb'.
    exists v. repeat split; try assumption; [tauto|]. left. exists y. auto.
  - pose proof (agg_noln _ _ _ Hln H) as Hln'.
    split; [|split].
    + destruct (is_one a') eqn:E; [|reflexivity]. exfalso. apply H1. exact (eval_is_one _ _ _ W' E Hv').
    + intros c ->. apply Hln'. exists (gen_op OLn), [c]. split; [reflexivity|constructor].
    + intros b' Hb'. exists v. repeat split; try assumption; [tauto|]. right. auto.
Qed.

Lemma rgen_avoids V Q rho e : wf e -> rgen V Q rho e -> avoids_bad_rules e.
Proof.
  intros W. pattern e. revert e W. apply wf_ind1.
  - intros n _ _. split; [intros a b a' H|intros a a' H]; apply subterm_num in H; discriminate.
  - intros y _. split; [intros a b a' H|intros a a' H]; apply subterm_var in H; discriminate.
  - intros t a Ha Wa IH Hr. apply rgen_mk1 in Hr as [Hr Hs]. destruct (IH Hr) as [I1 I2]. split.
    + intros u w u' Hsub. apply subterm_mk1 in Hsub as [[=]|Hsub]. eauto.
    + intros u u' Hsub. apply subterm_mk1 in Hsub as [E|Hsub]; [|eauto].
      apply mk1_inj in E as [<- ->]. intros Hu.
      destruct (is_pi u') eqn:E; [|reflexivity]. exfalso. apply (Hs (or_intror eq_refl)).
      apply (agg_pi Strict a Wa u' Hu). apply is_pi_inv in E as (n & c & -> & Hn).
      exists n, c. split; [assumption|constructor].
  - intros t a b Ha Wa Wb IHa IHb Hr. apply rgen_mk2 in Hr as (Hra & Hrb & Hp).
    destruct (IHa Hra) as [I1 I2], (IHb Hrb) as [I3 I4]. split.
    + intros u w u' Hsub. apply subterm_mk2 in Hsub as [E|[Hsub|Hsub]]; [|eauto..].
      apply mk2_inj in E as (<- & -> & ->). intros Hu.
      destruct (pow_ok_agg V Q rho a b u' Wa (IHa Hra) (Hp eq_refl) Hu) as (K1 & K2 & K3 & _). auto.
    + intros u u' Hsub. apply subterm_mk2 in Hsub as [[=]|[Hsub|Hsub]]; eauto.
Qed.

Lemma rgen_last V Q rho op k c : rgen V Q rho (Expr op (k ++ [c])) -> rgen V Q rho c.
Proof. intros H. eapply rgen_sub; [exact H|apply subterm_last_self]. Qed.

Lemma agg_rgen V Q rho e : agg_stable Q -> wf e -> rgen V Q rho e -> forall z,
  num_aggregate Strict e = Ok z -> rgen V Q rho z.
Proof.
  intros HQ W. pattern e. revert e W. apply wf_ind1.
  - intros n _ _ z [= <-]. apply rgen_num.
  - intros y _ z [= <-]. apply rgen_var.
  - intros t a Ha Wa IH Hr z H. rewrite agg_mk1 in H by assumption. inv_bind H.
    apply rule1_ar in H; [|assumption]. apply rgen_mk1 in Hr as [Hr Hs].
    specialize (IH Hr _ Hb).
    destruct H; try apply rgen_num; try (apply rgen_last in IH; assumption);
      apply rgen_mk1; (split; [assumption|]); intros [K|K]; try discriminate K.
    + intros Hpi. apply Hs; [auto|]. exact (agg_pi _ _ Wa _ Hb Hpi).
    + intros Hpi. apply Hs; [auto|]. exact (agg_pi _ _ Wa _ Hb Hpi).
  - intros t a b Ha Wa Wb IHa IHb Hr z H. rewrite agg_mk2 in H by assumption. do 2 inv_bind H.
    apply rule2_ar in H; [|assumption]. apply rgen_mk2 in Hr as (Hra & Hrb & Hp).
    specialize (IHa Hra _ Hb0). specialize (IHb Hrb _ Hb).
    destruct H; try apply rgen_num; try assumption; try (apply rgen_last in IHa; assumption);
      try (apply rgen_mk2; (split; [assumption|split; [assumption|]]); intros K; try discriminate K).
    + apply rgen_mk1. split; [assumption|]. intros [K|K]; discriminate K.
    + apply (pow_ok_agg V Q rho a b l Wa (rgen_avoids _ _ _ _ Wa Hra) (Hp eq_refl) Hb0).
      intros HQb. exact (HQ _ _ HQb Hb).
Qed.

(** ** raw derivatives are regular *)
Ltac reg := repeat first
  [ assumption | apply rgen_num | apply rgen_var
  | apply rgen_mk1; split; [|try (intros [K|K]; discriminate K)]
  | apply rgen_mk2; split; [|split; [|try (intros K; discriminate K)]] ].

Lemma raw1_rgen V Q rho t u du : arity t = 1%nat -> rgen V Q rho (mk1 t u) -> rgen V Q rho du ->
  rgen V Q rho (raw1 t u du).
Proof.
  intros Ht Hr Hd. apply rgen_mk1 in Hr as [Hu Hs].
  destruct t; try discriminate; unfold raw1, e_neg, e_mul, e_cos, e_sin, e_exp, e_div in *; reg;
    intros _; apply Hs; auto.
Qed.
Lemma raw2_rgen V Q rho t u v du dv : arity t = 2%nat -> rgen V Q rho (mk2 t u v) ->
  rgen V Q rho du -> rgen V Q rho dv -> rgen V Q rho (raw2 t u v du dv).
Proof.
  intros Ht Hr Hdu Hdv. apply rgen_mk2 in Hr as (Hu & Hv & Hp).
  destruct t; try discriminate; unfold raw2, e_add, e_sub, e_mul, e_div, e_pow, e_ln in *; reg.
Qed.

Lemma deriv_rgen V Q rho x e : agg_stable Q -> wf e -> rgen V Q rho e -> forall d,
  deriv Strict x e = Ok d -> rgen V Q rho d.
Proof.
  intros HQ W. pattern e. revert e W. apply wf_ind1.
  - intros n _ _ d [= <-]. apply rgen_num.
  - intros y _ d. rewrite deriv_var. intros [= <-]. destruct (String.eqb x y); apply rgen_num.
  - intros t a Ha Wa IH Hr d H. rewrite deriv_mk1 in H by assumption. inv_bind H.
    eapply agg_rgen; [exact HQ| | |exact H].
    + apply raw1_wf; [assumption|assumption|]. exact (deriv_wf _ _ _ _ Wa Hb).
    + apply raw1_rgen; [assumption|assumption|]. apply rgen_mk1 in Hr as [Hr _]. apply IH; assumption.
  - intros t a b Ha Wa Wb IHa IHb Hr d H. rewrite deriv_mk2 in H by assumption. do 2 inv_bind H.
    eapply agg_rgen; [exact HQ| | |exact H].
    + apply raw2_wf; try assumption; [exact (deriv_wf _ _ _ _ Wa Hb0)|exact (deriv_wf _ _ _ _ Wb Hb)].
    + pose proof Hr as Hr'. apply rgen_mk2 in Hr' as (Hra & Hrb & _).
      apply raw2_rgen; [assumption|assumption|apply IHa; assumption|apply IHb; assumption].
Qed.

(** the two instances used: powers over a negative base need an exponent free of [x], and
    (for a mere evaluation) nothing *)
Lemma stable_absent x : agg_stable (fun b => ~ occurs x b).
Proof. intros b b' H Hb Ho. apply H. exact (agg_subterm_var Strict x b b' Hb Ho). Qed.
Lemma stable_any : agg_stable (fun _ => True).
Proof. intros b b' _ _. exact I. Qed.

Lemma rgen_weaken (V V' : string -> Prop) (Q Q' : expr -> Prop) rho e :
  (forall y, V y -> V' y) -> (forall b, Q b -> Q' b) -> rgen V Q rho e -> rgen V' Q' rho e.
Proof.
  intros HV HQ [H1 H2]. split; [|exact H2]. intros a b Hs.
  destruct (H1 a b Hs) as (v & Hv & Hv0 & Hx & Hb). exists v.
  refine (conj Hv (conj Hv0 (conj _ _))).
  - destruct Hx; auto.
  - destruct Hb as [(y & Vy & ->)|Hb]; [left; exists y; auto|right; exact Hb].
Qed.

Lemma regular_rgen rho x e : regular rho x e <-> rgen (fun _ => True) (fun b => ~ occurs x b) rho e.
Proof.
  split; intros [H1 H2]; (split; [|exact H2]); intros a b Hs;
    destruct (H1 a b Hs) as (v & Hv & Hv0 & Hx & Hb); exists v;
    refine (conj Hv (conj Hv0 (conj Hx _))).
  - destruct Hb as [(y & ->)|Hb]; [left; exists y; auto|right; exact Hb].
  - destruct Hb as [(y & _ & ->)|Hb]; [left; exists y; auto|right; exact Hb].
Qed.
