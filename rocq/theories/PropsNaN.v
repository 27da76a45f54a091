(** * PropsNaN: floats and NaN are contagious (C95) *)
From Coq Require Import ZArith List String Bool Lia QArith_base.
From Coq Require Import Floats.SpecFloat.
From Verif Require Import Base Float Rational SmartNum Ast Compute Spec SpecTree SpecNaN.
From Verif Require Import BaseProofs RationalProofs NumProofs NumProofs2 TreeProofs TreeProofs2 PropsTree.
Import ListNotations.
Local Open Scope Z_scope.
Open Scope res_scope.

Definition isf (v : val) : bool := match v with Real _ => true | _ => false end.
Definition isn (v : val) : bool := match v with Real S754_nan => true | _ => false end.

Lemma is_float_b n : is_float n <-> isf (nval n) = true.
Proof. unfold is_float, isf. destruct (nval n); split; try discriminate; try (intros [f H]; discriminate); eauto. Qed.
Lemma is_nan_b n : is_nan n <-> isn (nval n) = true.
Proof.
  unfold is_nan, isn. destruct (nval n) as [z|r|f]; split; try discriminate.
  - intros [= ->]. reflexivity.
  - destruct f; try discriminate. reflexivity.
Qed.
Lemma isn_isf v : isn v = true -> isf v = true.
Proof. destruct v; cbn; congruence. Qed.
Lemma isf_zero v : isf v = true -> val_is_zero v = false.
Proof. destruct v; try discriminate; reflexivity. Qed.

Lemma zero_tag x : num_ok x -> sn_is_zero x = val_is_zero (nval x).
Proof.
  intros [_ H]. unfold sn_is_zero. destruct x as [v t]; cbn in *.
  destruct t; cbn; try (symmetry; tauto).
  - destruct v as [z|r|f]; cbn in *; try discriminate.
    + apply Z.eqb_eq in H. subst z. reflexivity.
    + apply andb_true_iff in H as [H H2]. apply andb_true_iff in H as [_ H1]. apply Z.eqb_eq in H1. rewrite H1.
      destruct (rden r =? 0); reflexivity.
  - subst v. reflexivity.
  - subst v. reflexivity.
Qed.
Lemma one_float x : num_ok x -> sn_is_one x = true -> isf (nval x) = false /\ val_is_zero (nval x) = false.
Proof.
  intros Hx H. rewrite <- (zero_tag x Hx). destruct Hx as [_ Hx]. unfold sn_is_one, sn_is_zero in *.
  destruct x as [v t]; cbn in *. destruct t; try discriminate. split; [|reflexivity]. destruct v; try reflexivity; discriminate.
Qed.

Lemma wrap_isf v : isf (nval (wrap_val v)) = isf v /\ isn (nval (wrap_val v)) = isn v.
Proof. unfold wrap_val. destruct v as [z|r|f]; cbn; [destruct (z =? 0), (z =? 1); auto| |auto].
  destruct (_ && _); [auto|]. destruct (_ && _); auto. Qed.

Lemma guard_ok m b r v : guard m b r = Ok v -> r = Ok v.
Proof. unfold guard. destruct (_ && _); congruence. Qed.

Lemma trap_ok m b r v : trap_unless m b r = Ok v -> v = r.
Proof. unfold trap_unless. destruct (_ && _); congruence. Qed.

Ltac inv_all H := repeat (inv_bind H); try (injection H as <-).

Lemma nan_add_l x : f_add S754_nan x = S754_nan. Proof. destruct x; reflexivity. Qed.
Lemma nan_add_r x : f_add x S754_nan = S754_nan. Proof. destruct x; reflexivity. Qed.
Lemma nan_sub_l x : f_sub S754_nan x = S754_nan. Proof. destruct x; reflexivity. Qed.
Lemma nan_sub_r x : f_sub x S754_nan = S754_nan. Proof. destruct x; reflexivity. Qed.
Lemma nan_mul_l x : f_mul S754_nan x = S754_nan. Proof. destruct x; reflexivity. Qed.
Lemma nan_mul_r x : f_mul x S754_nan = S754_nan. Proof. destruct x; reflexivity. Qed.
Lemma nan_div_l x : f_div S754_nan x = S754_nan. Proof. destruct x; reflexivity. Qed.
Lemma nan_div_r x : f_div x S754_nan = S754_nan. Proof. destruct x; reflexivity. Qed.

Lemma nan_real f : isn (Real f) = true -> f = S754_nan.
Proof. destruct f; try discriminate; reflexivity. Qed.

Ltac val_case H a b :=
  destruct a as [i|i|i], b as [j|j|j]; inv_all H;
  repeat match goal with E : _ = Ok _ |- _ => progress (unfold m_add, m_sub, m_mul, m_div in E); apply trap_ok in E; subst end;
  cbn [isf isn orb];
  (split; [reflexivity|]); intros [N|N]; try discriminate N;
  first [apply nan_real in N; subst | idtac];
  rewrite ?nan_add_l, ?nan_add_r, ?nan_sub_l, ?nan_sub_r, ?nan_mul_l, ?nan_mul_r, ?nan_div_l, ?nan_div_r; reflexivity.

Lemma val_add_f m a b v : val_add m a b = Ok v ->
  isf v = (isf a || isf b)%bool /\ (isn a = true \/ isn b = true -> isn v = true).
Proof. intros H. unfold val_add in H. val_case H a b. Qed.
Lemma val_sub_f m a b v : val_sub m a b = Ok v ->
  isf v = (isf a || isf b)%bool /\ (isn a = true \/ isn b = true -> isn v = true).
Proof. intros H. unfold val_sub in H. val_case H a b. Qed.
Lemma val_mul_f m a b v : val_is_zero a = false -> val_is_zero b = false -> val_mul m a b = Ok v ->
  isf v = (isf a || isf b)%bool /\ (isn a = true \/ isn b = true -> isn v = true).
Proof. intros Za Zb H. unfold val_mul in H. rewrite Za, Zb in H. cbn [orb] in H. clear Za Zb. val_case H a b. Qed.
Lemma val_div_f m a b v : val_is_zero a = false -> val_div m a b = Ok v ->
  isf v = (isf a || isf b)%bool /\ (isn a = true \/ isn b = true -> isn v = true).
Proof. intros Za H. unfold val_div in H. rewrite Za in H. clear Za. val_case H a b. Qed.
Lemma val_neg_f m a v : val_neg m a = Ok v -> isf v = isf a /\ (isn a = true -> isn v = true).
Proof.
  intros H. unfold val_neg in H. destruct a as [i|i|i]; inv_all H; cbn; split; auto.
  destruct i; try discriminate; auto.
Qed.

Lemma sn_neg_f m x v : sn_neg m x = Ok v -> isf (nval v) = isf (nval x) /\ (isn (nval x) = true -> isn (nval v) = true).
Proof.
  intros H. unfold sn_neg in H. inv_bind H. injection H as <-. apply guard_ok in Hb.
  destruct (wrap_isf a) as [-> ->]. exact (val_neg_f m _ _ Hb).
Qed.

Lemma nz_f x : num_ok x -> sn_is_zero x = true -> isf (nval x) = false /\ isn (nval x) = false.
Proof.
  intros Hx H. rewrite (zero_tag x Hx) in H. destruct (isf (nval x)) eqn:F; [rewrite (isf_zero _ F) in H; discriminate|].
  split; [reflexivity|]. destruct (isn (nval x)) eqn:N; [|reflexivity]. apply isn_isf in N. congruence.
Qed.

Lemma sn_add_f m x y v : num_ok x -> num_ok y -> sn_add m x y = Ok v ->
  isf (nval v) = (isf (nval x) || isf (nval y))%bool /\ (isn (nval x) = true \/ isn (nval y) = true -> isn (nval v) = true).
Proof.
  intros Hx Hy H. unfold sn_add in H. destruct (sn_is_zero x) eqn:Zx.
  - injection H as <-. destruct (nz_f x Hx Zx) as [-> ->]. split; [reflexivity|]. intros [N|N]; [discriminate|exact N].
  - destruct (sn_is_zero y) eqn:Zy.
    + injection H as <-. destruct (nz_f y Hy Zy) as [-> ->]. split; [symmetry; apply orb_false_r|]. intros [N|N]; [exact N|discriminate].
    + inv_bind H. injection H as <-. apply guard_ok in Hb. destruct (wrap_isf a) as [-> ->]. exact (val_add_f m _ _ _ Hb).
Qed.
Lemma sn_sub_f m x y v : num_ok x -> num_ok y -> sn_sub m x y = Ok v ->
  isf (nval v) = (isf (nval x) || isf (nval y))%bool /\ (isn (nval x) = true \/ isn (nval y) = true -> isn (nval v) = true).
Proof.
  intros Hx Hy H. unfold sn_sub in H. destruct (sn_is_zero x) eqn:Zx.
  - destruct (nz_f x Hx Zx) as [-> ->]. destruct (sn_neg_f m y v H) as [-> A]. split; [reflexivity|]. intros [N|N]; [discriminate|auto].
  - destruct (sn_is_zero y) eqn:Zy.
    + injection H as <-. destruct (nz_f y Hy Zy) as [-> ->]. split; [symmetry; apply orb_false_r|]. intros [N|N]; [exact N|discriminate].
    + inv_bind H. injection H as <-. apply guard_ok in Hb. destruct (wrap_isf a) as [-> ->]. exact (val_sub_f m _ _ _ Hb).
Qed.
Lemma sn_mul_f m x y v : num_ok x -> num_ok y -> sn_mul m x y = Ok v ->
  (isf (nval v) = true <-> (isf (nval x) = true /\ sn_is_zero y = false) \/ (sn_is_zero x = false /\ isf (nval y) = true)) /\
  ((isn (nval x) = true /\ sn_is_zero y = false) \/ (sn_is_zero x = false /\ isn (nval y) = true) -> isn (nval v) = true).
Proof.
  intros Hx Hy H. unfold sn_mul in H. rewrite (zero_tag x Hx), (zero_tag y Hy).
  destruct (sn_is_one x) eqn:Ox.
  - injection H as <-. destruct (one_float x Hx Ox) as [F ->]. split.
    + rewrite F. intuition discriminate.
    + intros [[N _]|[_ N]]; [apply isn_isf in N; congruence|exact N].
  - destruct (sn_is_one y) eqn:Oy.
    + injection H as <-. destruct (one_float y Hy Oy) as [F ->]. split.
      * rewrite F. intuition discriminate.
      * intros [[N _]|[_ N]]; [exact N|apply isn_isf in N; congruence].
    + inv_bind H. injection H as <-. apply guard_ok in Hb. destruct (wrap_isf a) as [-> ->].
      destruct (val_is_zero (nval x)) eqn:Zx; [|destruct (val_is_zero (nval y)) eqn:Zy].
      * unfold val_mul in Hb. rewrite Zx in Hb. injection Hb as <-.
        assert (isf (nval x) = false) as Fx by (destruct (isf (nval x)) eqn:F; [rewrite (isf_zero _ F) in Zx; discriminate|reflexivity]).
        rewrite Fx. cbn [isf isn]. split; [intuition discriminate|]. intros [[N _]|[N _]]; [apply isn_isf in N; congruence|discriminate].
      * unfold val_mul in Hb. rewrite Zx, Zy in Hb. injection Hb as <-.
        assert (isf (nval y) = false) as Fy by (destruct (isf (nval y)) eqn:F; [rewrite (isf_zero _ F) in Zy; discriminate|reflexivity]).
        rewrite Fy. cbn [isf isn]. split; [intuition discriminate|]. intros [[_ N]|[_ N]]; [discriminate|apply isn_isf in N; congruence].
      * destruct (val_mul_f m _ _ _ Zx Zy Hb) as [-> A]. rewrite orb_true_iff. split; [tauto|]. intros [[N _]|[_ N]]; auto.
Qed.
Lemma sn_div_f m x y v : num_ok x -> num_ok y -> sn_div m x y = Ok v ->
  (isf (nval v) = true <-> isf (nval x) = true \/ (sn_is_zero x = false /\ isf (nval y) = true)) /\
  (isn (nval x) = true \/ (sn_is_zero x = false /\ isn (nval y) = true) -> isn (nval v) = true).
Proof.
  intros Hx Hy H. unfold sn_div in H. rewrite (zero_tag x Hx). inv_bind H. injection H as <-. apply guard_ok in Hb.
  destruct (wrap_isf a) as [-> ->]. destruct (val_is_zero (nval x)) eqn:Zx.
  - unfold val_div in Hb. rewrite Zx in Hb. injection Hb as <-.
    assert (isf (nval x) = false) as Fx by (destruct (isf (nval x)) eqn:F; [rewrite (isf_zero _ F) in Zx; discriminate|reflexivity]).
    rewrite Fx. cbn [isf isn]. split; [intuition discriminate|]. intros [N|[N _]]; [apply isn_isf in N; congruence|discriminate].
  - destruct (val_div_f m _ _ _ Zx Hb) as [-> A]. rewrite orb_true_iff. split; [tauto|]. intros [N|[_ N]]; auto.
Qed.

Lemma closed_wf e : closed_arith e -> wf e.
Proof. induction 1; try (apply wf_mk1; [reflexivity|assumption]); try (apply wf_mk2; [reflexivity|assumption|assumption]). constructor. assumption. Qed.

Lemma closed_num m e z : closed_arith e -> num_aggregate m e = Ok z -> exists n, z = e_num n /\ num_ok n.
Proof.
  intros C H. destruct (c24_closed m e z C H) as [n ->]. exists n. split; [reflexivity|].
  pose proof (agg_wf m e _ (closed_wf e C) H) as W. inversion W. assumption.
Qed.

Lemma agg_bin m t a b v : arity t = 2%nat -> closed_arith a -> closed_arith b ->
  num_aggregate m (mk2 t a b) = Ok v -> exists x y, num_aggregate m a = Ok (e_num x) /\ num_aggregate m b = Ok (e_num y) /\
    num_ok x /\ num_ok y /\ eval_rule m t [Ok (e_num x); Ok (e_num y)] = Ok v.
Proof.
  intros A Ca Cb H. rewrite agg_mk2 in H by exact A. inv_bind H. inv_bind H.
  destruct (closed_num m b _ Cb Hb) as (y & -> & Hy). destruct (closed_num m a _ Ca Hb0) as (x & -> & Hx).
  exists x, y. auto.
Qed.

Lemma nz_part m e x : num_aggregate m e = Ok (e_num x) -> (nonzero_part m e <-> sn_is_zero x = false).
Proof.
  intros H. split.
  - intros (z & E & Z). rewrite H in E. injection E as <-. exact Z.
  - intros Z. exists (e_num x). auto.
Qed.

Lemma exp_num m P n : exposed m P (e_num n) <-> P n.
Proof. split; [|apply x_here]. intros X. inversion X; subst. assumption. Qed.
Lemma exp_neg m P a : exposed m P (e_neg a) <-> exposed m P a.
Proof. split; [|apply x_neg]. intros X. inversion X; subst. assumption. Qed.
Lemma exp_add m P a b : exposed m P (e_add a b) <-> exposed m P a \/ exposed m P b.
Proof. split; [|intros [H|H]; [apply x_add_l|apply x_add_r]; exact H]. intros X. inversion X; subst; auto. Qed.
Lemma exp_sub m P a b : exposed m P (e_sub a b) <-> exposed m P a \/ exposed m P b.
Proof. split; [|intros [H|H]; [apply x_sub_l|apply x_sub_r]; exact H]. intros X. inversion X; subst; auto. Qed.
Lemma exp_mul m P a b : exposed m P (e_mul a b) <-> (exposed m P a /\ nonzero_part m b) \/ (nonzero_part m a /\ exposed m P b).
Proof. split; [|intros [[H H']|[H H']]; [apply x_mul_l|apply x_mul_r]; assumption]. intros X. inversion X; subst; auto. Qed.
Lemma exp_div m P a b : exposed m P (e_div a b) <-> exposed m P a \/ (nonzero_part m a /\ exposed m P b).
Proof. split; [|intros [H|[H H']]; [apply x_div_l|apply x_div_r]; assumption]. intros X. inversion X; subst; auto. Qed.

Lemma contagion m e : closed_arith e -> forall n, num_aggregate m e = Ok (e_num n) ->
  (is_float n <-> exposed m is_float e) /\ (exposed m is_nan e -> is_nan n).
Proof.
  induction 1 as [k Hk|a Ca IH|a b Ca IHa Cb IHb|a b Ca IHa Cb IHb|a b Ca IHa Cb IHb|a b Ca IHa Cb IHb]; intros n H.
  - cbn [num_aggregate e_num] in H. injection H as <-. rewrite !exp_num. split; [reflexivity|auto].
  - unfold e_neg in H. rewrite agg_mk1 in H by reflexivity. inv_bind H.
    destruct (closed_num m a _ Ca Hb) as (x & -> & Hx). destruct (IH x Hb) as [I1 I2].
    cbn in H. inv_bind H. injection H as ->. destruct (sn_neg_f m x n Hb0) as [F N].
    rewrite !exp_neg, <- I1, !is_float_b, F. split; [reflexivity|]. intros E. apply I2 in E. apply is_nan_b in E. apply is_nan_b. auto.
  - destruct (agg_bin m OAdd a b _ eq_refl Ca Cb H) as (x & y & Ea & Eb & Hx & Hy & R).
    destruct (IHa x Ea) as [A1 A2]. destruct (IHb y Eb) as [B1 B2].
    cbn in R. inv_bind R. injection R as ->. destruct (sn_add_f m x y n Hx Hy Hb) as [F N].
    rewrite !exp_add, <- A1, <- B1, !is_float_b, F, orb_true_iff. split; [reflexivity|].
    intros E. apply is_nan_b, N. rewrite <- !is_nan_b. tauto.
  - destruct (agg_bin m OSub a b _ eq_refl Ca Cb H) as (x & y & Ea & Eb & Hx & Hy & R).
    destruct (IHa x Ea) as [A1 A2]. destruct (IHb y Eb) as [B1 B2].
    cbn in R. inv_bind R. injection R as ->. destruct (sn_sub_f m x y n Hx Hy Hb) as [F N].
    rewrite !exp_sub, <- A1, <- B1, !is_float_b, F, orb_true_iff. split; [reflexivity|].
    intros E. apply is_nan_b, N. rewrite <- !is_nan_b. tauto.
  - destruct (agg_bin m OMul a b _ eq_refl Ca Cb H) as (x & y & Ea & Eb & Hx & Hy & R).
    destruct (IHa x Ea) as [A1 A2]. destruct (IHb y Eb) as [B1 B2].
    cbn in R. inv_bind R. injection R as ->. destruct (sn_mul_f m x y n Hx Hy Hb) as [F N].
    rewrite !exp_mul, (nz_part m a x Ea), (nz_part m b y Eb), <- A1, <- B1, !is_float_b. split; [exact F|].
    intros E. apply is_nan_b, N. rewrite <- !is_nan_b. tauto.
  - destruct (agg_bin m ODiv a b _ eq_refl Ca Cb H) as (x & y & Ea & Eb & Hx & Hy & R).
    destruct (IHa x Ea) as [A1 A2]. destruct (IHb y Eb) as [B1 B2].
    cbn in R. inv_bind R. injection R as ->. destruct (sn_div_f m x y n Hx Hy Hb) as [F N].
    rewrite !exp_div, (nz_part m a x Ea), <- A1, <- B1, !is_float_b. split; [exact F|].
    intros E. apply is_nan_b, N. rewrite <- !is_nan_b. tauto.
Qed.

(** ** C95 *)

(** the result of closed arithmetic is stored as f64 exactly when some f64 (or pi or e) occurs
    that no exact zero factor or dividend wipes out; every build *)
Theorem c95_float : forall m e n, closed_arith e -> num_aggregate m e = Ok (e_num n) ->
  (is_float n <-> exposed m is_float e).
Proof. intros m e n C H. exact (proj1 (contagion m e C n H)). Qed.
Print Assumptions c95_float.

(** a NaN that is not wiped out by an exact zero makes the result NaN *)
Theorem c95_nan : forall m e n, closed_arith e -> num_aggregate m e = Ok (e_num n) ->
  exposed m is_nan e -> is_nan n.
Proof. intros m e n C H. exact (proj2 (contagion m e C n H)). Qed.
Print Assumptions c95_nan.

(** a NaN is never an answer of near or is_close: nothing is within any distance of it *)
Theorem c95_nan_near : forall m e n k eps, m <> Strict -> closed_arith e -> num_aggregate m e = Ok (e_num n) ->
  exposed m is_nan e -> num_ok k ->
  sn_is_close m n k eps = Ok false /\ sn_is_close m k n eps = Ok false.
Proof.
  intros m e n k eps Hm C H X Hk. apply (c95_nan m e n C H) in X. unfold is_nan in X.
  assert (T : forall b r, trap_unless m b r = Ok r) by (intros; unfold trap_unless; destruct m; try reflexivity; congruence).
  assert (Q : exists f, val_to_f64 m (nval k) = Ok f).
  { destruct (nval k) as [z|r|f]; cbn [val_to_f64]; [| |eauto].
    - unfold m_of_Z. eexists. apply T.
    - unfold rat_to_f64, m_of_Z, m_mul, m_div. rewrite !T. cbn [bind]. rewrite ?T. cbn [bind]. eexists. rewrite ?T. cbn [bind]. rewrite ?T. reflexivity. }
  destruct Q as [f Q]. unfold sn_is_close, val_is_close. rewrite Q, X. cbn [val_to_f64 bind].
  unfold m_sub. rewrite !T. cbn [bind]. rewrite nan_sub_l, nan_sub_r. split; reflexivity.
Qed.
Print Assumptions c95_nan_near.

(** "a NaN always survives" is false: exact zeros wipe it out, in a product, in a dividend, and
    after cancellation of integers *)
Theorem c95_nan_kept_refuted : forall m, exists e n, closed_arith e /\
  (exists k, is_nan k /\ subterm (e_num k) e) /\ num_aggregate m e = Ok (e_num n) /\ exact_Q n = Some (QArith_base.inject_Z 0).
Proof.
  intros m. exists (e_mul (e_sub (e_of_i64 2) (e_of_i64 2)) (e_num (sn_of_f64 S754_nan))), (sn_of_i64 0).
  split; [|split; [|split]].
  - apply ca_mul; [apply ca_sub; constructor; apply sn_of_i64_ok; reflexivity|constructor; apply sn_of_val_ok; exact I].
  - exists (sn_of_f64 S754_nan). split; [reflexivity|]. eapply sub_child; [right; left; reflexivity|apply sub_refl].
  - destruct m; reflexivity.
  - reflexivity.
Qed.
Print Assumptions c95_nan_kept_refuted.

(** a float and a NaN deep inside, below a nonzero quotient and product *)
Definition c95_tree (f : f64) : expr :=
  e_sub (e_of_i64 3) (e_div (e_of_i64 2) (e_mul (e_of_i64 5) (e_neg (e_num (sn_of_f64 f))))).
Example c95_witness :
  (exists n, num_aggregate Debug (c95_tree (f_of_Z 7)) = Ok (e_num n) /\ is_float n /\ ~ is_nan n) /\
  (exists n, num_aggregate Debug (c95_tree S754_nan) = Ok (e_num n) /\ is_nan n) /\
  exposed Debug is_nan (c95_tree S754_nan) /\ closed_arith (c95_tree S754_nan).
Proof.
  split; [|split; [|split]].
  - eexists. split; [vm_compute; reflexivity|]. split; [eexists; reflexivity|discriminate].
  - eexists. split; [vm_compute; reflexivity|]. reflexivity.
  - unfold c95_tree. apply x_sub_r, x_div_r; [eexists; split; vm_compute; reflexivity|].
    apply x_mul_r; [eexists; split; vm_compute; reflexivity|]. apply x_neg, x_here. reflexivity.
  - unfold c95_tree. apply ca_sub; [constructor; apply sn_of_i64_ok; reflexivity|].
    apply ca_div; [constructor; apply sn_of_i64_ok; reflexivity|]. apply ca_mul; [constructor; apply sn_of_i64_ok; reflexivity|].
    apply ca_neg. constructor. apply sn_of_val_ok. exact I.
Qed.
