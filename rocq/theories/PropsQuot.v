(** * PropsQuot: Taylor expansions of quotients and logarithms of integer expressions (C90) *)
From Coq Require Import ZArith List String Bool Lia.
From Coq Require Import Reals Lra.
From Coquelicot Require Import Coquelicot.
From Verif Require Import Base Float Rational SmartNum Ast Compute Spec SpecTree SpecR SpecInt SpecQuot.
From Verif Require Import BaseProofs RationalProofs NumProofs NumProofs2 TreeProofs TreeProofs2 TreeProofs3 TreeProofs4
  RealProofs RealDeriv RealDeriv2 RealTaylor IntProofs.
From Verif Require Import PropsTree PropsReal PropsInt.
Import ListNotations.
Open Scope string_scope.
Open Scope Z_scope.

(** ** exact numbers *)
Definition exact_val (v : val) : Prop :=
  match v with Integer z => in_i64 z = true | Rational _ => True | Real _ => False end.
Definition frac (n : snum) : Prop := exact_val (nval n) /\ approx n = false.

Lemma int_frac n : intnum n -> frac n.
Proof. intros (z & I & ->). split; [exact I|apply approx_int]. Qed.
Lemma wrap_approx v : approx (wrap_val v) = false.
Proof. unfold wrap_val. destruct (val_is_zero v); [reflexivity|]. destruct (val_is_one v); reflexivity. Qed.
Lemma wrap_nval_exact v : exact_val v -> exact_val (nval (wrap_val v)).
Proof. intros E. unfold wrap_val. destruct (val_is_zero v); [reflexivity|]. destruct (val_is_one v); [reflexivity|exact E]. Qed.

Lemma rat_div_DS a b r : rat_div Debug a b = Ok r -> rat_div Strict a b = Ok r.
Proof.
  unfold rat_div, i64_mul, u64_mul. intros H. inv_bind H. inv_bind H. inv_bind H.
  apply ovf_i64_DS in Hb as (E1 & -> & _). apply ovf_u64_DS in Hb0 as (E2 & -> & _). apply ovf_u64_DS in Hb1 as (E3 & -> & _).
  rewrite E1. cbn [bind]. rewrite E2. cbn [bind]. rewrite E3. cbn [bind]. exact H.
Qed.

Lemma frac_div n k v : frac n -> frac k -> sn_div Debug n k = Ok v -> sn_div Strict n k = Ok v /\ frac v.
Proof.
  intros [En An] [Ek Ak]. unfold sn_div. rewrite An, Ak. cbn [orb andb]. rewrite !guard_false.
  intros H. inv_bind H. injection H as <-.
  assert (val_div Strict (nval n) (nval k) = Ok a /\ exact_val a) as [-> X]; [|cbn [bind]; split; [reflexivity|]; split; [apply wrap_nval_exact; exact X|apply wrap_approx]].
  unfold val_div in *. destruct (val_is_zero (nval n)); [injection Hb as <-; split; reflexivity|].
  destruct (nval n) as [i|i|i], (nval k) as [j|j|j]; cbn [exact_val] in *; try contradiction.
  - do 3 inv_bind Hb. injection Hb as <-. rewrite (rat_of_i64_DS i _ En Hb0). cbn [bind]. rewrite (rat_of_i64_DS j _ Ek Hb1). cbn [bind].
    rewrite (rat_div_DS _ _ _ Hb2). split; [reflexivity|exact I].
  - do 2 inv_bind Hb. injection Hb as <-. rewrite (rat_of_i64_DS i _ En Hb0). cbn [bind].
    rewrite (rat_div_DS _ _ _ Hb1). split; [reflexivity|exact I].
  - do 2 inv_bind Hb. injection Hb as <-. rewrite (rat_of_i64_DS j _ Ek Hb0). cbn [bind].
    rewrite (rat_div_DS _ _ _ Hb1). split; [reflexivity|exact I].
  - inv_bind Hb. injection Hb as <-. rewrite (rat_div_DS _ _ _ Hb0). split; [reflexivity|exact I].
Qed.

(** ** what derivatives and their values look like *)
Inductive rq : expr -> Prop :=
| rq_int p : trig_poly p -> rq p
| rq_div p q : trig_poly p -> trig_poly q -> rq (e_div p q)
| rq_ln p : trig_poly p -> rq (e_ln p)
| rq_num n : frac n -> rq (e_num n).

Lemma iq_rq e : int_quotient e -> rq e.
Proof. destruct 1; constructor; assumption. Qed.

Lemma tp_num_int n c : trig_poly (Expr (Operand (Num n)) c) -> intnum n /\ c = [].
Proof. intros T. exact (ie_num_inv n c (tp_ie _ T)). Qed.

Lemma rq_num_frac n c : rq (Expr (Operand (Num n)) c) -> frac n /\ c = [].
Proof.
  intros H. inversion H as [p T E|p q T T' E|p T E|k F E]; subst.
  - destruct (tp_num_int _ _ T) as [I ->]. split; [apply int_frac; exact I|reflexivity].
  - auto.
Qed.

(** the division rule on such operands *)
Lemma div_rule_DS l r z : rq l -> rq r -> eval_rule Debug ODiv [Ok l; Ok r] = Ok z ->
  eval_rule Strict ODiv [Ok l; Ok r] = Ok z /\ ((exists n, frac n /\ z = e_num n) \/ z = e_zero \/ z = e_div l r).
Proof.
  intros Rl Rr. cbn [eval_rule]. unfold div_eval_rule, eval2. cbn [pop_unwrap pop bind]. intros H.
  destruct (is_num l && is_num r) eqn:N.
  - apply andb_prop in N as [Nl Nr]. destruct l as [[op|[n|y]] c]; try discriminate Nl. destruct r as [[op|[k|y]] d]; try discriminate Nr.
    apply rq_num_frac in Rl as [Fn _]. apply rq_num_frac in Rr as [Fk _].
    cbn [to_smart_num_unwrap to_smart_num root bind] in *. inv_bind H. injection H as <-.
    destruct (frac_div _ _ _ Fn Fk Hb) as [E F]. rewrite E. split; [reflexivity|left; eauto].
  - destruct (is_zero l); injection H as <-; (split; [reflexivity|auto]).
Qed.

Lemma rq_agg e : rq e -> forall z, num_aggregate Debug e = Ok z -> num_aggregate Strict e = Ok z /\ rq z.
Proof.
  intros R z E. destruct R as [p T|p q T T'|p T|n F].
  - split; [exact (proj1 (ie_agg _ (tp_ie _ T) _ E))|apply rq_int; exact (tp_agg _ _ T E)].
  - unfold e_div in *. rewrite agg_mk2 in * by reflexivity. do 2 inv_bind E.
    rewrite (proj1 (ie_agg _ (tp_ie _ T') _ Hb)). cbn [bind]. rewrite (proj1 (ie_agg _ (tp_ie _ T) _ Hb0)). cbn [bind].
    pose proof (tp_agg _ _ T' Hb) as Tr. pose proof (tp_agg _ _ T Hb0) as Tl.
    destruct (div_rule_DS _ _ _ (rq_int _ Tl) (rq_int _ Tr) E) as [S C]. split; [exact S|].
    destruct C as [(n & F & ->)|[-> | ->]]; [apply rq_num; exact F|apply rq_int, (tp_num 0); reflexivity|apply rq_div; assumption].
  - unfold e_ln in *. rewrite agg_mk1 in * by reflexivity. inv_bind E.
    destruct (ie_agg _ (tp_ie _ T) _ Hb) as [S W]. rewrite S. cbn [bind]. split; [apply eval1_DS; [reflexivity|exact W|exact E]|].
    pose proof (tp_agg _ _ T Hb) as Ta. apply rule1_ar in E; [|reflexivity]. inversion E; subst.
    + apply rq_int, (tp_num 1). reflexivity.
    + apply rq_int, (tp_num 0). reflexivity.
    + exfalso. refine (tp_ops _ OExp Ta (or_introl eq_refl) _). eexists _, _. split; [|apply sub_refl]. assumption.
    + apply rq_ln. exact Ta.
  - injection E as <-. split; [reflexivity|apply rq_num; exact F].
Qed.

Lemma rq_deriv x e : rq e -> forall d, deriv Debug x e = Ok d -> deriv Strict x e = Ok d /\ rq d.
Proof.
  intros R d E. destruct R as [p T|p q T T'|p T|n F].
  - split; [exact (proj1 (ie_deriv x _ (tp_ie _ T) _ E))|apply rq_int; exact (tp_deriv x _ T _ E)].
  - unfold e_div in *. rewrite deriv_mk2 in * by reflexivity. do 2 inv_bind E.
    match goal with H : deriv Debug x q = Ok ?a |- _ => rename H into Hq; rename a into dq end.
    match goal with H : deriv Debug x p = Ok ?a |- _ => rename H into Hp; rename a into dp end.
    rewrite (proj1 (ie_deriv x _ (tp_ie _ T) _ Hp)), (proj1 (ie_deriv x _ (tp_ie _ T') _ Hq)). cbn [bind].
    pose proof (tp_deriv x _ T _ Hp) as Tp. pose proof (tp_deriv x _ T' _ Hq) as Tq.
    apply rq_agg; [|exact E]. cbn [raw2]. apply rq_div; [apply tp_sub; apply tp_mul; assumption|apply tp_mul; assumption].
  - unfold e_ln in *. rewrite deriv_mk1 in * by reflexivity. inv_bind E.
    rewrite (proj1 (ie_deriv x _ (tp_ie _ T) _ Hb)). cbn [bind]. pose proof (tp_deriv x _ T _ Hb) as Tp.
    apply rq_agg; [|exact E]. cbn [raw1]. apply rq_div; assumption.
  - injection E as <-. split; [reflexivity|apply rq_int, (tp_num 0); reflexivity].
Qed.

Lemma rq_subst x v e : rq e -> trig_poly v -> rq (subst x v e).
Proof.
  intros R T. destruct R as [p Tp|p q Tp Tq|p Tp|n F].
  - apply rq_int, tp_subst; assumption.
  - unfold e_div. rewrite subst_mk2. apply rq_div; apply tp_subst; assumption.
  - unfold e_ln. rewrite subst_mk1. apply rq_ln, tp_subst; assumption.
  - apply rq_num. exact F.
Qed.

Lemma quot_loop_DS x at_ : trig_poly at_ -> forall n k f r c p,
  0 <= k -> k + Z.of_nat n <= 1000 -> intnum f -> rq r ->
  taylor_loop Debug x at_ n k f r c = Ok p -> taylor_loop Strict x at_ n k f r c = Ok p.
Proof.
  intros Ta. induction n; intros k f r c p K0 K If Tr H; cbn [taylor_loop] in *; [exact H|].
  do 5 inv_bind H.
  assert (in_i64 (Z.max k 1) = true) as I. { apply in_i64_iff. unfold two63. lia. }
  unfold sn_of_u64, val_of_u64, cast_i64 in *. rewrite I in *. cbn [bind] in *. injection Hb as <-.
  assert (intnum (sn_of_val (Integer (Z.max k 1)))) as Ik. { exists (Z.max k 1). auto. }
  destruct (sn_op_DS OMul _ _ _ If Ik ltac:(discriminate) ltac:(auto) Hb0) as [E0 I0]. cbn [sn_op] in E0. rewrite E0. cbn [bind].
  destruct (rq_agg _ (rq_subst x at_ r Tr Ta) _ Hb1) as [E1 W1]. rewrite E1. cbn [bind].
  assert (num_aggregate Strict (e_div a1 (e_num a0)) = Ok a2) as E2.
  { unfold e_div in *. rewrite agg_mk2 in * by reflexivity. cbn [num_aggregate e_num bind] in *.
    inv_bind Hb2. destruct (rq_agg _ W1 _ Hb) as [S2 W2]. rewrite S2. cbn [bind].
    exact (proj1 (div_rule_DS _ _ _ W2 (rq_num a0 (int_frac _ I0)) Hb2)). }
  rewrite E2. cbn [bind]. destruct (rq_deriv x r Tr _ Hb3) as [E3 R3]. rewrite E3. cbn [bind].
  apply IHn; [lia|lia|exact I0|exact R3|exact H].
Qed.

Lemma quot_taylor_strict e x at_ n t : int_quotient e -> trig_poly at_ ->
  taylor_expansion Debug e (e_var x) at_ (Z.of_nat n) = Ok (ROk t) ->
  taylor_expansion Strict e (e_var x) at_ (Z.of_nat n) = Ok (ROk t).
Proof.
  intros T Ta H. assert (n <= 20)%nat as Hn.
  { destruct (Nat.le_gt_cases n 20) as [L|L]; [exact L|]. exfalso.
    exact (proj1 (c34_debug_never_returns e (e_var x) at_ (Z.of_nat n) t ltac:(lia)) H). }
  unfold taylor_expansion in *. cbn [to_variable root e_var] in *. inv_bind H. unfold taylor_var in *. inv_bind Hb.
  rewrite (quot_loop_DS x at_ Ta (Z.to_nat (Z.of_nat n + 1)) 0 (sn_of_i64 1) e [] a0); [|lia|lia| |exact (iq_rq e T)|exact Hb0].
  - cbn [bind] in *. rewrite Hb. exact H.
  - exists 1%Z. auto.
Qed.

Lemma iq_wf e : int_quotient e -> wf e.
Proof.
  destruct 1; try (apply wf_mk2; [reflexivity| |]); try (apply wf_mk1; [reflexivity|]); apply ie_wf, tp_ie; assumption.
Qed.

(** no powers, no pi below sines and cosines *)
Lemma iq_no_pow e u b : int_quotient e -> ~ subterm (e_pow u b) e.
Proof.
  intros Q S.
  assert (forall p, trig_poly p -> ~ subterm (e_pow u b) p) as N.
  { intros p T S'. apply (tp_ops p OPow T); [cbn; auto|]. exists (gen_op OPow), [u; b]. split; [reflexivity|exact S']. }
  destruct Q as [p T|p q T T'|p T]; [exact (N p T S)| |].
  - inversion S as [|? ? ? c I' S']; subst. destruct I' as [<-|[<-|[]]]; [exact (N p T S')|exact (N q T' S')].
  - inversion S as [|? ? ? c I' S']; subst. destruct I' as [<-|[]]. exact (N p T S').
Qed.
Lemma iq_no_pi (rho : string -> R) (x : string) e u : int_quotient e -> subterm (e_sin u) e \/ subterm (e_cos u) e -> ~ has_pi u.
Proof.
  intros Q S.
  assert (forall p, trig_poly p -> subterm (e_sin u) p \/ subterm (e_cos u) p -> ~ has_pi u) as N
    by (intros p T; exact (proj2 (tp_regular rho x p T) u)).
  destruct Q as [p T|p q T T'|p T]; [exact (N p T S)| |].
  - destruct S as [S|S]; inversion S as [|? ? ? c I' S']; subst; destruct I' as [<-|[<-|[]]];
      first [exact (N p T (or_introl S'))|exact (N q T' (or_introl S'))|exact (N p T (or_intror S'))|exact (N q T' (or_intror S'))].
  - destruct S as [S|S]; inversion S as [|? ? ? c I' S']; subst; destruct I' as [<-|[]];
      first [exact (N p T (or_introl S'))|exact (N p T (or_intror S'))].
Qed.
Lemma iq_regular rho x e : int_quotient e -> regular rho x e.
Proof. intros Q. split; [intros u b S; elim (iq_no_pow e u b Q S)|exact (fun u => iq_no_pi rho x e u Q)]. Qed.
Lemma iq_taylor_regular rho x at_ a e : int_quotient e -> trig_poly at_ -> taylor_regular rho x at_ a e.
Proof.
  intros Q Ta. destruct (tp_taylor_regular rho x at_ a at_ Ta Ta) as (_ & _ & A & B & C). refine (conj _ (conj _ (conj A (conj B C)))).
  - intros u b S. elim (iq_no_pow e u b Q S).
  - exact (fun u => iq_no_pi rho x e u Q).
Qed.

(** ** C90 *)
Theorem c90_taylor rho x at_ a e n t : int_quotient e -> trig_poly at_ -> eval rho at_ = Some a ->
  defined (upd rho x a) e ->
  taylor_expansion Debug e (e_var x) at_ (Z.of_nat n) = Ok (ROk t) ->
  forall k, (k <= n)%nat -> exists ck, nth_error (ex_coef t) k = Some ck /\
     eval rho ck = Some (Derive_n (evalx rho x e) k a / INR (fact k))%R /\ ex_derive_n (evalx rho x e) k a.
Proof.
  intros Q Ta Ha D H. apply (quot_taylor_strict e x at_ n t Q Ta) in H.
  exact (c32_coefficients rho x at_ a e n t (iq_wf e Q) (ie_wf at_ (tp_ie at_ Ta)) Ha (iq_taylor_regular rho x at_ a e Q Ta) D H).
Qed.
Print Assumptions c90_taylor.

Theorem c90_remainder rho x at_ a e n t y : int_quotient e -> trig_poly at_ -> eval rho at_ = Some a ->
  (forall s, (Rmin a y <= s <= Rmax a y)%R -> defined (upd rho x s) e) ->
  taylor_expansion Debug e (e_var x) at_ (Z.of_nat n) = Ok (ROk t) -> y <> a ->
  exists z, (Rmin a y < z < Rmax a y)%R /\ defined (upd rho x z) (ex_residual t) /\
    eval (upd rho x y) e = Some (
      sum_f_R0 (fun k => value rho (nth k (ex_coef t) e_zero) * (y - a) ^ k) n
      + value (upd rho x z) (ex_residual t) * (y - a) ^ (S n) / INR (fact (S n)))%R.
Proof.
  intros Q Ta Ha D H Ny. apply (quot_taylor_strict e x at_ n t Q Ta) in H.
  refine (c33_lagrange rho x at_ a e n t y (iq_wf e Q) (ie_wf at_ (tp_ie at_ Ta)) Ha (iq_taylor_regular rho x at_ a e Q Ta) _ H Ny).
  intros s Hs. split; [apply iq_regular; exact Q|exact (D s Hs)].
Qed.
Print Assumptions c90_remainder.

(** ** the geometric series and the logarithm *)
Open Scope R_scope.
Lemma loc_lt t b : t < b -> locally t (fun s => s < b).
Proof. intros H. exact (open_lt b t H). Qed.
Lemma loc_gt t b : b < t -> locally t (fun s => b < s).
Proof. intros H. exact (open_gt b t H). Qed.

Lemma geometric_value rho x t : t <> 1 -> eval (upd rho x t) (geometric x) = Some (/ (1 - t)).
Proof.
  intros N. unfold geometric, e_div, e_sub, e_of_i64, e_num, e_var. rewrite !eval_mk2, !eval_num, !num_R_int, eval_var.
  unfold upd. rewrite String.eqb_refl. cbn [obind ev2]. destruct (Req_EM_T (1 - t) 0); [lra|]. f_equal. field. lra.
Qed.
Lemma log_value rho x t : -1 < t -> eval (upd rho x t) (log_series x) = Some (ln (1 + t)).
Proof.
  intros N. unfold log_series, e_ln, e_add, e_of_i64, e_num, e_var. rewrite !eval_mk1, !eval_mk2, !eval_num, !num_R_int, eval_var.
  unfold upd. rewrite String.eqb_refl. cbn [obind ev1 ev2]. destruct (Rlt_dec 0 (1 + t)); [reflexivity|lra].
Qed.

Lemma geometric_derive rho x k : forall t, t < 1 -> Derive_n (evalx rho x (geometric x)) k t = INR (fact k) / (1 - t) ^ S k.
Proof.
  induction k as [|k IH]; intros t H.
  - cbn [Derive_n]. unfold evalx. rewrite geometric_value by lra. cbn. field. lra.
  - cbn [Derive_n]. rewrite (Derive_ext_loc _ (fun s => INR (fact k) / (1 - s) ^ S k)).
    + apply is_derive_unique. auto_derive.
      * repeat split. apply Rmult_integral_contrapositive_currified; [lra|apply pow_nonzero; lra].
      * rewrite fact_simpl, mult_INR. replace (Init.Nat.pred (S k)) with k by reflexivity. cbn [pow]. set (c := INR (S k)). change (match k with O => 1 | S _ => INR k + 1 end) with c in *. change (1 + - t) with (1 - t).
        assert ((1 - t) ^ k <> 0) as N by (apply pow_nonzero; lra). set (p := (1 - t) ^ k) in *. field. split; [exact N|lra].
    + apply (filter_imp (fun s => s < 1)); [intros s; apply IH|apply loc_lt; exact H].
Qed.
Lemma log_derive rho x k : forall t, -1 < t -> Derive_n (evalx rho x (log_series x)) (S k) t = (-1) ^ k * INR (fact k) / (1 + t) ^ S k.
Proof.
  induction k as [|k IH]; intros t H.
  - cbn [Derive_n]. rewrite (Derive_ext_loc _ (fun s => ln (1 + s))).
    + apply is_derive_unique. auto_derive; [lra|]. cbn. field. lra.
    + apply (filter_imp (fun s => -1 < s)); [|apply loc_gt; exact H]. intros s Hs. unfold evalx. rewrite log_value by exact Hs. reflexivity.
  - change (Derive (Derive_n (evalx rho x (log_series x)) (S k)) t = (-1) ^ S k * INR (fact (S k)) / (1 + t) ^ S (S k)).
    rewrite (Derive_ext_loc _ (fun s => (-1) ^ k * INR (fact k) / (1 + s) ^ S k)).
    + apply is_derive_unique. auto_derive.
      * repeat split. apply Rmult_integral_contrapositive_currified; [lra|apply pow_nonzero; lra].
      * rewrite fact_simpl, mult_INR. replace (Init.Nat.pred (S k)) with k by reflexivity. cbn [pow]. set (c := INR (S k)). change (match k with O => 1 | S _ => INR k + 1 end) with c in *.
        assert ((1 + t) ^ k <> 0) as N by (apply pow_nonzero; lra). set (p := (1 + t) ^ k) in *. field. split; [exact N|lra].
    + apply (filter_imp (fun s => -1 < s)); [intros s; apply IH|apply loc_gt; exact H].
Qed.

Theorem c90_geometric rho x n t k : (k <= n)%nat ->
  taylor_expansion Debug (geometric x) (e_var x) (e_of_i64 0) (Z.of_nat n) = Ok (ROk t) ->
  exists c, nth_error (ex_coef t) k = Some c /\ eval rho c = Some 1.
Proof.
  intros K H. assert (eval rho (e_of_i64 0) = Some 0) as E0 by (unfold e_of_i64, e_num; rewrite eval_num, num_R_int; reflexivity).
  destruct (c90_taylor rho x (e_of_i64 0) 0 (geometric x) n t) with (k := k) as (c & C & V & _); try assumption.
  - apply iq_div; [apply tp_num; reflexivity|apply tp_sub; [apply tp_num; reflexivity|apply tp_var]].
  - apply tp_num. reflexivity.
  - eexists. apply geometric_value. lra.
  - exists c. split; [exact C|]. rewrite V, geometric_derive by lra. f_equal. rewrite Rminus_0_r, pow1.
    field. apply INR_fact_neq_0.
Qed.
Print Assumptions c90_geometric.

Theorem c90_logarithm rho x n t k : (k <= n)%nat ->
  taylor_expansion Debug (log_series x) (e_var x) (e_of_i64 0) (Z.of_nat n) = Ok (ROk t) ->
  exists c, nth_error (ex_coef t) k = Some c /\ eval rho c = Some (ln_coef k).
Proof.
  intros K H. assert (eval rho (e_of_i64 0) = Some 0) as E0 by (unfold e_of_i64, e_num; rewrite eval_num, num_R_int; reflexivity).
  destruct (c90_taylor rho x (e_of_i64 0) 0 (log_series x) n t) with (k := k) as (c & C & V & _); try assumption.
  - apply iq_ln, tp_add; [apply tp_num; reflexivity|apply tp_var].
  - apply tp_num. reflexivity.
  - eexists. apply log_value. lra.
  - exists c. split; [exact C|]. rewrite V. f_equal. destruct k as [|k].
    + cbn [Derive_n fact]. unfold evalx. rewrite log_value by lra. rewrite Rplus_0_r, ln_1. cbn. field.
    + rewrite log_derive by lra. unfold ln_coef. rewrite Rplus_0_r, pow1, fact_simpl, mult_INR.
      field. split; [apply not_0_INR; discriminate|apply INR_fact_neq_0].
Qed.
Print Assumptions c90_logarithm.

(** the hypotheses are met: a debug build does return *)
Example c90_witness : (exists t, taylor_expansion Debug (geometric "x") (e_var "x") (e_of_i64 0) 5 = Ok (ROk t)) /\
  (exists t, taylor_expansion Debug (log_series "x") (e_var "x") (e_of_i64 0) 5 = Ok (ROk t)) /\
  exists e t, e = e_div (e_sin (e_var "x")) (e_add (e_mul (e_var "x") (e_var "x")) (e_of_i64 3)) /\ int_quotient e /\
    taylor_expansion Debug e (e_var "x") (e_add (e_var "y") (e_of_i64 2)) 2 = Ok (ROk t).
Proof.
  split; [eexists; vm_compute; reflexivity|]. split; [eexists; vm_compute; reflexivity|].
  do 2 eexists. split; [reflexivity|]. split; [|vm_compute; reflexivity].
  apply iq_div; [apply tp_sin, tp_var|]. apply tp_add; [apply tp_mul; apply tp_var|apply tp_num; reflexivity].
Qed.
