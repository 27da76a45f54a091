(** * PropsPlug: away from 0, limit only plugs the point in (C74) *)
From Coq Require Import ZArith List String Bool Lia.
From Coq Require Import Reals Lra.
From Coquelicot Require Import Coquelicot.
From Verif Require Import Base Float Rational SmartNum Ast Compute Limit Spec SpecTree SpecShape SpecR SpecLim SpecPlug.
From Verif Require Import BaseProofs RationalProofs NumProofs NumProofs2 TreeProofs TreeProofs2 TreeProofs3 TreeProofs4
  ShapeProofs RealProofs.
From Verif Require Import PropsTree PropsReal PropsLim.
Import ListNotations.
Open Scope string_scope.
Open Scope Z_scope.

Lemma re_wf e : rational_expr e -> wf e.
Proof.
  induction 1 as [n H|y|a b Ha IHa Hb IHb|a b Ha IHa Hb IHb|a b Ha IHa Hb IHb];
    try (apply wf_mk2; [reflexivity|assumption|assumption]); constructor; exact H.
Qed.

(** the rules of +, * and / applied to already simplified operands give something simplified *)
Lemma rule_fix m t l r z : In t [OAdd; OMul; ODiv] -> num_aggregate m l = Ok l -> num_aggregate m r = Ok r ->
  eval_rule m t [Ok l; Ok r] = Ok z -> num_aggregate m z = Ok z.
Proof.
  intros Ht Fl Fr E.
  assert (arity t = 2%nat) as At by (destruct Ht as [<-|[<-|[<-|[]]]]; reflexivity).
  assert (z = mk2 t l r \/ z = l \/ z = r \/ exists n, z = e_num n) as C.
  { clear Fl Fr. destruct Ht as [<-|[<-|[<-|[]]]]; cbn [eval_rule] in E;
      unfold add_eval_rule, mul_eval_rule, div_eval_rule, eval2 in E; cbn [pop_unwrap pop bind] in E.
    - destruct (is_num l && is_num r).
      + do 3 (apply bind_ok in E; destruct E as (? & ? & E)). injection E as <-. eauto.
      + destruct (is_zero l); [injection E as <-; auto|]. destruct (is_zero r); injection E as <-; auto.
    - destruct (is_num l && is_num r).
      + do 3 (apply bind_ok in E; destruct E as (? & ? & E)). injection E as <-. eauto.
      + destruct (is_zero l || is_zero r); [injection E as <-; right; right; right; eexists; reflexivity|].
        destruct (is_one l); [injection E as <-; auto|]. destruct (is_one r); injection E as <-; auto.
    - destruct (is_num l && is_num r).
      + do 3 (apply bind_ok in E; destruct E as (? & ? & E)). injection E as <-. eauto.
      + destruct (is_zero l); injection E as <-; [right; right; right; eexists; reflexivity|auto]. }
  destruct C as [-> |[-> |[-> |[n ->]]]]; try assumption; [|reflexivity].
  rewrite agg_mk2 by exact At. rewrite Fl, Fr. cbn [bind]. exact E.
Qed.

Definition plug (r : res expr) : res lres := on_ok (fun z => ROk (Normal z)) r.

Lemma plug_fix m x to e : wf to -> num_aggregate m to = Ok to -> rational_expr e ->
  forall z, num_aggregate m (subst x to e) = Ok z -> num_aggregate m z = Ok z.
Proof.
  intros Wt Ft. induction 1 as [n H|y|a b Ha IHa Hb IHb|a b Ha IHa Hb IHb|a b Ha IHa Hb IHb]; intros z E.
  - injection E as <-. reflexivity.
  - cbn [subst e_var] in E. destruct (String.eqb y x); [congruence|injection E as <-; reflexivity].
  - unfold e_add in E. rewrite subst_mk2, agg_mk2 in E by reflexivity.
    apply bind_ok in E. destruct E as (r & Er & E). apply bind_ok in E. destruct E as (l & El & E).
    exact (rule_fix m OAdd l r z (or_introl eq_refl) (IHa _ El) (IHb _ Er) E).
  - unfold e_mul in E. rewrite subst_mk2, agg_mk2 in E by reflexivity.
    apply bind_ok in E. destruct E as (r & Er & E). apply bind_ok in E. destruct E as (l & El & E).
    exact (rule_fix m OMul l r z (or_intror (or_introl eq_refl)) (IHa _ El) (IHb _ Er) E).
  - unfold e_div in E. rewrite subst_mk2, agg_mk2 in E by reflexivity.
    apply bind_ok in E. destruct E as (r & Er & E). apply bind_ok in E. destruct E as (l & El & E).
    exact (rule_fix m ODiv l r z (or_intror (or_intror (or_introl eq_refl))) (IHa _ El) (IHb _ Er) E).
Qed.

Lemma limit_plug m x to ord e : wf to -> is_zero to = false -> num_aggregate m to = Ok to -> 0 <= ord ->
  rational_expr e -> forall fuel, (depth e <= fuel)%nat ->
  limit_var fuel m x to ord e = plug (num_aggregate m (subst x to e)).
Proof.
  intros Wt Zt Ft Ho. induction 1 as [n H|y|a b Ha IHa Hb IHb|a b Ha IHa Hb IHb|a b Ha IHa Hb IHb];
    intros fuel L; (destruct fuel as [|fuel]; [cbn in L; lia|]).
  - reflexivity.
  - cbn [limit_var]. unfold limit_rule. cbn [root e_var subst]. destruct (String.eqb y x); [|reflexivity].
    rewrite Zt. cbn [qbind bind]. rewrite Ft. reflexivity.
  - unfold e_add in *. rewrite depth_mk2 in L. rewrite subst_mk2, (agg_mk2 m OAdd) by reflexivity. cbn [limit_var].
    unfold limit_rule, add_limit_expr_rule. cbn [root mk2 gen_op descriptor child pop_unwrap pop bind].
    rewrite IHb, IHa by lia. unfold plug.
    destruct (num_aggregate m (subst x to b)) as [r| | |] eqn:Er; try reflexivity. cbn [on_ok qbind bind].
    destruct (num_aggregate m (subst x to a)) as [l| | |] eqn:El; try reflexivity. cbn [on_ok qbind bind l_add].
    unfold e_add. rewrite agg_mk2 by reflexivity.
    rewrite (plug_fix m x to a Wt Ft Ha l El), (plug_fix m x to b Wt Ft Hb r Er). cbn [bind].
    destruct (eval_rule m OAdd [Ok l; Ok r]); reflexivity.
  - unfold e_mul in *. rewrite depth_mk2 in L. rewrite subst_mk2, (agg_mk2 m OMul) by reflexivity. cbn [limit_var].
    unfold limit_rule, mul_limit_expr_rule. cbn [root mk2 gen_op descriptor child pop_unwrap pop bind].
    rewrite IHb, IHa by lia. unfold plug.
    destruct (num_aggregate m (subst x to b)) as [r| | |] eqn:Er; try reflexivity. cbn [on_ok qbind bind].
    destruct (num_aggregate m (subst x to a)) as [l| | |] eqn:El; try reflexivity. cbn [on_ok qbind bind l_mul].
    unfold e_mul. rewrite agg_mk2 by reflexivity.
    rewrite (plug_fix m x to a Wt Ft Ha l El), (plug_fix m x to b Wt Ft Hb r Er). cbn [bind].
    destruct (eval_rule m OMul [Ok l; Ok r]); reflexivity.
  - unfold e_div in *. rewrite depth_mk2 in L. rewrite subst_mk2, (agg_mk2 m ODiv) by reflexivity. cbn [limit_var].
    unfold limit_rule, div_limit_expr_rule. cbn [root mk2 gen_op descriptor child pop_unwrap pop bind].
    replace (Z.to_nat (ord + 1)) with (S (Z.to_nat ord)) by lia. cbn [div_loop].
    rewrite IHb, IHa by lia. unfold plug.
    assert (safe m (num_aggregate m (subst x to a))) as Sa by (apply agg_safe, subst_wf; [apply re_wf; exact Ha|exact Wt]).
    assert (safe m (num_aggregate m (subst x to b))) as Sb by (apply agg_safe, subst_wf; [apply re_wf; exact Hb|exact Wt]).
    destruct (num_aggregate m (subst x to a)) as [l| | |] eqn:El; cbn [on_ok qbind bind];
      [|destruct (num_aggregate m (subst x to b)); cbn [bind on_ok safe] in *; subst; try discriminate; try contradiction; reflexivity
       |destruct (num_aggregate m (subst x to b)); cbn [bind on_ok safe] in *; subst; try discriminate; try contradiction; reflexivity
       |destruct Sa].
    + destruct (num_aggregate m (subst x to b)) as [r| | |] eqn:Er; try reflexivity. cbn [on_ok qbind bind l_div].
      unfold e_div. rewrite agg_mk2 by reflexivity.
      rewrite (plug_fix m x to a Wt Ft Ha l El), (plug_fix m x to b Wt Ft Hb r Er). cbn [bind].
      destruct (eval_rule m ODiv [Ok l; Ok r]); reflexivity.
Qed.

(** ** C74 at a point that is not literally 0, limit never looks at the function *)
(** it answers with the simplified expression in which the point replaces the variable *)
Theorem c74_plugs_in m x to e ord fuel :
  rational_expr e -> wf to -> is_zero to = false -> num_aggregate m to = Ok to -> 0 <= ord -> (depth e <= fuel)%nat ->
  (forall z, num_aggregate m (subst x to e) = Ok z -> limit fuel m e (e_var x) to ord = Ok (ROk (Normal z))) /\
  (num_aggregate m (subst x to e) = Panic -> limit fuel m e (e_var x) to ord = Panic).
Proof.
  intros He Wt Zt Ft Ho L. change (limit fuel m e (e_var x) to ord) with (limit_var fuel m x to ord e).
  rewrite (limit_plug m x to ord e Wt Zt Ft Ho He fuel L).
  split; [intros z E|intros E]; rewrite E; reflexivity.
Qed.
Print Assumptions c74_plugs_in.

(** so L'Hopital's rule is never used there: 0/0 (or 0 over anything) is answered 0, whatever order_try is *)
Theorem c74_zero_over_zero m x to l r a b ord fuel :
  rational_expr l -> rational_expr r -> wf to -> is_zero to = false -> num_aggregate m to = Ok to ->
  0 <= ord -> (depth (e_div l r) <= fuel)%nat ->
  num_aggregate m (subst x to l) = Ok a -> is_zero a = true ->
  num_aggregate m (subst x to r) = Ok b -> m = Debug \/ m = Release ->
  limit fuel m (e_div l r) (e_var x) to ord = Ok (ROk (Normal e_zero)).
Proof.
  intros Hl Hr Wt Zt Ft Ho L Ea Za Eb Hm.
  destruct (c74_plugs_in m x to (e_div l r) ord fuel (re_div _ _ Hl Hr) Wt Zt Ft Ho L) as [H _]. apply H.
  unfold e_div. rewrite subst_mk2, agg_mk2 by reflexivity. rewrite Ea, Eb. cbn [bind eval_rule].
  unfold div_eval_rule, eval2. cbn [pop_unwrap pop bind].
  destruct (is_num a && is_num b) eqn:En; [|rewrite Za; reflexivity].
  apply andb_prop in En. destruct En as [Na Nb].
  assert (wf a) as Wa by (refine (agg_wf m _ a _ Ea); apply subst_wf; [apply re_wf; exact Hl|exact Wt]).
  destruct a as [[op|[n|y]] c]; try discriminate. destruct b as [[op'|[k|y']] c']; try discriminate.
  cbn [to_smart_num_unwrap to_smart_num root bind].
  assert (num_ok n) as On by (inversion Wa; assumption).
  assert (val_is_zero (nval n) = true) as Vz.
  { destruct On as [_ T]. cbn in Za. unfold sn_is_zero in Za. destruct (ntag n); try discriminate. exact T. }
  unfold sn_div, guard, val_div. rewrite Vz. cbn [negb]. rewrite andb_false_r.
  destruct Hm as [-> | ->]; reflexivity.
Qed.
Print Assumptions c74_zero_over_zero.

(** hence the answer can be wrong: (x*x - 1)/(x - 1) at 1 is answered 0 for every order_try, but tends to 2 *)
Definition ex_m1 : expr := e_of_i64 (-1).
Definition ex_top : expr := e_add (e_mul ex_x ex_x) ex_m1.
Definition ex_bot : expr := e_add ex_x ex_m1.

Lemma ex_top_re : rational_expr ex_top.
Proof. apply re_add; [apply re_mul; apply re_var|apply re_num, sn_of_i64_ok; reflexivity]. Qed.
Lemma ex_bot_re : rational_expr ex_bot.
Proof. apply re_add; [apply re_var|apply re_num, sn_of_i64_ok; reflexivity]. Qed.

Lemma ex_quotient_value rho t : t <> 1%R -> eval (upd rho "x" t) (e_div ex_top ex_bot) = Some (t + 1)%R.
Proof.
  intros N. unfold e_div, ex_top, ex_bot, e_add, e_mul, ex_x, ex_m1, e_of_i64, e_var, e_num. rewrite !eval_mk2.
  rewrite !eval_var, upd_same, eval_num, num_R_int. cbn [obind ev2].
  destruct (Req_EM_T (t + -1) 0) as [Z|Z]; [lra|]. f_equal. field. lra.
Qed.

Theorem c74_plugging_refuted :
  forall m ord fuel, m = Debug \/ m = Release -> 0 <= ord -> (4 <= fuel)%nat ->
  limit fuel m (e_div ex_top ex_bot) (e_var "x") e_one ord = Ok (ROk (Normal e_zero)) /\
  forall rho, filterlim (evalx rho "x" (e_div ex_top ex_bot)) (near 1) (locally 2%R).
Proof.
  intros m ord fuel Hm Ho L. split.
  - apply (c74_zero_over_zero m "x" e_one ex_top ex_bot e_zero e_zero ord fuel ex_top_re ex_bot_re);
      try assumption; try reflexivity;
      try (destruct Hm as [-> | ->]; vm_compute; reflexivity); try (apply wf_i64; reflexivity).
  - intros rho. apply (filterlim_ext_loc (fun t => t + 1)%R).
    + exists (mkposreal 1 Rlt_0_1). intros t _ N. unfold evalx. rewrite (ex_quotient_value rho t N). reflexivity.
    + replace 2%R with (1 + 1)%R by ring.
      apply (filterlim_comp_2 (F := near 1) (G := locally 1%R) (H := locally 1%R) (fun t => t) (fun _ => 1%R) Rplus).
      * apply near_id.
      * apply filterlim_const.
      * apply (filterlim_plus 1%R 1%R).
Qed.
Print Assumptions c74_plugging_refuted.

(** the hypotheses of c74_plugs_in are met, and there the answer is right: (x*x - 1)/(x - 1) at 3 is 4 *)
Example c74_example : exists z,
  limit 4 Release (e_div ex_top ex_bot) (e_var "x") (e_of_i64 3) 1 = Ok (ROk (Normal z)) /\
  forall rho, eval rho z = Some 4%R.
Proof.
  assert (exists z, num_aggregate Release (subst "x" (e_of_i64 3) (e_div ex_top ex_bot)) = Ok z) as [z E]
    by (eexists; vm_compute; reflexivity).
  exists z. split.
  - apply (c74_plugs_in Release "x" (e_of_i64 3) (e_div ex_top ex_bot) 1 4 (re_div _ _ ex_top_re ex_bot_re)
      (wf_i64 3 eq_refl)); try reflexivity; try lia; try (vm_compute; lia). exact E.
  - intros rho. vm_compute in E. injection E as <-. cbn [eval]. unfold num_R. cbn. f_equal.
    unfold Q2R. cbn. field.
Qed.
