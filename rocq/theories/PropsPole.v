(** * PropsPole: limits at points where the expression has no value (C74) *)
From Coq Require Import ZArith List String Bool Lia.
From Coq Require Import Reals Lra.
From Coquelicot Require Import Coquelicot.
From Verif Require Import Base Float Rational SmartNum Ast Compute Limit Spec SpecTree SpecShape SpecR SpecLim SpecPlug SpecUndef.
From Verif Require Import BaseProofs RationalProofs NumProofs NumProofs2 TreeProofs TreeProofs2 TreeProofs3 TreeProofs4
  ShapeProofs RealProofs LimProofs LHopital.
From Verif Require Import PropsTree PropsReal PropsLim PropsPlug PropsUndef.
Import List ListNotations.
Open Scope string_scope.
Open Scope Z_scope.

(** For a rational expression at a simplified point other than a literal 0: the answer of
    [limit] has exactly the value the expression has at the point, and none where the
    expression has none (in particular it is never [Infinity]). *)
Theorem c74_answer_has_value rho x to a e ord fuel z :
  rational_expr e -> wf to -> is_zero to = false -> num_aggregate Strict to = Ok to -> 0 <= ord -> (depth e <= fuel)%nat ->
  eval rho to = Some a ->
  avoids_bad_rules (subst x to e) -> keeps_domain rho (subst x to e) ->
  num_aggregate Strict (subst x to e) = Ok z ->
  limit fuel Strict e (e_var x) to ord = Ok (ROk (Normal z)) /\ eval rho z = eval (upd rho x a) e.
Proof.
  intros He Wt Zt Ft Ho L Ha Hg Hk H. split.
  - exact (proj1 (c74_plugs_in Strict x to e ord fuel He Wt Zt Ft Ho L) z H).
  - rewrite (c22_same_domain rho _ z (subst_wf x to e (re_wf e He) Wt) Hg Hk H). apply eval_subst. exact Ha.
Qed.
Print Assumptions c74_answer_has_value.

(** 1 / (x + (-c)) *)
Definition pole (x : string) (c : Z) : expr := e_div e_one (e_add (e_var x) (e_of_i64 (- c))).

Lemma sum_zero m c : m = Debug \/ m = Release -> - 2 ^ 63 < c < 2 ^ 63 -> c <> 0 ->
  sn_add m (sn_of_i64 c) (sn_of_i64 (- c)) = Ok sn_zero.
Proof.
  intros Hm Hc Nz.
  assert (in_i64 c = true /\ in_i64 (- c) = true) as [I1 I2] by (split; apply in_i64_iff; unfold two63; lia).
  unfold sn_add. rewrite !is_zero_val by (apply sn_of_i64_ok; assumption).
  assert (forall k, nval (sn_of_i64 k) = Integer k) as V by reflexivity. rewrite !V. cbn [val_is_zero].
  destruct (Z.eqb_spec c 0); [lia|]. destruct (Z.eqb_spec (- c) 0); [lia|].
  assert (forall b r, guard m b r = r) as G by (destruct Hm as [-> | ->]; reflexivity). rewrite G.
  cbn [val_add]. replace (c + - c) with 0 by lia.
  unfold i64_add. replace (c + - c) with 0 by lia. destruct Hm as [-> | ->]; reflexivity.
Qed.

Theorem c74_every_pole_refuted m x c ord fuel : m = Debug \/ m = Release -> - 2 ^ 63 < c < 2 ^ 63 -> c <> 0 ->
  0 <= ord -> (3 <= fuel)%nat ->
  (exists n, limit fuel m (pole x c) (e_var x) (e_of_i64 c) ord = Ok (ROk (Normal (e_num n))) /\ num_R n = None) /\
  forall rho, filterlim (fun t => Rabs (evalx rho x (pole x c) t)) (near (IZR c)) (Rbar_locally p_infty).
Proof.
  intros Hm Hc Nz Ho L.
  assert (in_i64 c = true /\ in_i64 (- c) = true) as [I1 I2] by (split; apply in_i64_iff; unfold two63; lia).
  split.
  - assert (rational_expr (pole x c)) as He.
    { apply re_div; [apply (re_num sn_one), sn_of_i64_ok; reflexivity|].
      apply re_add; [apply re_var|apply re_num, sn_of_i64_ok; exact I2]. }
    assert (is_zero (e_of_i64 c) = false) as Zc.
    { change (sn_is_zero (sn_of_i64 c) = false). rewrite is_zero_val by (apply sn_of_i64_ok; assumption).
      apply Z.eqb_neq. exact Nz. }
    destruct (c74_plugs_in m x (e_of_i64 c) (pole x c) ord fuel He (wf_i64 c I1) Zc eq_refl Ho L) as [P _].
    assert (exists n, sn_div m sn_one sn_zero = Ok n /\ num_R n = None) as (n & D & U).
    { destruct Hm as [-> | ->]; eexists; (split; [vm_compute; reflexivity|reflexivity]). }
    exists n. split; [apply P|exact U].
    unfold pole, e_div, e_add, e_var. rewrite !subst_mk2. cbn [subst]. rewrite String.eqb_refl.
    rewrite agg_mk2, agg_mk2 by reflexivity.
    change (subst x (e_of_i64 c) (e_of_i64 (- c))) with (e_of_i64 (- c)).
    change (subst x (e_of_i64 c) e_one) with e_one.
    change (num_aggregate m (e_of_i64 c)) with (Ok (e_of_i64 c)).
    change (num_aggregate m (e_of_i64 (- c))) with (Ok (e_of_i64 (- c))).
    change (num_aggregate m e_one) with (Ok e_one). cbn [bind eval_rule].
    change (add_eval_rule m [Ok (e_of_i64 c); Ok (e_of_i64 (- c))])
      with (let* v := sn_add m (sn_of_i64 c) (sn_of_i64 (- c)) in Ok (e_num v))%res.
    rewrite (sum_zero m c Hm Hc Nz). cbn [bind].
    change (div_eval_rule m [Ok e_one; Ok (e_num sn_zero)]) with (let* v := sn_div m sn_one sn_zero in Ok (e_num v))%res.
    rewrite D. reflexivity.
  - intros rho. apply (filterlim_ext_loc (fun t => Rabs (/ (t - IZR c)))%R).
    + exists (mkposreal 1 Rlt_0_1). intros t _ N. unfold evalx, pole, e_div, e_add.
      rewrite !eval_mk2, eval_one. unfold e_var, e_of_i64, e_num. rewrite eval_var, eval_num, num_R_int, upd_same.
      cbn [obind ev2]. rewrite opp_IZR. destruct (Req_EM_T (t + - IZR c) 0) as [E|E]; [exfalso; apply N; lra|].
      f_equal. unfold Rdiv. rewrite Rmult_1_l. reflexivity.
    + apply (inv_big (near (IZR c)) (fun t => t - IZR c)%R).
      * replace 0%R with (IZR c - IZR c)%R by ring.
        apply (filterlim_comp_2 (F := near (IZR c)) (G := locally (IZR c)) (H := locally (- IZR c)%R) (fun t => t) (fun _ => (- IZR c)%R) Rplus).
        -- apply near_id.
        -- apply filterlim_const.
        -- apply (filterlim_plus (K := R_AbsRing) (V := R_NormedModule) (IZR c) (- IZR c)%R).
      * unfold near, locally', within. apply filter_forall. intros t N E. apply N. lra.
Qed.
Print Assumptions c74_every_pole_refuted.

(** *** the hypotheses of c74_answer_has_value are met by a pole: 1/(x + (-2)) at 2, no value *)
(** *** the hypotheses of c74_answer_has_value are met by a pole: 1/(x + (-2)) at 2, no value *)
Lemma pole2_sub s : subterm s (subst "x" (e_of_i64 2) (pole "x" 2)) ->
  In s [e_div e_one (e_add (e_of_i64 2) (e_of_i64 (-2))); e_one; e_add (e_of_i64 2) (e_of_i64 (-2)); e_of_i64 2; e_of_i64 (-2)].
Proof.
  change (subst "x" (e_of_i64 2) (pole "x" 2)) with (e_div e_one (e_add (e_of_i64 2) (e_of_i64 (-2)))).
  intros H. unfold e_div in H. apply subterm_mk2 in H as [->|[H|H]].
  - left; reflexivity.
  - apply sub_leaf in H. subst s. right; left; reflexivity.
  - unfold e_add in H. apply subterm_mk2 in H as [->|[H|H]]; [do 2 right; left; reflexivity| |];
      apply sub_leaf in H; subst s; [do 3 right; left; reflexivity|do 4 right; left; reflexivity].
Qed.

Example c74_answer_example rho :
  let e := pole "x" 2 in let to := e_of_i64 2 in
  rational_expr e /\ wf to /\ is_zero to = false /\ num_aggregate Strict to = Ok to /\ (depth e <= 3)%nat /\
  eval rho to = Some 2%R /\ avoids_bad_rules (subst "x" to e) /\ keeps_domain rho (subst "x" to e) /\
  exists z, num_aggregate Strict (subst "x" to e) = Ok z /\ eval (upd rho "x" 2) e = None.
Proof.
  intros e to. split.
  { apply re_div; [apply (re_num sn_one), sn_of_i64_ok; reflexivity|].
    apply re_add; [apply re_var|apply re_num, sn_of_i64_ok; reflexivity]. }
  split; [apply wf_i64; reflexivity|]. split; [reflexivity|]. split; [reflexivity|]. split; [vm_compute; lia|].
  split; [unfold to, e_of_i64, e_num; rewrite eval_num, num_R_int; reflexivity|].
  split.
  { split.
    - intros a b a' H. exfalso. apply pole2_sub in H. cbn [In] in H. decompose [or] H; try contradiction; discriminate.
    - intros a a' H. exfalso. apply pole2_sub in H. cbn [In] in H. decompose [or] H; try contradiction; discriminate. }
  split.
  { split; [|split].
    - intros a b H. exfalso. apply pole2_sub in H. cbn [In] in H. decompose [or] H; try contradiction; discriminate.
    - intros a b H. assert (a = e_one /\ b = e_add (e_of_i64 2) (e_of_i64 (-2))) as [-> ->].
      { apply pole2_sub in H. cbn [In] in H. destruct H as [H|[H|[H|[H|[H|[]]]]]]; try discriminate H. injection H as <- <-. split; reflexivity. }
      split.
      + intros (z & B & Z). vm_compute in B. injection B as <-. vm_compute in Z. discriminate Z.
      + intros _. exists (2 + IZR (-2))%R. unfold e_add. rewrite eval_mk2. unfold e_of_i64, e_num. rewrite !eval_num, !num_R_int. reflexivity.
    - intros a u H. exfalso. apply pole2_sub in H. cbn [In] in H. decompose [or] H; try contradiction; discriminate. }
  eexists. split; [vm_compute; reflexivity|].
  unfold e, pole, e_div, e_add. rewrite !eval_mk2, eval_one. unfold e_var, e_of_i64, e_num. rewrite eval_var, eval_num, num_R_int, upd_same.
  cbn [obind ev2]. destruct (Req_EM_T (2 + IZR (- (2))) 0) as [E|E]; [reflexivity|exfalso; apply E; rewrite opp_IZR; lra].
Qed.
