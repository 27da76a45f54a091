(** * RealTaylor: Taylor coefficients and remainder *)
From Coq Require Import ZArith QArith List String Bool Lia Lra.
From Coq Require Import Reals Qreals.
From Coquelicot Require Import Coquelicot.
From Verif Require Import Base Float Rational SmartNum Ast Compute Spec SpecTree SpecR.
From Verif Require Import BaseProofs NumProofs NumProofs2 TreeProofs TreeProofs2 TreeProofs3 TreeProofs4 TreeProofs5 RealProofs RealDeriv RealDeriv2.
From Verif Require PropsTree.
Import ListNotations.
Open Scope R_scope.
Open Scope res_scope.

(** ** regular expressions are differentiable, and regularity is an open condition *)
Lemma dat_exists V rho x t0 e : wf e -> rgen V (fun b => ~ occurs x b) (upd rho x t0) e -> forall v,
  eval (upd rho x t0) e = Some v -> exists d, dat rho x e t0 d.
Proof.
  intros W. pattern e. revert e W. apply wf_ind1.
  - intros n _ _ v Hv. exists 0. apply dat_intro with (g := fun _ => v).
    + apply filter_forall. intros t. exact Hv.
    + apply (is_derive_const (K := R_AbsRing) (V := R_NormedModule)).
  - intros y _ v Hv. destruct (String.eqb_spec x y) as [<-|N].
    + exists 1. apply dat_intro with (g := fun t => t).
      * apply filter_forall. intros t. rewrite eval_var, upd_same. reflexivity.
      * apply (is_derive_id (K := R_AbsRing)).
    + exists 0. apply dat_intro with (g := fun _ => rho y).
      * apply filter_forall. intros t. rewrite eval_var, upd_other; auto.
      * apply (is_derive_const (K := R_AbsRing) (V := R_NormedModule)).
  - intros t a Ha Wa IH Hr v Hv. apply eval1_inv in Hv as (u & Hu & Hv).
    apply rgen_mk1 in Hr as [Hra _]. destruct (IH Hra _ Hu) as (dv & Hdat).
    eexists. exact (dat1 rho x t0 t a u v dv Ha Hu Hv Hdat).
  - intros t a b Ha Wa Wb IHa IHb Hr v Hv. apply eval2_some in Hv as (u & w & Hu & Hw & Hv).
    apply rgen_mk2 in Hr as (Hra & Hrb & Hp).
    destruct (IHa Hra _ Hu) as (dv & Hdat). destruct (IHb Hrb _ Hw) as (dw & Hdatw).
    assert (t = OPow -> u <> 0 /\ (0 < u \/ ~ occurs x b)) as Hp'.
    { intros E. destruct (Hp E) as (u' & Hu' & K1 & K2 & _). rewrite Hu in Hu'. injection Hu' as <-. auto. }
    eexists. exact (dat2 rho x t0 t a b u w v dv dw Ha Hu Hw Hv Hp' Hdat Hdatw).
Qed.

Lemma rgen_open V rho x t0 e : wf e -> rgen V (fun b => ~ occurs x b) (upd rho x t0) e -> 
  defined (upd rho x t0) e ->
  locally t0 (fun t => rgen V (fun b => ~ occurs x b) (upd rho x t) e).
Proof.
  intros W. pattern e. revert e W. apply wf_ind1.
  - intros n _ _ _. apply filter_forall. intros t. apply rgen_num.
  - intros y _ _. apply filter_forall. intros t. apply rgen_var.
  - intros t a Ha Wa IH Hr [v Hv]. apply eval1_inv in Hv as (u & Hu & Hv).
    apply rgen_mk1 in Hr as [Hra Hs].
    generalize (IH Hra (ex_intro _ u Hu)). apply filter_imp. intros s Hs'. apply rgen_mk1. auto.
  - intros t a b Ha Wa Wb IHa IHb Hr [v Hv]. apply eval2_some in Hv as (u & w & Hu & Hw & Hv).
    apply rgen_mk2 in Hr as (Hra & Hrb & Hp).
    assert (locally t0 (fun s => t = OPow -> pow_ok V (fun b => ~ occurs x b) (upd rho x s) a b)) as Hpo.
    { destruct (optype_eq_pow t) as [->|N]; [|apply filter_forall; intros s E; contradiction].
      destruct (Hp eq_refl) as (u' & Hu' & K1 & K2 & K3). rewrite Hu in Hu'. injection Hu' as <-.
      destruct (dat_exists V rho x t0 a Wa Hra u Hu) as (d & Hl & Hd).
      pose proof (evalx_at _ _ _ _ _ Hu) as Eu.
      assert (locally t0 (fun s => evalx rho x a s <> 0)) as L0.
      { apply (loc_neq _ _ d); [exact Hd|rewrite Eu; exact K1]. }
      assert (locally t0 (fun s => 0 < evalx rho x a s \/ ~ occurs x b)) as L1.
      { destruct K2 as [K2|K2]; [|apply filter_forall; auto].
        assert (0 < evalx rho x a t0) as K2' by (rewrite Eu; exact K2).
        generalize (loc_pos _ _ d Hd K2'). apply filter_imp. auto. }
      assert (locally t0 (fun s => (exists y, V y /\ a = e_var y) \/ (~ has_op OLn a /\ evalx rho x a s <> 1))) as L2.
      { destruct K3 as [K3|[K3 K4]]; [apply filter_forall; auto|].
        assert (evalx rho x a t0 <> 1) as K4' by (rewrite Eu; exact K4).
        generalize (loc_neq _ _ d 1 Hd K4'). apply filter_imp. auto. }
      generalize (filter_and _ _ Hl (filter_and _ _ L0 (filter_and _ _ L1 L2))). apply filter_imp.
      intros s (E1 & E2 & E3 & E4) _. exists (evalx rho x a s). auto. }
    generalize (filter_and _ _ (IHa Hra (ex_intro _ u Hu)) (filter_and _ _ (IHb Hrb (ex_intro _ w Hw)) Hpo)).
    apply filter_imp. intros s (E1 & E2 & E3). apply rgen_mk2. auto.
Qed.

(** ** iterated derivatives *)
Lemma deriv_n_snoc m x k : forall e z, deriv_n m x (S k) e = Ok z ->
  exists d, deriv_n m x k e = Ok d /\ deriv m x d = Ok z.
Proof.
  induction k as [|k IH]; intros e z H.
  - cbn [deriv_n] in H. inv_bind H. injection H as ->. exists e. auto.
  - change (deriv_n m x (S (S k)) e) with (let* d := deriv m x e in deriv_n m x (S k) d) in H.
    inv_bind H. destruct (IH _ _ H) as (d & H1 & H2). exists d. cbn [deriv_n]. rewrite Hb. auto.
Qed.

Lemma deriv_n_wf m x k : forall e z, wf e -> deriv_n m x k e = Ok z -> wf z.
Proof.
  induction k as [|k IH]; intros e z W H.
  - injection H as <-. exact W.
  - cbn [deriv_n] in H. inv_bind H. exact (IH _ _ (deriv_wf _ _ _ _ W Hb) H).
Qed.

Definition good V rho x e t := rgen V (fun b => ~ occurs x b) (upd rho x t) e /\ defined (upd rho x t) e.

Lemma good_open V rho x e t0 : wf e -> good V rho x e t0 -> locally t0 (good V rho x e).
Proof.
  intros W [Hr [v Hv]]. destruct (dat_exists V rho x t0 e W Hr v Hv) as (d & Hl & _).
  generalize (filter_and _ _ Hl (rgen_open V rho x t0 e W Hr (ex_intro _ v Hv))). apply filter_imp.
  intros s [E1 E2]. split; [exact E2|]. eexists. exact E1.
Qed.

Lemma deriv_n_correct V rho x e : wf e -> forall k d, deriv_n Strict x k e = Ok d ->
  forall t, good V rho x e t ->
    rgen V (fun b => ~ occurs x b) (upd rho x t) d /\
    eval (upd rho x t) d = Some (Derive_n (evalx rho x e) k t) /\
    ex_derive_n (evalx rho x e) k t.
Proof.
  intros W k. induction k as [|k IH]; intros d H t G.
  - injection H as <-. destruct G as [Hr [v Hv]]. split; [exact Hr|]. cbn [Derive_n].
    split; [|exact I]. unfold evalx. rewrite Hv. reflexivity.
  - apply deriv_n_snoc in H as (dk & H1 & H2). destruct (IH dk H1 t G) as (R1 & R2 & R3).
    pose proof (deriv_n_wf _ _ _ _ _ W H1) as Wk.
    destruct (deriv_correct V rho x t dk Wk R1 d _ H2 R2) as (v' & Hv' & Hl & Hd).
    assert (is_derive (Derive_n (evalx rho x e) k) t v') as HD.
    { eapply is_derive_ext_loc; [|exact Hd].
      generalize (good_open V rho x e t W G). apply filter_imp. intros s Gs.
      apply evalx_at. exact (proj1 (proj2 (IH dk H1 s Gs))). }
    split; [exact (deriv_rgen _ _ _ _ _ (stable_absent x) Wk R1 _ H2)|]. split.
    + rewrite Hv'. f_equal. cbn [Derive_n]. symmetry. exact (is_derive_unique _ _ _ HD).
    + cbn [ex_derive_n]. exists v'. exact HD.
Qed.

(** ** substituting the point *)
Lemma subst_has_pi x at_ e : wf e -> has_pi (subst x at_ e) -> has_pi e \/ has_pi at_.
Proof.
  intros W. pattern e. revert e W. apply wf_ind1.
  - intros n _ H. left. exact H.
  - intros y H. cbn [subst] in H. destruct (String.eqb y x); [right; exact H|left; exact H].
  - intros t a Ha Wa IH H. rewrite subst_mk1 in H. rewrite has_pi_mk1 in H. rewrite has_pi_mk1. auto.
  - intros t a b Ha Wa Wb IHa IHb H. rewrite subst_mk2 in H. rewrite has_pi_mk2 in H. rewrite has_pi_mk2.
    destruct H as [H|H]; [destruct (IHa H)|destruct (IHb H)]; auto.
Qed.
Lemma has_op_mk1 o t a : has_op o (mk1 t a) <-> o = t \/ has_op o a.
Proof.
  split.
  - intros (op & c & D & Hs). apply subterm_mk1 in Hs as [[= E1 E2]|Hs].
    + left. rewrite <- D, E1. apply descriptor_gen.
    + right. exists op, c. auto.
  - intros [->|(op & c & D & Hs)].
    + exists (gen_op t), [a]. split; [apply descriptor_gen|constructor].
    + exists op, c. split; [exact D|]. eapply subterm_trans; [exact Hs|apply sub_mk1].
Qed.
Lemma has_op_mk2 o t a b : has_op o (mk2 t a b) <-> o = t \/ has_op o a \/ has_op o b.
Proof.
  split.
  - intros (op & c & D & Hs). apply subterm_mk2 in Hs as [[= E1 E2]|[Hs|Hs]].
    + left. rewrite <- D, E1. apply descriptor_gen.
    + right. left. exists op, c. auto.
    + right. right. exists op, c. auto.
  - intros [->|[(op & c & D & Hs)|(op & c & D & Hs)]].
    + exists (gen_op t), [a; b]. split; [apply descriptor_gen|constructor].
    + exists op, c. split; [exact D|]. eapply subterm_trans; [exact Hs|apply sub_mk2_l].
    + exists op, c. split; [exact D|]. eapply subterm_trans; [exact Hs|apply sub_mk2_r].
Qed.
Lemma subst_has_op o x at_ e : wf e -> has_op o (subst x at_ e) -> has_op o e \/ has_op o at_.
Proof.
  intros W. pattern e. revert e W. apply wf_ind1.
  - intros n _ H. left. exact H.
  - intros y H. cbn [subst] in H. destruct (String.eqb y x); [right; exact H|left; exact H].
  - intros t a Ha Wa IH H. rewrite subst_mk1 in H. rewrite has_op_mk1 in *. tauto.
  - intros t a b Ha Wa Wb IHa IHb H. rewrite subst_mk2 in H. rewrite has_op_mk2 in *. tauto.
Qed.

Lemma subst_rgen Q rho x at_ a e : wf e -> eval rho at_ = Some a ->
  ~ has_op OLn at_ -> ~ has_pi at_ -> rgen (fun _ => True) (fun _ => True) rho at_ ->
  rgen (fun y => y <> x) Q (upd rho x a) e ->
  rgen (fun _ => True) (fun _ => True) rho (subst x at_ e).
Proof.
  intros W Ha Hln Hpi Hra. pattern e. revert e W. apply wf_ind1.
  - intros n _ _. apply rgen_num.
  - intros y _. cbn [subst]. destruct (String.eqb y x); [exact Hra|apply rgen_var].
  - intros t u Hu Wu IH Hr. rewrite subst_mk1. rewrite rgen_mk1 in Hr. destruct Hr as [Hr Hs].
    apply rgen_mk1. split; [auto|]. intros Ht Hp. apply subst_has_pi in Hp; [|exact Wu].
    destruct Hp as [Hp|Hp]; [exact (Hs Ht Hp)|exact (Hpi Hp)].
  - intros t u w Hu Wu Ww IHu IHw Hr. rewrite subst_mk2. rewrite rgen_mk2 in Hr. destruct Hr as (Hr1 & Hr2 & Hp).
    apply rgen_mk2. split; [auto|split; [auto|]]. intros Ht.
    destruct (Hp Ht) as (v & Hv & Hv0 & _ & K). exists v.
    rewrite (eval_subst rho x at_ a u Ha). refine (conj Hv (conj Hv0 (conj (or_intror I) _))).
    destruct K as [(y & Ny & ->)|[K1 K2]].
    + left. exists y. split; [exact I|]. cbn. apply String.eqb_neq in Ny. rewrite Ny. reflexivity.
    + right. split; [|exact K2]. intros Hl. apply subst_has_op in Hl; [|exact Wu]. tauto.
Qed.

(** ** coefficients *)
Definition tguard rho x at_ a e := rgen (fun y => y <> x) (fun b => ~ occurs x b) (upd rho x a) e /\
  ~ has_op OLn at_ /\ ~ has_pi at_ /\ rgen (fun _ => True) (fun _ => True) rho at_.
Lemma taylor_regular_tguard rho x at_ a e : taylor_regular rho x at_ a e -> tguard rho x at_ a e.
Proof.
  intros (H1 & H2 & H3 & H4 & H5). refine (conj (conj H1 H2) (conj H3 (conj H4 _))).
  apply regular_rgen in H5. revert H5. apply rgen_weaken; auto.
Qed.

Lemma taylor_coef rho x at_ a e d s ck k : wf e -> wf at_ -> eval rho at_ = Some a ->
  tguard rho x at_ a e -> defined (upd rho x a) e ->
  deriv_n Strict x k e = Ok d -> num_aggregate Strict (subst x at_ d) = Ok s -> (k <= 20)%nat ->
  num_aggregate Strict (e_div s (e_of_i64 (wrap_i64 (factZ k)))) = Ok ck ->
  eval rho ck = Some (Derive_n (evalx rho x e) k a / INR (fact k)).
Proof.
  intros We Wat Ha (Hr & Hln & Hpi & Hrat) Hdef Hd Hs Hk Hc.
  destruct (deriv_n_correct _ rho x e We k d Hd a (conj Hr Hdef)) as (Rd & Ed & _).
  pose proof (deriv_n_wf _ _ _ _ _ We Hd) as Wd.
  pose proof (subst_wf x at_ d Wd Wat) as Ws.
  pose proof (subst_rgen _ rho x at_ a d Wd Ha Hln Hpi Hrat Rd) as Rs.
  assert (eval rho (subst x at_ d) = Some (Derive_n (evalx rho x e) k a)) as Es.
  { rewrite (eval_subst rho x at_ a d Ha). exact Ed. }
  pose proof (agg_sound rho _ Ws (rgen_avoids _ _ _ _ Ws Rs) _ _ Hs Es) as Es'.
  pose proof (agg_rgen _ _ _ _ stable_any Ws Rs _ Hs) as Rs'.
  pose proof (agg_wf _ _ _ Ws Hs) as Ws'.
  rewrite (PropsTree.c31_factorial k Hk) in Hc.
  assert (in_i64 (factZ k) = true) as Hin.
  { rewrite <- (PropsTree.c31_factorial k Hk). apply wrap_in64. }
  assert (wf (e_div s (e_of_i64 (factZ k)))) as Wq.
  { apply wf_mk2; [reflexivity|exact Ws'|]. apply wf_num', sn_of_i64_ok. exact Hin. }
  refine (agg_sound rho _ Wq _ _ _ Hc _).
  - apply (rgen_avoids (fun _ => True) (fun _ => True) rho); [exact Wq|].
    apply rgen_mk2. split; [exact Rs'|]. split; [apply rgen_num|]. discriminate.
  - unfold e_div. rewrite eval_mk2, Es'. unfold e_of_i64, e_num. rewrite eval_num, num_R_int. cbn [obind ev2].
    unfold factZ. rewrite <- INR_IZR_INZ. destruct (Req_EM_T (INR (fact k)) 0) as [E|]; [|reflexivity].
    exfalso. exact (INR_fact_neq_0 k E).
Qed.

(** ** Lagrange remainder on both sides *)

Lemma taylor_lagrange_left (f : R -> R) n a y : y < a ->
  (forall t, y <= t <= a -> locally t (fun s => forall k, (k <= S n)%nat -> ex_derive_n f k s)) ->
  exists z, y < z < a /\
    f y = sum_f_R0 (fun m => (y - a) ^ m / INR (fact m) * Derive_n f m a) n
        + (y - a) ^ (S n) / INR (fact (S n)) * Derive_n f (S n) z.
Proof.
  intros Hya Hd. set (g := fun t => f (- t)).
  assert (forall t, - a <= t <= - y -> forall k, (k <= S n)%nat ->
    Derive_n g k t = (-1) ^ k * Derive_n f k (- t) /\ ex_derive_n g k t) as Hg.
  { intros t Ht k Hk. assert (locally (- t) (fun s => forall j, (j <= k)%nat -> ex_derive_n f j s)) as L.
    { assert (y <= - t <= a) as Ht' by lra. generalize (Hd _ Ht'). apply filter_imp.
      intros s Hs j Hj. apply Hs. lia. }
    split; [apply Derive_n_comp_opp; exact L|apply ex_derive_n_comp_opp; exact L]. }
  destruct (Taylor_Lagrange g n (- a) (- y) ltac:(lra)) as (z & Hz & E).
  { intros t Ht k Hk. exact (proj2 (Hg t Ht k Hk)). }
  exists (- z). split; [lra|].
  assert (g (- y) = f y) as Ey. { unfold g. rewrite Ropp_involutive. reflexivity. }
  rewrite <- Ey, E. 
  assert (forall m, (- y - - a) ^ m * (-1) ^ m = (y - a) ^ m) as Hpow.
  { intros m. rewrite <- Rpow_mult_distr. f_equal. ring. }
  f_equal.
  - apply sum_eq. intros i Hi. rewrite (proj1 (Hg (- a) ltac:(lra) i ltac:(lia))), Ropp_involutive.
    rewrite <- (Hpow i). field. apply INR_fact_neq_0.
  - rewrite (proj1 (Hg z ltac:(lra) (S n) ltac:(lia))). rewrite <- (Hpow (S n)).
    field. apply INR_fact_neq_0.
Qed.

Lemma taylor_lagrange (f : R -> R) n a y : y <> a ->
  (forall t, Rmin a y <= t <= Rmax a y -> locally t (fun s => forall k, (k <= S n)%nat -> ex_derive_n f k s)) ->
  exists z, Rmin a y < z < Rmax a y /\
    f y = sum_f_R0 (fun m => (y - a) ^ m / INR (fact m) * Derive_n f m a) n
        + (y - a) ^ (S n) / INR (fact (S n)) * Derive_n f (S n) z.
Proof.
  intros N H. destruct (Rlt_le_dec y a) as [L|L].
  - rewrite Rmin_right, Rmax_left in * by lra. apply taylor_lagrange_left; assumption.
  - rewrite Rmin_left, Rmax_right in * by lra. apply Taylor_Lagrange; [lra|].
    intros t Ht k Hk. exact (locally_singleton _ _ (H t Ht) k Hk).
Qed.
