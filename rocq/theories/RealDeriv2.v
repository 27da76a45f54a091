(** * RealDeriv2: derivative computes the mathematical derivative (main induction) *)
From Coq Require Import ZArith QArith List String Bool Lia Lra.
From Coq Require Import Reals Qreals.
From Coquelicot Require Import Coquelicot.
From Verif Require Import Base Float Rational SmartNum Ast Compute Spec SpecTree SpecR.
From Verif Require Import BaseProofs NumProofs NumProofs2 TreeProofs TreeProofs2 TreeProofs3 TreeProofs4 RealProofs RealDeriv.
Import ListNotations.
Open Scope R_scope.
Open Scope res_scope.

(** [e] is defined around [t0] and has derivative [d] there *)
Definition dat (rho : string -> R) (x : string) (e : expr) (t0 d : R) : Prop :=
  locally t0 (fun t => eval (upd rho x t) e = Some (evalx rho x e t)) /\
  is_derive (evalx rho x e) t0 d.

Lemma dat_intro rho x e t0 d (g : R -> R) :
  locally t0 (fun t => eval (upd rho x t) e = Some (g t)) -> is_derive g t0 d -> dat rho x e t0 d.
Proof.
  intros Hl Hd. assert (locally t0 (fun t => g t = evalx rho x e t)) as Hg.
  { eapply filter_imp; [|exact Hl]. cbn. intros t Ht. unfold evalx. rewrite Ht. reflexivity. }
  split.
  - eapply filter_imp; [|exact Hl]. cbn. intros t Ht. unfold evalx. rewrite Ht. reflexivity.
  - eapply is_derive_ext_loc; [exact Hg|exact Hd].
Qed.

Lemma evalx_at rho x e t0 v : eval (upd rho x t0) e = Some v -> evalx rho x e t0 = v.
Proof. unfold evalx. intros ->. reflexivity. Qed.

Lemma cont_of (g : R -> R) (t0 d : R) : is_derive g t0 d -> continuous g t0.
Proof. intros H. apply (ex_derive_continuous (K := R_AbsRing) (V := R_NormedModule) g t0). exists d. exact H. Qed.
Lemma loc_pos (g : R -> R) t0 d : is_derive g t0 d -> 0 < g t0 -> locally t0 (fun t => 0 < g t).
Proof.
  intros Hd Hp. apply (cont_of _ _ _ Hd (fun y => 0 < y)). exact (open_gt 0 (g t0) Hp).
Qed.
Lemma loc_neg (g : R -> R) t0 d : is_derive g t0 d -> g t0 < 0 -> locally t0 (fun t => g t < 0).
Proof. intros Hd Hp. apply (cont_of _ _ _ Hd (fun y => y < 0)). exact (open_lt 0 (g t0) Hp). Qed.
Lemma loc_neq (g : R -> R) t0 d c : is_derive g t0 d -> g t0 <> c -> locally t0 (fun t => g t <> c).
Proof. intros Hd Hp. apply (cont_of _ _ _ Hd (fun y => y <> c)). exact (open_neq c (g t0) Hp). Qed.

Lemma is_derive_eq (f : R -> R) (t0 d d' : R) : is_derive f t0 d -> d = d' -> is_derive f t0 d'.
Proof. intros H <-. exact H. Qed.

(** derivative of integer powers away from 0 *)
Lemma is_derive_powerRZ n u : u <> 0 ->
  is_derive (fun t => powerRZ t n) u (IZR n * powerRZ u n / u).
Proof.
  intros Hu. destruct n as [|p|p].
  - cbn. eapply is_derive_eq; [apply (is_derive_const (K := R_AbsRing) (V := R_NormedModule))|].
    cbn. unfold zero; cbn. field. assumption.
  - assert (exists k, Pos.to_nat p = S k) as [k Hk] by (exists (pred (Pos.to_nat p)); lia).
    cbn [powerRZ]. eapply is_derive_eq; [apply is_derive_pow; apply (is_derive_id (K := R_AbsRing))|].
    unfold one; cbn. rewrite Hk. cbn [pred pow].
    replace (IZR (Z.pos p)) with (INR (S k)) by (rewrite <- Hk, INR_IPR; reflexivity).
    change (1 * u ^ k) with (1 * u ^ k). field. assumption.
  - assert (exists k, Pos.to_nat p = S k) as [k Hk] by (exists (pred (Pos.to_nat p)); lia).
    cbn [powerRZ].
    eapply is_derive_eq; [apply is_derive_inv; [apply is_derive_pow; apply (is_derive_id (K := R_AbsRing))|]|].
    + apply pow_nonzero. assumption.
    + unfold one; cbn. rewrite Hk. cbn [pred pow].
      replace (IZR (Z.neg p)) with (- INR (S k)).
      2:{ rewrite <- Hk, INR_IPR. change (Z.neg p) with (- Z.pos p)%Z. rewrite opp_IZR. reflexivity. }
      pose proof (pow_nonzero u k Hu). field. auto.
Qed.

(** ** locality of powers *)
Lemma powR_pos a b : 0 < a -> powR a b = Some (Rpower a b).
Proof. intros H. unfold powR. destruct (Rlt_dec 0 a); [reflexivity|contradiction]. Qed.
Lemma powR_neg a b v : a < 0 -> powR a b = Some v -> b = IZR (Int_part b) /\ v = powerRZ a (Int_part b).
Proof.
  intros H. unfold powR. destruct (Rlt_dec 0 a); [lra|]. destruct (Req_EM_T a 0); [lra|].
  destruct (Req_EM_T b (IZR (Int_part b))); [|discriminate]. intros [= <-]. auto.
Qed.
Lemma powR_neg' a b : a < 0 -> b = IZR (Int_part b) -> powR a b = Some (powerRZ a (Int_part b)).
Proof.
  intros H Hb. unfold powR. destruct (Rlt_dec 0 a); [lra|]. destruct (Req_EM_T a 0); [lra|].
  destruct (Req_EM_T b (IZR (Int_part b))); [reflexivity|contradiction].
Qed.

Lemma eval_upd_absent rho x e t t' : ~ occurs x e -> eval (upd rho x t) e = eval (upd rho x t') e.
Proof.
  intros H. apply eval_ext. intros y Hy. unfold upd. destruct (String.eqb_spec y x) as [->|N]; [contradiction|reflexivity].
Qed.

(** ** one operator at a time: derivative of the value *)
Lemma dat1 rho x t0 t a u v da : arity t = 1%nat -> eval (upd rho x t0) a = Some u ->
  ev1 t u = Some v -> dat rho x a t0 da ->
  dat rho x (mk1 t a) t0
    (match t with ONeg => - da | OSin => cos u * da | OCos => - sin u * da | OExp => da * exp u
     | _ => da / u end).
Proof.
  intros Ht Hu Hv [Hl Hd]. pose proof (evalx_at _ _ _ _ _ Hu) as Eu.
  set (g := evalx rho x a) in *.
  assert (forall f : R -> R, locally t0 (fun t' => ev1 t (g t') = Some (f (g t'))) ->
    forall d, is_derive (fun s => f (g s)) t0 d -> dat rho x (mk1 t a) t0 d) as K.
  { intros f Hf d Hd'. apply dat_intro with (g := fun s => f (g s)); [|exact Hd'].
    generalize (filter_and _ _ Hl Hf). apply filter_imp. intros s [H1 H2]. rewrite eval_mk1, H1. exact H2. }
  destruct t; try discriminate.
  - apply (K Ropp); [apply filter_forall; reflexivity|]. exact (is_derive_opp g t0 da Hd).
  - apply (K sin); [apply filter_forall; reflexivity|].
    eapply is_derive_eq; [apply is_derive_comp; [apply is_derive_sin|exact Hd]|].
    unfold scal; cbn. unfold mult; cbn. rewrite Eu. ring.
  - apply (K cos); [apply filter_forall; reflexivity|].
    eapply is_derive_eq; [apply is_derive_comp; [apply is_derive_cos|exact Hd]|].
    unfold scal; cbn. unfold mult; cbn. rewrite Eu. ring.
  - apply (K exp); [apply filter_forall; reflexivity|].
    eapply is_derive_eq; [apply is_derive_comp; [apply is_derive_exp|exact Hd]|].
    unfold scal; cbn. unfold mult; cbn. rewrite Eu. ring.
  - cbn in Hv. destruct (Rlt_dec 0 u) as [Hp|]; [|discriminate]. apply (K ln).
    + assert (0 < g t0) as Hp' by (rewrite Eu; exact Hp).
      generalize (loc_pos g t0 da Hd Hp'). apply filter_imp. intros s Hs. cbn.
      destruct (Rlt_dec 0 (g s)); [reflexivity|contradiction].
    + eapply is_derive_eq; [apply is_derive_comp; [apply is_derive_ln; rewrite Eu; exact Hp|exact Hd]|].
      unfold scal; cbn. unfold mult; cbn. rewrite Eu. reflexivity.
Qed.

Lemma dat2 rho x t0 t a b u w v da db : arity t = 2%nat ->
  eval (upd rho x t0) a = Some u -> eval (upd rho x t0) b = Some w -> ev2 t u w = Some v ->
  (t = OPow -> u <> 0 /\ (0 < u \/ ~ occurs x b)) ->
  dat rho x a t0 da -> dat rho x b t0 db ->
  dat rho x (mk2 t a b) t0
    (match t with OAdd => da + db | OSub => da - db | OMul => da * w + u * db
     | ODiv => (da * w - u * db) / (w * w)
     | _ => v * ((if Rlt_dec 0 u then db * ln u else 0) + w * da / u) end).
Proof.
  intros Ht Hu Hw Hv Hpow [Hla Hda] [Hlb Hdb].
  pose proof (evalx_at _ _ _ _ _ Hu) as Eu. pose proof (evalx_at _ _ _ _ _ Hw) as Ew.
  set (ga := evalx rho x a) in *. set (gb := evalx rho x b) in *.
  assert (forall f : R -> R, locally t0 (fun s => ev2 t (ga s) (gb s) = Some (f s)) ->
    forall d, is_derive f t0 d -> dat rho x (mk2 t a b) t0 d) as K.
  { intros f Hf d Hd'. apply dat_intro with (g := f); [|exact Hd'].
    generalize (filter_and _ _ Hla (filter_and _ _ Hlb Hf)). apply filter_imp.
    intros s (H1 & H2 & H3). rewrite eval_mk2, H1, H2. exact H3. }
  destruct t; try discriminate.
  - apply (K (fun s => ga s + gb s)); [apply filter_forall; reflexivity|].
    exact (is_derive_plus ga gb t0 da db Hda Hdb).
  - apply (K (fun s => ga s - gb s)); [apply filter_forall; reflexivity|].
    exact (is_derive_minus ga gb t0 da db Hda Hdb).
  - apply (K (fun s => ga s * gb s)); [apply filter_forall; reflexivity|].
    eapply is_derive_eq; [exact (Derive.is_derive_mult ga gb t0 da db Hda Hdb)|]. rewrite Eu, Ew. reflexivity.
  - apply ev2_div in Hv as [Hw0 ->].
    assert (gb t0 <> 0) as Hw0' by (rewrite Ew; exact Hw0).
    apply (K (fun s => ga s / gb s)).
    + generalize (loc_neq gb t0 db 0 Hdb Hw0'). apply filter_imp. intros s Hs. cbn.
      destruct (Req_EM_T (gb s) 0); [contradiction|reflexivity].
    + eapply is_derive_eq; [exact (is_derive_div ga gb t0 da db Hda Hdb Hw0')|].
      rewrite Eu, Ew. field. assumption.
  - destruct (Hpow eq_refl) as [Hu0 Hx]. cbn [ev2] in Hv.
    destruct (Rlt_dec 0 u) as [Hp|Hn].
    + rewrite powR_pos in Hv by assumption. injection Hv as <-.
      assert (0 < ga t0) as Hp' by (rewrite Eu; exact Hp).
      apply (K (fun s => Rpower (ga s) (gb s))).
      * generalize (loc_pos ga t0 da Hda Hp'). apply filter_imp. intros s Hs. apply powR_pos. exact Hs.
      * unfold Rpower.
        eapply is_derive_eq.
        { apply is_derive_comp; [apply is_derive_exp|].
          apply Derive.is_derive_mult; [exact Hdb|].
          apply is_derive_comp; [apply is_derive_ln; exact Hp'|exact Hda]. }
        unfold scal; cbn. unfold mult; cbn. rewrite Eu, Ew. field. lra.
    + assert (u < 0) as Hneg by lra. destruct Hx as [Hx|Hx]; [lra|].
      destruct (powR_neg _ _ _ Hneg Hv) as [Hi ->]. set (n := Int_part w) in *.
      assert (ga t0 < 0) as Hneg' by (rewrite Eu; exact Hneg).
      assert (forall s, gb s = w) as Hc.
      { intros s. unfold gb, evalx. rewrite (eval_upd_absent rho x b s t0 Hx), Hw. reflexivity. }
      apply (K (fun s => powerRZ (ga s) n)).
      * generalize (loc_neg ga t0 da Hda Hneg'). apply filter_imp. intros s Hs.
        cbn [ev2]. rewrite Hc. apply powR_neg'; assumption.
      * eapply is_derive_eq.
        { apply (is_derive_comp (fun y => powerRZ y n) ga t0 (IZR n * powerRZ (ga t0) n / ga t0) da); [|exact Hda].
          apply is_derive_powerRZ. rewrite Eu. assumption. }
        unfold scal; cbn. unfold mult; cbn. rewrite Eu, <- Hi. field. assumption.
Qed.

(** ** evaluating the raw derivative *)
Lemma eval_raw1 rho t a da u v d : arity t = 1%nat -> eval rho a = Some u -> ev1 t u = Some v ->
  eval rho da = Some d ->
  eval rho (raw1 t a da) = Some
    (match t with ONeg => - d | OSin => cos u * d | OCos => - sin u * d | OExp => d * exp u
     | _ => d / u end).
Proof.
  intros Ht Hu Hv Hd.
  destruct t; try discriminate; cbn [raw1]; unfold e_neg, e_mul, e_cos, e_sin, e_exp, e_div;
    repeat (rewrite eval_mk1 || rewrite eval_mk2); rewrite ?Hu, ?Hd; cbn; try reflexivity.
  cbn in Hv. destruct (Rlt_dec 0 u) as [Hp|]; [|discriminate].
  destruct (Req_EM_T u 0); [lra|reflexivity].
Qed.

(** the raw derivative, with the logarithm dropped from the power rule *)
Definition raw2' (t : optype) (u v du dv : expr) : expr :=
  match t with
  | OPow => e_mul (e_pow u v) (e_add e_zero (e_div (e_mul v du) u))
  | _ => raw2 t u v du dv
  end.

Lemma eval_raw2 rho t a b da db u w v d d' : arity t = 2%nat ->
  eval rho a = Some u -> eval rho b = Some w -> ev2 t u w = Some v ->
  (t = OPow -> 0 < u) ->
  eval rho da = Some d -> eval rho db = Some d' ->
  eval rho (raw2 t a b da db) = Some
    (match t with OAdd => d + d' | OSub => d - d' | OMul => d * w + u * d'
     | ODiv => (d * w - u * d') / (w * w)
     | _ => v * ((if Rlt_dec 0 u then d' * ln u else 0) + w * d / u) end).
Proof.
  intros Ht Hu Hw Hv Hp Hd Hd'.
  destruct t; try discriminate; cbn [raw2]; unfold e_add, e_sub, e_mul, e_div, e_pow, e_ln;
    repeat (rewrite eval_mk1 || rewrite eval_mk2); rewrite ?Hu, ?Hw, ?Hd, ?Hd'; cbn [obind ev1 ev2]; try reflexivity.
  - apply ev2_div in Hv as [Hw0 _]. destruct (Req_EM_T (w * w) 0) as [E|]; [|reflexivity].
    apply Rmult_integral in E. tauto.
  - cbn [ev2] in Hv. rewrite Hv. cbn [obind]. pose proof (Hp eq_refl) as Hp'.
    destruct (Rlt_dec 0 u); [|lra]. cbn [obind]. destruct (Req_EM_T u 0); [lra|]. reflexivity.
Qed.

Lemma eval_raw2_neg rho a b da db u w v d : u < 0 ->
  eval rho a = Some u -> eval rho b = Some w -> ev2 OPow u w = Some v -> eval rho da = Some d ->
  eval rho (raw2' OPow a b da db) = Some (v * (0 + w * d / u)).
Proof.
  intros Hn Hu Hw Hv Hd. cbn [raw2']. unfold e_add, e_sub, e_mul, e_div, e_pow, e_ln.
  repeat (rewrite eval_mk1 || rewrite eval_mk2). rewrite Hu, Hw, Hd, eval_zero. cbn [obind].
  rewrite Hv. cbn [obind ev2]. destruct (Req_EM_T u 0); [lra|]. reflexivity.
Qed.

Lemma agg_raw2' m a b da z : num_aggregate m (raw2 OPow a b da e_zero) = Ok z ->
  num_aggregate m (raw2' OPow a b da e_zero) = Ok z.
Proof.
  cbn [raw2 raw2']. unfold e_mul, e_add. intros H.
  destruct (agg2_children m OMul _ _ _ eq_refl H) as (x1 & x2 & H1 & H2).
  destruct (agg2_children m OAdd _ _ _ eq_refl H2) as (y1 & y2 & K1 & K2).
  pose proof (mul_zero_l _ _ _ K1) as ->.
  rewrite (agg_mk2 m OMul) in H by reflexivity. rewrite H2, H1 in H.
  rewrite (agg_mk2 m OAdd) in H2 by reflexivity. rewrite K1, K2 in H2.
  rewrite (agg_mk2 m OMul) by reflexivity. rewrite (agg_mk2 m OAdd) by reflexivity.
  rewrite K2, agg_zero. cbn [bind] in *. rewrite H2, H1. exact H.
Qed.

Lemma optype_eq_pow t : t = OPow \/ t <> OPow.
Proof. destruct t; auto; right; discriminate. Qed.

(** ** the main induction *)
Theorem deriv_correct V rho x t0 e : wf e -> rgen V (fun b => ~ occurs x b) (upd rho x t0) e -> forall d v,
  deriv Strict x e = Ok d -> eval (upd rho x t0) e = Some v ->
  exists v', eval (upd rho x t0) d = Some v' /\ dat rho x e t0 v'.
Proof.
  intros W. pattern e. revert e W. apply wf_ind1.
  - intros n _ _ d v [= <-] Hv. exists 0. split; [apply eval_zero|].
    apply dat_intro with (g := fun _ => v).
    + apply filter_forall. intros t. exact Hv.
    + apply (is_derive_const (K := R_AbsRing) (V := R_NormedModule)).
  - intros y _ d v. rewrite deriv_var. intros [= <-] Hv. destruct (String.eqb_spec x y) as [<-|N].
    + exists 1. split; [apply eval_one|]. apply dat_intro with (g := fun t => t).
      * apply filter_forall. intros t. rewrite eval_var, upd_same. reflexivity.
      * apply (is_derive_id (K := R_AbsRing)).
    + exists 0. split; [apply eval_zero|]. apply dat_intro with (g := fun _ => rho y).
      * apply filter_forall. intros t. rewrite eval_var, upd_other; auto.
      * apply (is_derive_const (K := R_AbsRing) (V := R_NormedModule)).
  - intros t a Ha Wa IH Hr d v H Hv. rewrite deriv_mk1 in H by assumption. inv_bind H.
    rename a0 into da. apply eval1_inv in Hv as (u & Hu & Hv).
    pose proof Hr as Hr'. apply rgen_mk1 in Hr' as [Hra _].
    destruct (IH Hra _ _ Hb Hu) as (dv & Hdv & Hdat).
    eexists. split; [|exact (dat1 rho x t0 t a u v dv Ha Hu Hv Hdat)].
    pose proof (deriv_wf _ _ _ _ Wa Hb) as Wda.
    pose proof (raw1_wf t a da Ha Wa Wda) as Wr.
    refine (agg_sound _ _ Wr _ _ _ H (eval_raw1 _ _ _ _ _ _ _ Ha Hu Hv Hdv)).
    apply (rgen_avoids V (fun b => ~ occurs x b) (upd rho x t0)); [assumption|].
    apply raw1_rgen; try assumption. exact (deriv_rgen _ _ _ _ _ (stable_absent x) Wa Hra _ Hb).
  - intros t a b Ha Wa Wb IHa IHb Hr d v H Hv. rewrite deriv_mk2 in H by assumption. do 2 inv_bind H.
    rename a0 into db, a1 into da. apply eval2_some in Hv as (u & w & Hu & Hw & Hv).
    pose proof Hr as Hr'. apply rgen_mk2 in Hr' as (Hra & Hrb & Hp).
    destruct (IHa Hra _ _ Hb0 Hu) as (dv & Hdv & Hdat).
    destruct (IHb Hrb _ _ Hb Hw) as (dw & Hdw & Hdatw).
    assert (t = OPow -> u <> 0 /\ (0 < u \/ ~ occurs x b)) as Hp'.
    { intros E. destruct (Hp E) as (u' & Hu' & K1 & K2 & _). rewrite Hu in Hu'. injection Hu' as <-. auto. }
    eexists. split; [|exact (dat2 rho x t0 t a b u w v dv dw Ha Hu Hw Hv Hp' Hdat Hdatw)].
    pose proof (deriv_wf _ _ _ _ Wa Hb0) as Wda. pose proof (deriv_wf _ _ _ _ Wb Hb) as Wdb.
    pose proof (deriv_rgen _ _ _ _ _ (stable_absent x) Wa Hra _ Hb0) as Rda. pose proof (deriv_rgen _ _ _ _ _ (stable_absent x) Wb Hrb _ Hb) as Rdb.
    destruct (optype_eq_pow t) as [->|Np].
    + destruct (Hp' eq_refl) as [Hu0 Hx]. destruct (Rlt_dec 0 u) as [Hpos|Hn].
      * pose proof (eval_raw2 (upd rho x t0) OPow a b da db u w v dv dw Ha Hu Hw Hv (fun _ => Hpos) Hdv Hdw) as He.
        cbn iota in He. destruct (Rlt_dec 0 u); [|contradiction].
        refine (agg_sound _ _ (raw2_wf OPow a b da db Ha Wa Wb Wda Wdb) _ _ _ H He).
        apply (rgen_avoids V (fun b => ~ occurs x b) (upd rho x t0)); [apply raw2_wf; assumption|apply raw2_rgen; assumption].
      * destruct Hx as [Hx|Hx]; [contradiction|]. assert (u < 0) as Hneg by lra.
        pose proof (deriv_absent _ _ _ Wb Hx _ Hb) as ->.
        apply agg_raw2' in H.
        pose proof (eval_raw2_neg (upd rho x t0) a b da e_zero u w v dv Hneg Hu Hw Hv Hdv) as He.
        refine (agg_sound _ _ _ _ _ _ H He).
        -- cbn [raw2']. unfold e_mul, e_pow, e_add, e_div. repeat first [assumption|apply wf_zero|apply wf_mk2; [reflexivity| |]].
        -- apply (rgen_avoids V (fun b => ~ occurs x b) (upd rho x t0)).
           ++ cbn [raw2']. unfold e_mul, e_pow, e_add, e_div. repeat first [assumption|apply wf_zero|apply wf_mk2; [reflexivity| |]].
           ++ cbn [raw2']. unfold e_mul, e_pow, e_add, e_div. reg.
    + assert (t = OPow -> 0 < u) as F by (intros; contradiction).
      pose proof (eval_raw2 (upd rho x t0) t a b da db u w v dv dw Ha Hu Hw Hv F Hdv Hdw) as He.
      refine (agg_sound _ _ (raw2_wf t a b da db Ha Wa Wb Wda Wdb) _ _ _ H He).
      apply (rgen_avoids V (fun b => ~ occurs x b) (upd rho x t0)); [apply raw2_wf; assumption|apply raw2_rgen; assumption].
Qed.
