(** * MixedProofs: mixed partial derivatives *)
From Coq Require Import ZArith QArith List String Bool Lia Lra.
From Coq Require Import Reals Qreals.
From Coquelicot Require Import Coquelicot.
From Verif Require Import Base Float Rational SmartNum Ast Compute Spec SpecTree SpecR.
From Verif Require Import BaseProofs NumProofs NumProofs2 TreeProofs TreeProofs2 TreeProofs3 TreeProofs4.
From Verif Require Import RealProofs RealDeriv RealDeriv2 RealTaylor ContProofs.
Import ListNotations.
Open Scope R_scope.

Lemma upd_comm rho x y u v : x <> y -> forall z, upd (upd rho x u) y v z = upd (upd rho y v) x u z.
Proof.
  intros N z. unfold upd. destruct (String.eqb_spec z y), (String.eqb_spec z x); congruence.
Qed.

Section Mixed.
  Variables (rho : string -> R) (x y : string).
  Hypothesis N : x <> y.
  Definition sg (p : R * R) : string -> R := upd (upd rho x (fst p)) y (snd p).
  Definition Qxy (b : expr) : Prop := ~ occurs x b /\ ~ occurs y b.
  Definition TT (_ : string) : Prop := True.
  Definition vv (e : expr) (p : R * R) : R := val0 (eval (sg p) e).
  Definition G (e : expr) (p : R * R) : Prop := rgen TT Qxy (sg p) e /\ defined (sg p) e.

  Lemma Qxy_stable : agg_stable Qxy.
  Proof.
    intros b b' [H1 H2] E. split; [exact (stable_absent x b b' H1 E)|exact (stable_absent y b b' H2 E)].
  Qed.

  Lemma sg_var (p : R * R) z : filterlim (fun s : R * R => sg s z) (locally p) (locally (sg p z)).
  Proof.
    unfold sg, upd. destruct (String.eqb z y); [|destruct (String.eqb z x)].
    - destruct p as [a b]. exact (continuous_snd a b).
    - destruct p as [a b]. exact (continuous_fst a b).
    - apply filterlim_const.
  Qed.
  Lemma sg_Q (p : R * R) b : Qxy b -> locally p (fun s : R * R => eval (sg s) b = eval (sg p) b).
  Proof.
    intros [H1 H2]. apply filter_forall. intros s. apply eval_ext. intros z Hz. unfold sg, upd.
    destruct (String.eqb_spec z y); [subst; contradiction|]. destruct (String.eqb_spec z x); [subst; contradiction|reflexivity].
  Qed.

  Lemma G_open e p : wf e -> G e p -> locally p (G e).
  Proof.
    intros W [Hr [v Hv]].
    destruct (tends_eval (locally p) sg (sg p) (sg_var p) TT Qxy (sg_Q p) e W Hr v Hv) as [D _].
    generalize (filter_and _ _ D (rgen_along (locally p) sg (sg p) (sg_var p) TT Qxy (sg_Q p) e W Hr (ex_intro _ v Hv))).
    apply filter_imp. intros s [E1 E2]. split; [exact E2|]. eexists. exact E1.
  Qed.
  Lemma vv_cont e p : wf e -> G e p -> continuous (vv e) p.
  Proof.
    intros W [Hr [v Hv]]. unfold continuous.
    destruct (tends_eval (locally p) sg (sg p) (sg_var p) TT Qxy (sg_Q p) e W Hr v Hv) as [_ L].
    unfold vv at 2. rewrite Hv. exact L.
  Qed.
  Lemma G_deriv e d z p : wf e -> G e p -> (z = x \/ z = y) -> deriv Strict z e = Ok d ->
    G d p /\ (z = x -> is_derive (fun t => vv e (t, snd p)) (fst p) (vv d p)) /\
    (z = y -> is_derive (fun t => vv e (fst p, t)) (snd p) (vv d p)).
  Proof.
    intros W [Hr [v Hv]] Hz Hd. destruct p as [u w]. unfold sg in Hr, Hv. cbn [fst snd] in *.
    assert (Ex : forall s t a, eval (upd (upd rho x s) y t) a = eval (upd (upd rho y t) x s) a).
    { intros s t a. apply eval_ext. intros q _. apply upd_comm. exact N. }
    assert (Rx : forall q s t a, (q = x \/ q = y) -> rgen TT Qxy (upd (upd rho x s) y t) a ->
       rgen TT (fun b => ~ occurs q b) (upd (upd rho x s) y t) a).
    { intros q s t a Hq. apply rgen_weaken; [auto|]. unfold Qxy. intros b [H1 H2]. destruct Hq; subst; assumption. }
    assert (Tr : forall q s t a, rgen TT (fun b => ~ occurs q b) (upd (upd rho x s) y t) a ->
       rgen TT (fun b => ~ occurs q b) (upd (upd rho y t) x s) a).
    { intros q s t a [H1 H2]. split; [|exact H2]. intros a1 b1 Hs. destruct (H1 a1 b1 Hs) as (v1 & E1 & E2).
      exists v1. rewrite <- Ex. auto. }
    assert (Dd : defined (sg (u, w)) d /\
      (z = x -> is_derive (fun t => vv e (t, w)) u (vv d (u, w))) /\
      (z = y -> is_derive (fun t => vv e (u, t)) w (vv d (u, w)))).
    { destruct Hz as [-> | ->].
      - assert (Hv' := Hv). rewrite Ex in Hv'.
        destruct (deriv_correct TT (upd rho y w) x u e W (Tr _ _ _ _ (Rx x u w e (or_introl eq_refl) Hr)) d v Hd Hv')
          as (v' & E & _ & D).
        rewrite <- Ex in E. split; [exists v'; exact E|]. split; [|congruence]. intros _.
        unfold vv at 2. unfold sg. cbn [fst snd]. rewrite E. cbn [val0].
        eapply is_derive_ext; [|exact D]. intros t. unfold vv, evalx, sg. cbn [fst snd]. rewrite Ex. reflexivity.
      - destruct (deriv_correct TT (upd rho x u) y w e W (Rx y u w e (or_intror eq_refl) Hr) d v Hd Hv)
          as (v' & E & _ & D).
        split; [exists v'; exact E|]. split; [congruence|]. intros _.
        unfold vv at 2. unfold sg. cbn [fst snd]. rewrite E. cbn [val0]. exact D. }
    destruct Dd as (D1 & D2 & D3). split; [|auto]. split; [|exact D1].
    exact (deriv_rgen _ _ _ _ _ Qxy_stable W Hr _ Hd).
  Qed.

  Lemma sliceX (p : R * R) (P : R * R -> Prop) : locally p P -> locally (fst p) (fun t => P (t, snd p)).
  Proof.
    destruct p as [a b]. intros [eps H]. exists eps. intros t Ht. apply H. split; [exact Ht|apply ball_center].
  Qed.
  Lemma sliceY (p : R * R) (P : R * R -> Prop) : locally p P -> locally (snd p) (fun t => P (fst p, t)).
  Proof.
    destruct p as [a b]. intros [eps H]. exists eps. intros t Ht. apply H. split; [apply ball_center|exact Ht].
  Qed.

  Lemma mixed e dx dy dxy dyx p : wf e -> G e p ->
    deriv Strict x e = Ok dx -> deriv Strict y dx = Ok dxy ->
    deriv Strict y e = Ok dy -> deriv Strict x dy = Ok dyx ->
    exists v, eval (sg p) dxy = Some v /\ eval (sg p) dyx = Some v.
  Proof.
    intros W Gp Hx Hxy Hy Hyx.
    pose proof (deriv_wf _ _ _ _ W Hx) as Wx. pose proof (deriv_wf _ _ _ _ W Hy) as Wy.
    pose proof (deriv_wf _ _ _ _ Wx Hxy) as Wxy. pose proof (deriv_wf _ _ _ _ Wy Hyx) as Wyx.
    set (f := fun u v => vv e (u, v)).
    assert (FX : forall q, G e q -> G dx q /\ Derive (fun t => f t (snd q)) (fst q) = vv dx q /\
       ex_derive (fun t => f t (snd q)) (fst q)).
    { intros q Gq. destruct (G_deriv e dx x q W Gq (or_introl eq_refl) Hx) as (A & B & _). specialize (B eq_refl).
      split; [exact A|]. split; [exact (is_derive_unique _ _ _ B)|]. eexists. exact B. }
    assert (FY : forall q, G e q -> G dy q /\ Derive (fun t => f (fst q) t) (snd q) = vv dy q /\
       ex_derive (fun t => f (fst q) t) (snd q)).
    { intros q Gq. destruct (G_deriv e dy y q W Gq (or_intror eq_refl) Hy) as (A & _ & B). specialize (B eq_refl).
      split; [exact A|]. split; [exact (is_derive_unique _ _ _ B)|]. eexists. exact B. }
    assert (FXY : forall q, G e q -> G dxy q /\
       is_derive (fun z => Derive (fun t => f t z) (fst q)) (snd q) (vv dxy q)).
    { intros q Gq. destruct (FX q Gq) as (A & _).
      destruct (G_deriv dx dxy y q Wx A (or_intror eq_refl) Hxy) as (B & _ & C). specialize (C eq_refl).
      split; [exact B|]. eapply is_derive_ext_loc; [|exact C].
      generalize (sliceY q _ (G_open e q W Gq)). apply filter_imp. intros t Gt.
      symmetry. exact (proj1 (proj2 (FX (fst q, t) Gt))). }
    assert (FYX : forall q, G e q -> G dyx q /\
       is_derive (fun z => Derive (fun t => f z t) (snd q)) (fst q) (vv dyx q)).
    { intros q Gq. destruct (FY q Gq) as (A & _).
      destruct (G_deriv dy dyx x q Wy A (or_introl eq_refl) Hyx) as (B & C & _). specialize (C eq_refl).
      split; [exact B|]. eapply is_derive_ext_loc; [|exact C].
      generalize (sliceX q _ (G_open e q W Gq)). apply filter_imp. intros t Gt.
      symmetry. exact (proj1 (proj2 (FY (t, snd q) Gt))). }
    destruct p as [u0 v0].
    destruct (FXY _ Gp) as [Gxy Dxy]. destruct (FYX _ Gp) as [Gyx Dyx]. cbn [fst snd] in *.
    assert (E : vv dyx (u0, v0) = vv dxy (u0, v0)).
    { rewrite <- (is_derive_unique _ _ _ Dxy), <- (is_derive_unique _ _ _ Dyx).
      apply (Schwarz f u0 v0).
      - apply locally_2d_locally. generalize (G_open e (u0, v0) W Gp). apply filter_imp. intros q Gq.
        destruct (FX q Gq) as (_ & _ & A1). destruct (FY q Gq) as (_ & _ & A2).
        destruct (FXY q Gq) as (_ & A3). destruct (FYX q Gq) as (_ & A4).
        split; [exact A1|]. split; [exact A2|]. split; eexists; [exact A4|exact A3].
      - apply continuity_2d_pt_ext_loc with (f := fun u v => vv dyx (u, v)).
        + apply locally_2d_locally. generalize (G_open e (u0, v0) W Gp). apply filter_imp. intros [u v] Gq.
          destruct (FYX _ Gq) as [_ A]. symmetry. exact (is_derive_unique _ _ _ A).
        + apply continuity_2d_pt_filterlim. eapply filterlim_ext; [|exact (vv_cont dyx _ Wyx Gyx)].
          intros [u v]. reflexivity.
      - apply continuity_2d_pt_ext_loc with (f := fun u v => vv dxy (u, v)).
        + apply locally_2d_locally. generalize (G_open e (u0, v0) W Gp). apply filter_imp. intros [u v] Gq.
          destruct (FXY _ Gq) as [_ A]. symmetry. exact (is_derive_unique _ _ _ A).
        + apply continuity_2d_pt_filterlim. eapply filterlim_ext; [|exact (vv_cont dxy _ Wxy Gxy)].
          intros [u v]. reflexivity. }
    destruct Gxy as [_ [v Hv]]. destruct Gyx as [_ [w Hw]]. exists v. split; [exact Hv|].
    rewrite Hw. unfold vv in E. rewrite Hv, Hw in E. cbn [val0] in E. congruence.
  Qed.
End Mixed.
