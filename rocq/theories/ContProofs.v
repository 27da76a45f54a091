(** * ContProofs: values of expressions along arbitrary filters of assignments (joint continuity) *)
From Coq Require Import ZArith QArith List String Bool Lia Lra.
From Coq Require Import Reals Qreals.
From Coquelicot Require Import Coquelicot.
From Verif Require Import Base Float Rational SmartNum Ast Compute Spec SpecTree SpecR.
From Verif Require Import BaseProofs NumProofs NumProofs2 TreeProofs TreeProofs2 TreeProofs3 TreeProofs4.
From Verif Require Import RealProofs RealDeriv RealDeriv2 RealTaylor.
Import ListNotations.
Open Scope R_scope.

Definition val0 (o : option R) : R := match o with Some v => v | None => 0 end.

Section Along.
  Context {T : Type} (F : (T -> Prop) -> Prop) {FF : Filter F}.
  Variable sig : T -> string -> R.
  Variable rho : string -> R.
  Hypothesis Hvar : forall y, filterlim (fun s => sig s y) F (locally (rho y)).
  Variables (V : string -> Prop) (Q : expr -> Prop).
  Hypothesis HQ : forall b, Q b -> F (fun s => eval (sig s) b = eval rho b).

  Definition tends (e : expr) (v : R) : Prop :=
    F (fun s => eval (sig s) e = Some (val0 (eval (sig s) e))) /\
    filterlim (fun s => val0 (eval (sig s) e)) F (locally v).

  Lemma tends_intro e v (g : T -> R) : F (fun s => eval (sig s) e = Some (g s)) ->
    filterlim g F (locally v) -> tends e v.
  Proof.
    intros H L. split.
    - generalize H. apply filter_imp. intros s E. rewrite E. reflexivity.
    - eapply filterlim_ext_loc; [|exact L]. generalize H. apply filter_imp. intros s E. rewrite E. reflexivity.
  Qed.

  Lemma lim1 (g : T -> R) (f : R -> R) u : continuous f u -> filterlim g F (locally u) ->
    filterlim (fun s => f (g s)) F (locally (f u)).
  Proof. intros C L. exact (filterlim_comp T R R g f F (locally u) (locally (f u)) L C). Qed.
  Lemma lim_loc (g : T -> R) u (P : R -> Prop) : filterlim g F (locally u) -> locally u P -> F (fun s => P (g s)).
  Proof. intros L H. exact (L P H). Qed.
  Lemma lim_mult (f g : T -> R) a b : filterlim f F (locally a) -> filterlim g F (locally b) ->
    filterlim (fun s => f s * g s) F (locally (a * b)).
  Proof.
    intros Hf Hg. eapply filterlim_comp_2; [exact Hf|exact Hg|exact (filterlim_mult (K := R_AbsRing) a b)].
  Qed.
  Lemma lim_plus (f g : T -> R) a b : filterlim f F (locally a) -> filterlim g F (locally b) ->
    filterlim (fun s => f s + g s) F (locally (a + b)).
  Proof.
    intros Hf Hg. eapply filterlim_comp_2; [exact Hf|exact Hg|exact (filterlim_plus (K := R_AbsRing) (V := R_NormedModule) a b)].
  Qed.
  Lemma lim_opp (f : T -> R) a : filterlim f F (locally a) -> filterlim (fun s => - f s) F (locally (- a)).
  Proof. intros H. apply (lim1 f Ropp); [|exact H]. apply (continuous_opp (fun y : R => y)). apply continuous_id. Qed.

  Lemma tends_eval e : wf e -> rgen V Q rho e -> forall v, eval rho e = Some v -> tends e v.
  Proof.
    intros W. pattern e. revert e W. apply wf_ind1.
    - intros n _ _ v Hv. apply (tends_intro _ _ (fun _ => v)).
      + apply filter_forall. intros s. exact Hv.
      + apply filterlim_const.
    - intros y _ v Hv. rewrite eval_var in Hv. injection Hv as <-.
      apply (tends_intro _ _ (fun s => sig s y)); [|apply Hvar].
      apply filter_forall. intros s. rewrite eval_var. reflexivity.
    - intros t a Ha Wa IH Hr v Hv. apply eval1_inv in Hv as (u & Hu & Hv).
      apply rgen_mk1 in Hr as [Hra _]. destruct (IH Hra u Hu) as [D L]. clear IH.
      set (g := fun s => val0 (eval (sig s) a)) in *.
      assert (K : forall f : R -> R, v = f u -> continuous f u -> F (fun s => ev1 t (g s) = Some (f (g s))) ->
        tends (mk1 t a) v).
      { intros f -> C E. apply (tends_intro _ _ (fun s => f (g s))).
        - generalize (filter_and _ _ D E). apply filter_imp. intros s [E1 E2]. rewrite eval_mk1, E1. exact E2.
        - apply lim1; assumption. }
      destruct t; try discriminate; cbn [ev1] in Hv.
      + injection Hv as <-. apply (K Ropp); [reflexivity| |apply filter_forall; reflexivity].
        apply (continuous_opp (fun y : R => y)). apply continuous_id.
      + injection Hv as <-. apply (K sin); [reflexivity| |apply filter_forall; reflexivity]. apply continuous_sin.
      + injection Hv as <-. apply (K cos); [reflexivity| |apply filter_forall; reflexivity]. apply continuous_cos.
      + injection Hv as <-. apply (K exp); [reflexivity| |apply filter_forall; reflexivity]. apply continuous_exp.
      + destruct (Rlt_dec 0 u) as [Hp|]; [|discriminate]. injection Hv as <-.
        apply (K ln); [reflexivity| |].
        * apply (cont_of ln u (/ u)). apply is_derive_ln. exact Hp.
        * generalize (lim_loc g u (fun y => 0 < y) L (open_gt 0 u Hp)). apply filter_imp. intros s Hs. cbn [ev1].
          destruct (Rlt_dec 0 (g s)); [reflexivity|contradiction].
    - intros t a b Ha Wa Wb IHa IHb Hr v Hv. apply eval2_some in Hv as (u & w & Hu & Hw & Hv).
      apply rgen_mk2 in Hr as (Hra & Hrb & Hp).
      destruct (IHa Hra u Hu) as [Da La]. destruct (IHb Hrb w Hw) as [Db Lb]. clear IHa IHb.
      set (f := fun s => val0 (eval (sig s) a)) in *. set (g := fun s => val0 (eval (sig s) b)) in *.
      assert (K : forall h : T -> R, filterlim h F (locally v) -> F (fun s => ev2 t (f s) (g s) = Some (h s)) ->
        tends (mk2 t a b) v).
      { intros h C E. apply (tends_intro _ _ h); [|exact C].
        generalize (filter_and _ _ Da (filter_and _ _ Db E)). apply filter_imp.
        intros s (E1 & E2 & E3). rewrite eval_mk2, E1, E2. exact E3. }
      destruct t; try discriminate.
      + injection Hv as <-. apply (K (fun s => f s + g s)); [|apply filter_forall; reflexivity].
        apply lim_plus; assumption.
      + injection Hv as <-. apply (K (fun s => f s - g s)); [|apply filter_forall; reflexivity].
        apply lim_plus; [assumption|]. apply lim_opp. assumption.
      + injection Hv as <-. apply (K (fun s => f s * g s)); [|apply filter_forall; reflexivity].
        apply lim_mult; assumption.
      + apply ev2_div in Hv as [Hw0 ->]. apply (K (fun s => f s / g s)).
        * apply lim_mult; [assumption|]. apply (lim1 g Rinv); [|assumption].
          apply (continuous_Rinv w Hw0).
        * generalize (lim_loc g w (fun y => y <> 0) Lb (open_neq 0 w Hw0)). apply filter_imp. intros s Hs. cbn [ev2].
          destruct (Req_EM_T (g s) 0); [contradiction|reflexivity].
      + destruct (Hp eq_refl) as (u' & Hu' & Hu0 & Hx & _). rewrite Hu in Hu'. injection Hu' as <-. cbn [ev2] in Hv.
        destruct (Rlt_dec 0 u) as [Hpos|Hn].
        * rewrite powR_pos in Hv by assumption. injection Hv as <-.
          apply (K (fun s => Rpower (f s) (g s))).
          -- unfold Rpower. apply (lim1 (fun s => g s * ln (f s)) exp); [apply continuous_exp|].
             apply lim_mult; [assumption|]. apply (lim1 f ln); [|assumption].
             apply (cont_of ln u (/ u)). apply is_derive_ln. exact Hpos.
          -- generalize (lim_loc f u (fun y => 0 < y) La (open_gt 0 u Hpos)). apply filter_imp.
             intros s Hs. cbn [ev2]. apply powR_pos. exact Hs.
        * assert (u < 0) as Hneg by lra. destruct Hx as [Hx|Hx]; [lra|].
          destruct (powR_neg _ _ _ Hneg Hv) as [Hi ->]. set (n := Int_part w) in *.
          apply (K (fun s => powerRZ (f s) n)).
          -- apply (lim1 f (fun y => powerRZ y n)); [|assumption].
             apply (cont_of _ u _ (is_derive_powerRZ n u Hu0)).
          -- generalize (filter_and _ _ (HQ b Hx) (lim_loc f u (fun y => y < 0) La (open_lt 0 u Hneg))).
             apply filter_imp. intros s [E Hs]. cbn [ev2]. unfold g. rewrite E, Hw. cbn [val0].
             apply powR_neg'; assumption.
  Qed.

  Lemma rgen_along e : wf e -> rgen V Q rho e -> defined rho e -> F (fun s => rgen V Q (sig s) e).
  Proof.
    intros W. pattern e. revert e W. apply wf_ind1.
    - intros n _ _ _. apply filter_forall. intros t. apply rgen_num.
    - intros y _ _. apply filter_forall. intros t. apply rgen_var.
    - intros t a Ha Wa IH Hr [v Hv]. apply eval1_inv in Hv as (u & Hu & Hv).
      apply rgen_mk1 in Hr as [Hra Hs].
      generalize (IH Hra (ex_intro _ u Hu)). apply filter_imp. intros s Hs'. apply rgen_mk1. auto.
    - intros t a b Ha Wa Wb IHa IHb Hr [v Hv]. apply eval2_some in Hv as (u & w & Hu & Hw & Hv).
      apply rgen_mk2 in Hr as (Hra & Hrb & Hp).
      assert (F (fun s => t = OPow -> pow_ok V Q (sig s) a b)) as Hpo.
      { destruct (optype_eq_pow t) as [->|N]; [|apply filter_forall; intros s E; contradiction].
        destruct (Hp eq_refl) as (u' & Hu' & K1 & K2 & K3). rewrite Hu in Hu'. injection Hu' as <-.
        destruct (tends_eval a Wa Hra u Hu) as [D L].
        pose proof (lim_loc _ u (fun y => y <> 0) L (open_neq 0 u K1)) as L0.
        assert (F (fun s => 0 < val0 (eval (sig s) a) \/ Q b)) as L1.
        { destruct K2 as [K2|K2]; [|apply filter_forall; auto].
          generalize (lim_loc _ u (fun y => 0 < y) L (open_gt 0 u K2)). apply filter_imp. auto. }
        assert (F (fun s => (exists y, V y /\ a = e_var y) \/ (~ has_op OLn a /\ val0 (eval (sig s) a) <> 1))) as L2.
        { destruct K3 as [K3|[K3 K4]]; [apply filter_forall; auto|].
          generalize (lim_loc _ u (fun y => y <> 1) L (open_neq 1 u K4)). apply filter_imp. auto. }
        generalize (filter_and _ _ D (filter_and _ _ L0 (filter_and _ _ L1 L2))). apply filter_imp.
        intros s (E1 & E2 & E3 & E4) _. exists (val0 (eval (sig s) a)). auto. }
      generalize (filter_and _ _ (IHa Hra (ex_intro _ u Hu)) (filter_and _ _ (IHb Hrb (ex_intro _ w Hw)) Hpo)).
      apply filter_imp. intros s (E1 & E2 & E3). apply rgen_mk2. auto.
  Qed.
End Along.
