(** * LimTerm4: [limit] terminates on every well-formed tree *)
From Coq Require Import ZArith List String Bool Lia.
From Verif Require Import Base Float Rational SmartNum Ast Compute Limit Spec SpecTree.
From Verif Require Import BaseProofs RationalProofs NumProofs NumProofs2 TreeProofs TreeProofs2 TreeProofs3 TreeProofs4 TreeProofs5 LimTerm LimTerm2 LimTerm3.
Import ListNotations.
Open Scope Z_scope.
Open Scope res_scope.

Section RK.
Context (m : mode).
Local Notation agg := (num_aggregate m).
Local Notation r1 := (r1 m).
Local Notation r2 := (r2 m).
Local Notation NW := (NW m).

(** [k] rounds of simplification *)
Fixpoint aggn (k : nat) (s z : expr) : Prop :=
  match k with O => z = s | S k' => exists s', agg s = Ok s' /\ aggn k' s' z end.
Lemma aggn_snoc k : forall s z, aggn (S k) s z -> exists z', aggn k s z' /\ agg z' = Ok z.
Proof.
  induction k as [|k IH]; intros s z (s' & H1 & H2).
  - cbn [aggn] in H2. subst. exists s. split; [reflexivity|exact H1].
  - apply IH in H2 as (z' & H2 & H3). exists z'. split; [exists s'; split; assumption|exact H3].
Qed.
Lemma aggn_fix k s z : agg s = Ok s -> aggn k s z -> z = s.
Proof. intros H. revert z. induction k as [|k IH]; intros z; [auto|]. intros (s' & H1 & H2). assert (s' = s) as -> by congruence. auto. Qed.

Lemma subterm_trans a b c : subterm a b -> subterm b c -> subterm a c.
Proof. intros H1 H2. induction H2 as [|e r l c' Hin H2 IH]; [exact H1|]. eapply sub_child; [exact Hin|auto]. Qed.

Lemma sub_mk1 s t a : subterm s a -> subterm s (mk1 t a).
Proof. intros H. eapply sub_child; [left; reflexivity|exact H]. Qed.
Lemma sub_mk2l s t a b : subterm s a -> subterm s (mk2 t a b).
Proof. intros H. eapply sub_child; [left; reflexivity|exact H]. Qed.
Lemma sub_mk2r s t a b : subterm s b -> subterm s (mk2 t a b).
Proof. intros H. eapply sub_child; [right; left; reflexivity|exact H]. Qed.
Lemma sub_last op r c : subterm c (Expr op (r ++ [c])).
Proof. eapply sub_child; [apply in_or_app; right; left; reflexivity|constructor]. Qed.

(** the result of a rule: a number, something inside an operand, or the rebuilt node *)
Lemma r1_cases t a z : arity t = 1%nat -> r1 t a z -> is_num z = true \/ subterm z a \/ z = mk1 t a.
Proof.
  intros Ht H. apply rule1_ar in H; [|exact Ht]. inversion H; subst; auto; right; left; apply sub_last.
Qed.
Lemma r2_cases t a b z : arity t = 2%nat -> r2 t a b z ->
  is_num z = true \/ subterm z a \/ subterm z b \/ z = mk2 t a b \/ (t = OSub /\ z = e_neg b).
Proof.
  intros Ht H. apply rule2_ar in H; [|exact Ht]. inversion H; subst; auto 6 using sub_refl, sub_last.
Qed.
Lemma num_sub e s : is_num e = true -> wf e -> subterm s e -> s = e.
Proof. intros N W. destruct (num_wf e N W) as (n & -> & _). apply subterm_num. Qed.

(** what is inside a simplified tree was simplified *)
Lemma agg_sub e : wf e -> forall e' s', agg e = Ok e' -> subterm s' e' ->
  is_num s' = true \/ exists s, subterm s e /\ agg s = Ok s'.
Proof.
  intros W. pattern e. revert e W. apply wf_ind1.
  - intros n Hn e' s' [= <-] H. apply subterm_num in H as ->. left. reflexivity.
  - intros y e' s' [= <-] H. inversion H as [|? ? ? c' Hin]; subst; [|destruct Hin].
    right. eexists. split; [constructor|reflexivity].
  - intros t a Ht Wa IH e' s' E Hs. pose proof E as E0.
    pose proof (agg_wf m _ _ (wf_mk1 t a Ht Wa) E) as We.
    apply agg1_inv in E as (a' & Ea & Hr); [|exact Ht].
    assert (subterm s' a' -> is_num s' = true \/ exists s, subterm s (mk1 t a) /\ agg s = Ok s') as HA.
    { intros K. destruct (IH _ _ Ea K) as [K'|(s & K1 & K2)]; [auto|]. right. exists s. split; [apply sub_mk1; exact K1|exact K2]. }
    destruct (r1_cases t a' e' Ht Hr) as [K|[K| ->]].
    + left. rewrite (num_sub _ _ K We Hs). exact K.
    + apply HA. eapply subterm_trans; eassumption.
    + apply subterm_mk1 in Hs as [->|Hs]; [|auto]. right. exists (mk1 t a). split; [constructor|exact E0].
  - intros t a b Ht Wa Wb IHa IHb e' s' E Hs. pose proof E as E0.
    pose proof (agg_wf m _ _ (wf_mk2 t a b Ht Wa Wb) E) as We.
    apply agg2_inv in E as (a' & b' & Ea & Eb & Hr); [|exact Ht].
    assert (subterm s' a' -> is_num s' = true \/ exists s, subterm s (mk2 t a b) /\ agg s = Ok s') as HA.
    { intros K. destruct (IHa _ _ Ea K) as [K'|(s & K1 & K2)]; [auto|]. right. exists s. split; [apply sub_mk2l; exact K1|exact K2]. }
    assert (subterm s' b' -> is_num s' = true \/ exists s, subterm s (mk2 t a b) /\ agg s = Ok s') as HB.
    { intros K. destruct (IHb _ _ Eb K) as [K'|(s & K1 & K2)]; [auto|]. right. exists s. split; [apply sub_mk2r; exact K1|exact K2]. }
    destruct (r2_cases t a' b' e' Ht Hr) as [K|[K|[K|[->|[_ ->]]]]].
    + left. rewrite (num_sub _ _ K We Hs). exact K.
    + apply HA. eapply subterm_trans; eassumption.
    + apply HB. eapply subterm_trans; eassumption.
    + apply subterm_mk2 in Hs as [->|[Hs|Hs]]; [|auto|auto]. right. exists (mk2 t a b). split; [constructor|exact E0].
    + apply subterm_mk1 in Hs as [->|Hs]; [|auto]. right. exists (mk2 t a b). split; [constructor|exact E0].
Qed.

(** ** ranks: every part is stable after [S k] rounds *)
Definition R (k : nat) (e : expr) : Prop := wf e /\ forall s z, subterm s e -> aggn (S k) s z -> NF m z.
Lemma R_0 e : R 0 e <-> Hh m e.
Proof.
  split; intros [W H]; (split; [exact W|]); intros s z Hs E; apply (H s z Hs).
  - exists z. split; [exact E|reflexivity].
  - destruct E as (s' & E & ->). exact E.
Qed.
Lemma R_S k e : R k e -> R (S k) e.
Proof.
  intros [W H]. split; [exact W|]. intros s z Hs E. apply aggn_snoc in E as (z' & E & F).
  pose proof (H s z' Hs E) as N. rewrite (NF_fix _ _ N) in F. injection F as <-. exact N.
Qed.
Lemma NW_R k e : NW e -> R k e.
Proof. intros N. induction k as [|k IH]; [apply R_0, NW_Hh, N|apply R_S, IH]. Qed.
Lemma R_sub k s e : subterm s e -> R k e -> wf s -> R k s.
Proof. intros Hs [_ H] W. split; [exact W|]. intros u z Hu. apply H. eapply subterm_trans; eassumption. Qed.
Lemma R_agg k e e' : R (S k) e -> agg e = Ok e' -> R k e'.
Proof.
  intros [W H] E. pose proof (agg_wf _ _ _ W E) as W'. split; [exact W'|]. intros s' z Hs F.
  destruct (agg_sub e W e' s' E Hs) as [K|(s & K1 & K2)].
  - apply is_num_inv in K as (n & l & ->). apply aggn_fix in F as ->; [constructor|reflexivity].
  - apply (H s z K1). exists s'. split; assumption.
Qed.
Lemma R_agg' k e e' : R k e -> agg e = Ok e' -> R k e'.
Proof. intros H E. destruct k; [apply NW_R, (Hh_agg _ e); [apply R_0, H|exact E]|apply R_S; eapply R_agg; eassumption]. Qed.
Lemma wf_sub e s : wf e -> subterm s e -> wf s.
Proof.
  intros W. revert s. pattern e. revert e W. apply wf_ind1.
  - intros n Hn s Hs. apply subterm_num in Hs as ->. constructor; assumption.
  - intros y s Hs. inversion Hs as [|? ? ? c' Hin]; subst; [constructor|destruct Hin].
  - intros t a Ha Wa IH s Hs. apply subterm_mk1 in Hs as [->|Hs]; [apply wf_mk1; assumption|auto].
  - intros t a b Ha Wa Wb IHa IHb s Hs. apply subterm_mk2 in Hs as [->|[Hs|Hs]]; [apply wf_mk2; assumption|auto|auto].
Qed.
Lemma R_in k s e : subterm s e -> R k e -> R k s.
Proof. intros Hs H. eapply R_sub; [exact Hs|exact H|eapply wf_sub; [apply H|exact Hs]]. Qed.
Lemma R_num k e : is_num e = true -> wf e -> R k e.
Proof. intros N W. apply NW_R, num_NW; assumption. Qed.

Lemma R_nf k e s z : R (S k) e -> agg e = Ok s -> aggn (S k) s z -> NF m z.
Proof. intros [_ H] E F. apply (H e); [constructor|]. exists s. split; assumption. Qed.

Lemma R_mk1_aux k t : arity t = 1%nat -> forall a z, R k a -> aggn (S k) (mk1 t a) z -> NF m z.
Proof.
  intros Ht. induction k as [|k IH]; intros a z Ra (e' & E & F).
  - cbn [aggn] in F. subst z. apply agg1_inv in E as (a' & Ea & Hr); [|exact Ht].
    apply R_0 in Ra. exact (proj1 (NW_1 m t a' e' Ht (Hh_agg _ _ _ Ra Ea) Hr)).
  - apply agg1_inv in E as (a' & Ea & Hr); [|exact Ht]. pose proof (R_agg _ _ _ Ra Ea) as Ra'.
    destruct (r1_cases t a' e' Ht Hr) as [K|[K| ->]].
    + apply is_num_inv in K as (n & l & ->). apply aggn_fix in F as ->; [constructor|reflexivity].
    + apply (proj2 Ra' e' z K F).
    + apply (IH a' z Ra' F).
Qed.
Lemma R_mk1 k t a : arity t = 1%nat -> R k a -> R k (mk1 t a).
Proof.
  intros Ht Ra. split; [apply wf_mk1; [exact Ht|apply Ra]|]. intros s z Hs F.
  apply subterm_mk1 in Hs as [->|Hs]; [exact (R_mk1_aux k t Ht a z Ra F)|exact (proj2 Ra s z Hs F)].
Qed.
Lemma R_mk2_aux k t : arity t = 2%nat -> t <> OSub -> forall a b z, R k a -> R k b -> aggn (S k) (mk2 t a b) z -> NF m z.
Proof.
  intros Ht Hn. induction k as [|k IH]; intros a b z Ra Rb (e' & E & F).
  - cbn [aggn] in F. subst z. apply agg2_inv in E as (a' & b' & Ea & Eb & Hr); [|exact Ht].
    apply R_0 in Ra. apply R_0 in Rb.
    exact (proj1 (NW_2 m t a' b' e' Ht Hn (Hh_agg _ _ _ Ra Ea) (Hh_agg _ _ _ Rb Eb) Hr)).
  - apply agg2_inv in E as (a' & b' & Ea & Eb & Hr); [|exact Ht].
    pose proof (R_agg _ _ _ Ra Ea) as Ra'. pose proof (R_agg _ _ _ Rb Eb) as Rb'.
    destruct (r2_cases t a' b' e' Ht Hr) as [K|[K|[K|[->|[K _]]]]].
    + apply is_num_inv in K as (n & l & ->). apply aggn_fix in F as ->; [constructor|reflexivity].
    + apply (proj2 Ra' e' z K F).
    + apply (proj2 Rb' e' z K F).
    + apply (IH a' b' z Ra' Rb' F).
    + contradiction.
Qed.
Lemma R_mk2 k t a b : arity t = 2%nat -> t <> OSub -> R k a -> R k b -> R k (mk2 t a b).
Proof.
  intros Ht Hn Ra Rb. split; [apply wf_mk2; [exact Ht|apply Ra|apply Rb]|]. intros s z Hs F.
  apply subterm_mk2 in Hs as [->|[Hs|Hs]]; [exact (R_mk2_aux k t Ht Hn a b z Ra Rb F)|exact (proj2 Ra s z Hs F)|exact (proj2 Rb s z Hs F)].
Qed.
Lemma R_r1 k t a z : arity t = 1%nat -> R k a -> wf z -> r1 t a z -> R k z.
Proof.
  intros Ht Ra Wz H. destruct (r1_cases t a z Ht H) as [K|[K| ->]];
    [apply R_num; assumption|eapply R_in; [exact K|exact Ra]|apply R_mk1; assumption].
Qed.

(** ** the rank of a tree *)
Lemma fix_NF e : wf e -> agg e = Ok e -> NF m e.
Proof.
  intros W. pattern e. revert e W. apply wf_ind1.
  - constructor.
  - constructor.
  - intros t a Ht Wa IH E. pose proof E as E0. apply agg1_inv in E as (a' & Ea & Hr); [|exact Ht].
    pose proof (agg_shrinks m a Wa a' Ea) as Sh. pose proof Hr as Hr0. apply rule1_ar in Hr; [|exact Ht].
    apply ar1_size in Hr as [E1|E1].
    + assert (a' = a) as -> by (injection E1; congruence). apply NF_1; [exact Ht|exact (IH Ea)|exact Hr0].
    + rewrite !size_mk1 in E1. destruct Sh as [->|Sh]; lia.
  - intros t a b Ht Wa Wb IHa IHb E. apply agg2_inv in E as (a' & b' & Ea & Eb & Hr); [|exact Ht].
    pose proof (agg_shrinks m a Wa a' Ea) as Sa. pose proof (agg_shrinks m b Wb b' Eb) as Sb. pose proof Hr as Hr0.
    apply rule2_ar in Hr; [|exact Ht]. apply ar2_size in Hr as [E1|E1].
    + assert (a' = a) as -> by (injection E1; congruence). assert (b' = b) as -> by (injection E1; congruence).
      apply NF_2; [exact Ht|exact (IHa Ea)|exact (IHb Eb)|exact Hr0].
    + rewrite !size_mk2 in E1. destruct Sa as [->|Sa], Sb as [->|Sb]; lia.
Qed.
Lemma aggn_size k : forall s z, wf s -> (size s <= k)%nat -> aggn k s z -> NF m z.
Proof.
  induction k as [|k IH]; intros s z W Hk F; [pose proof (size_pos s); lia|].
  destruct F as (s' & E & F). pose proof (agg_wf _ _ _ W E) as W'.
  destruct (agg_shrinks m s W s' E) as [->|Hlt].
  - apply aggn_fix in F as ->; [|exact E]. apply fix_NF; assumption.
  - apply (IH s'); [exact W'|lia|exact F].
Qed.
Lemma sub_size e : wf e -> forall s, subterm s e -> (size s <= size e)%nat.
Proof.
  intros W. pattern e. revert e W. apply wf_ind1.
  - intros n Hn s Hs. apply subterm_num in Hs as ->. apply le_n.
  - intros y s Hs. inversion Hs as [|? ? ? c' Hin]; subst; [lia|destruct Hin].
  - intros t a Ha Wa IH s Hs. apply subterm_mk1 in Hs as [->|Hs]; [lia|]. apply IH in Hs. rewrite size_mk1. lia.
  - intros t a b Ha Wa Wb IHa IHb s Hs. apply subterm_mk2 in Hs as [->|[Hs|Hs]]; [lia|apply IHa in Hs|apply IHb in Hs]; rewrite size_mk2; lia.
Qed.
Lemma R_all e : wf e -> R (size e) e.
Proof.
  intros W. split; [exact W|]. intros s z Hs F. apply (aggn_size (S (size e)) s z); [eapply wf_sub; eassumption| |exact F].
  apply (sub_size e W) in Hs. lia.
Qed.
End RK.

Section LT.
Context (m : mode) (x : string) (to : expr) (ord : Z).
Local Notation agg := (num_aggregate m).
Local Notation D := (deriv m x).
Local Notation T := (T m x to ord).
Local Notation ok := (ok m x to ord).
Local Notation D2 := (D2 m x).
Local Notation r1 := (r1 m).
Local Notation r2 := (r2 m).
Local Notation R := (R m).
Local Notation TC := (TC m x to ord).

(** trees made by differentiating: parts of rank [k] joined by the arithmetic operators *)
Inductive W (k : nat) : expr -> Prop :=
| W_R e : R k e -> W k e
| W_neg a : W k a -> W k (mk1 ONeg a)
| W_op t a b : In t [OAdd; OSub; OMul; ODiv] -> W k a -> W k b -> W k (mk2 t a b).

Lemma W_wf k e : W k e -> wf e.
Proof.
  induction 1 as [e H|a H IH|t a b Ht Ha IHa Hb IHb]; [apply H|apply wf_mk1; [reflexivity|exact IH]|].
  apply wf_mk2; [|exact IHa|exact IHb]. destruct Ht as [<-|[<-|[<-|[<-|[]]]]]; reflexivity.
Qed.
Lemma W_num k e : is_num e = true -> wf e -> W k e.
Proof. intros N H. apply W_R, R_num; assumption. Qed.
Lemma W_unneg k u : W k (mk1 ONeg u) -> W k u.
Proof.
  intros H. inversion H as [e K E|a K E|t a b Ht Ha Hb E]; subst.
  - apply W_R. eapply R_in; [|exact K]. apply sub_mk1, sub_refl.
  - exact K.
Qed.
Lemma W_r1 k a z : W k a -> r1 ONeg a z -> W k z.
Proof.
  intros Wa H. assert (wf z) as Wz.
  { apply rule1_ar in H; [|reflexivity]. eapply ar1_wf; [|exact H]. eapply W_wf; exact Wa. }
  apply rule1_ar in H; [|reflexivity]. inversion H as [l n v Hv|op r c Hd|a' N K| | | | | | | | | | | |]; subst.
  - apply W_num; [reflexivity|exact Wz].
  - rewrite (shape1 ONeg op r z eq_refl (W_wf _ _ Wa) Hd) in Wa. apply W_unneg. exact Wa.
  - apply W_neg. exact Wa.
Qed.
Lemma W_r2 k t a b z : In t [OAdd; OSub; OMul; ODiv] -> W k a -> W k b -> r2 t a b z -> W k z.
Proof.
  intros Ht Wa Wb H. assert (arity t = 2%nat) as At by (destruct Ht as [<-|[<-|[<-|[<-|[]]]]]; reflexivity).
  apply rule2_ar in H; [|exact At].
  assert (wf z) as Wz by (eapply ar2_wf; [eapply W_wf; exact Wa|eapply W_wf; exact Wb|exact H]).
  pose proof (W_op k t a b Ht Wa Wb) as Wn. pose proof (W_neg k b Wb) as Wn'.
  inversion H; subst; try assumption; try (apply W_num; [reflexivity|exact Wz]);
    destruct Ht as [E|[E|[E|[E|[]]]]]; discriminate E.
Qed.
Lemma W_agg k e : W k e -> forall z, agg e = Ok z -> W k z.
Proof.
  induction 1 as [e H|a H IH|t a b Ht Ha IHa Hb IHb]; intros z E.
  - apply W_R. eapply R_agg'; eassumption.
  - apply agg1_inv in E as (a' & Ea & Hr); [|reflexivity]. eapply W_r1; [exact (IH _ Ea)|exact Hr].
  - apply agg2_inv in E as (a' & b' & Ea & Eb & Hr); [|destruct Ht as [<-|[<-|[<-|[<-|[]]]]]; reflexivity].
    eapply W_r2; [exact Ht|exact (IHa _ Ea)|exact (IHb _ Eb)|exact Hr].
Qed.

Lemma D_W k e : wf e -> R (S k) e -> forall d, D e = Ok d -> W k d.
Proof.
  intros We. pattern e. revert e We. apply wf_ind1.
  - intros n _ _ d [= <-]. apply W_num; [reflexivity|apply wf_zero].
  - intros y _ d. rewrite deriv_var. intros [= <-].
    destruct (String.eqb x y); apply W_num; try reflexivity; [apply wf_one|apply wf_zero].
  - intros t a Ht Wa IH HR d H. pose proof (R_in m _ a _ (sub_mk1 _ t a (sub_refl a)) HR) as Ra. specialize (IH Ra).
    assert (forall ga, D2 a ga -> W k ga) as Ga.
    { intros ga (da & H1 & H2). eapply W_agg; [exact (IH _ H1)|exact H2]. }
    assert (forall t' A z, arity t' = 1%nat -> agg a = Ok A -> r1 t' A z -> W k z) as G1.
    { intros t' A z Ht' HA Hr. pose proof (R_agg m _ _ _ Ra HA) as RA. apply W_R. eapply R_r1; [exact Ht'|exact RA| |exact Hr].
      apply rule1_ar in Hr; [|exact Ht']. eapply ar1_wf; [|exact Hr]. apply RA. }
    destruct t; try discriminate Ht.
    + apply D_neg in H as (ga & H1 & H2). eapply W_r1; [exact (Ga _ H1)|exact H2].
    + apply D_sin in H as (ga & A & c & H1 & HA & Hc & H2).
      apply (W_r2 k OMul c ga); [cbn; auto|exact (G1 OCos A c eq_refl HA Hc)|exact (Ga _ H1)|exact H2].
    + apply D_cos in H as (ga & A & s & s' & H1 & HA & Hs & Hs' & H2).
      apply (W_r2 k OMul s' ga); [cbn; auto|eapply W_r1; [exact (G1 OSin A s eq_refl HA Hs)|exact Hs']|exact (Ga _ H1)|exact H2].
    + apply D_exp in H as (ga & A & c & H1 & HA & Hc & H2).
      apply (W_r2 k OMul ga c); [cbn; auto|exact (Ga _ H1)|exact (G1 OExp A c eq_refl HA Hc)|exact H2].
    + apply D_ln in H as (ga & A & H1 & HA & H2).
      apply (W_r2 k ODiv ga A); [cbn; auto|exact (Ga _ H1)|apply W_R; exact (R_agg m _ _ _ Ra HA)|exact H2].
  - intros t a b Ht Wa Wb IHa IHb HR d H.
    pose proof (R_in m _ a _ (sub_mk2l _ t a b (sub_refl a)) HR) as Ra.
    pose proof (R_in m _ b _ (sub_mk2r _ t a b (sub_refl b)) HR) as Rb. specialize (IHa Ra). specialize (IHb Rb).
    assert (forall ga, D2 a ga -> W k ga) as Ga.
    { intros ga (da & H1 & H2). eapply W_agg; [exact (IHa _ H1)|exact H2]. }
    assert (forall gb, D2 b gb -> W k gb) as Gb.
    { intros gb (db & H1 & H2). eapply W_agg; [exact (IHb _ H1)|exact H2]. }
    assert (forall A, agg a = Ok A -> R k A) as KA by (intros A; apply R_agg; exact Ra).
    assert (forall B, agg b = Ok B -> R k B) as KB by (intros B; apply R_agg; exact Rb).
    destruct t; try discriminate Ht.
    + apply D_add in H as (ga & gb & H1 & H2 & H3). apply (W_r2 k OAdd ga gb); [cbn; auto|auto|auto|exact H3].
    + apply D_sub in H as (ga & gb & H1 & H2 & H3). apply (W_r2 k OSub ga gb); [cbn; auto|auto|auto|exact H3].
    + apply D_mul in H as (ga & gb & A & B & X & Y & H1 & H2 & HA & HB & HX & HY & H3).
      assert (W k X) as WX by (apply (W_r2 k OMul ga B); [cbn; auto|auto|apply W_R; auto|exact HX]).
      assert (W k Y) as WY by (apply (W_r2 k OMul A gb); [cbn; auto|apply W_R; auto|auto|exact HY]).
      apply (W_r2 k OAdd X Y); [cbn; auto|exact WX|exact WY|exact H3].
    + apply D_div in H as (ga & gb & A & B & X & Y & N & M & H1 & H2 & HA & HB & HX & HY & HN & HM & H3).
      assert (W k X) as WX by (apply (W_r2 k OMul ga B); [cbn; auto|auto|apply W_R; auto|exact HX]).
      assert (W k Y) as WY by (apply (W_r2 k OMul A gb); [cbn; auto|apply W_R; auto|auto|exact HY]).
      assert (W k M) as WM by (apply (W_r2 k OMul B B); [cbn; auto|apply W_R; auto|apply W_R; auto|exact HM]).
      assert (W k N) as WN by (apply (W_r2 k OSub X Y); [cbn; auto|exact WX|exact WY|exact HN]).
      apply (W_r2 k ODiv N M); [cbn; auto|exact WN|exact WM|exact H3].
    + apply D_pow in H as (ga & gb & A & B & p & q & u1 & u2 & u3 & w & H1 & H2 & HA & HB & Hp & Hq & Hu1 & Hu2 & Hu3 & Hw & H3).
      specialize (KA _ HA). specialize (KB _ HB).
      assert (R k p) as Rp.
      { assert (wf p) as Wp.
        { apply rule2_ar in Hp; [|reflexivity]. eapply ar2_wf; [apply KA|apply KB|exact Hp]. }
        destruct (r2_cases m OPow A B p eq_refl Hp) as [K|[K|[K|[->|[K _]]]]]; [apply R_num; assumption| | | |discriminate K].
        - eapply R_in; [exact K|exact KA].
        - eapply R_in; [exact K|exact KB].
        - apply R_mk2; [reflexivity|discriminate|exact KA|exact KB]. }
      assert (R k q) as Rq.
      { apply (R_r1 m k OLn A q eq_refl); [exact KA| |exact Hq]. apply rule1_ar in Hq; [|reflexivity]. eapply ar1_wf; [apply KA|exact Hq]. }
      assert (W k u1) as W1 by (apply (W_r2 k OMul gb q); [cbn; auto|auto|apply W_R; auto|exact Hu1]).
      assert (W k u2) as W2 by (apply (W_r2 k OMul B ga); [cbn; auto|apply W_R; auto|auto|exact Hu2]).
      assert (W k u3) as W3 by (apply (W_r2 k ODiv u2 A); [cbn; auto|exact W2|apply W_R; auto|exact Hu3]).
      assert (W k w) as W4 by (apply (W_r2 k OAdd u1 u3); [cbn; auto|exact W1|exact W3|exact Hw]).
      apply (W_r2 k OMul p w); [cbn; auto|apply W_R; exact Rp|exact W4|exact H3].
Qed.

(** the second operand has no limit value *)
Lemma T_div3 a b : T a -> T b -> ~ ok b -> T (mk2 ODiv a b).
Proof.
  intros Ta Tb N. apply T_rule. eapply ev_ext; [intros f; apply rule_div|].
  destruct (Z.to_nat (ord + 1)) as [|n]; [apply (ev_const (Ok lerr)); discriminate|]. cbn [div_loop].
  apply ev_qbind; [exact Ta|]. intros za La. apply ev_qbind; [exact Tb|]. intros zb Lb. destruct N. eexists. exact Lb.
Qed.

Lemma W_T k : (forall e, R k e -> T e) -> forall e, W k e -> R k e \/ (T e /\ ~ ok e).
Proof.
  intros HT e. induction 1 as [e H|a H IH|t a b Ht Ha IHa Hb IHb].
  - left. exact H.
  - right. apply stuck_T. reflexivity.
  - assert (T a) as Ta by (destruct IHa as [K|[K _]]; [apply HT; exact K|exact K]).
    assert (T b) as Tb by (destruct IHb as [K|[K _]]; [apply HT; exact K|exact K]).
    destruct Ht as [<-|[<-|[<-|[<-|[]]]]].
    + destruct IHa as [Ka|[_ Ka]], IHb as [Kb|[_ Kb]]; [left; apply R_mk2; [reflexivity|discriminate|exact Ka|exact Kb]|right..];
        (split; [apply T_add; [exact Ta|exact Tb|]; intros za zb er La Lb; exfalso; (apply Ka || apply Kb); eexists; eassumption|]);
        (intros K; apply ok_2 in K as [K1 K2]; [contradiction|cbn; auto]).
    + right. apply stuck_T. reflexivity.
    + destruct IHa as [Ka|[_ Ka]], IHb as [Kb|[_ Kb]]; [left; apply R_mk2; [reflexivity|discriminate|exact Ka|exact Kb]|right..];
        (split; [apply T_mul; [exact Ta|exact Tb|]; intros za zb er La Lb; exfalso; (apply Ka || apply Kb); eexists; eassumption|]);
        (intros K; apply ok_2 in K as [K1 K2]; [contradiction|cbn; auto]).
    + destruct IHa as [Ka|[_ Ka]], IHb as [Kb|[_ Kb]]; [left; apply R_mk2; [reflexivity|discriminate|exact Ka|exact Kb]|right..];
        (split; [first [apply T_div2; [exact Ta|exact Ka]|apply T_div3; [exact Ta|exact Tb|exact Kb]]|]);
        (intros K; apply ok_2 in K as [K1 K2]; [contradiction|cbn; auto]).
Qed.

Lemma R_T k : (forall e, R k e -> T e -> TC e) -> forall e, R k e -> T e.
Proof.
  intros HC e HR. pose proof (proj1 HR) as We. revert HR. pattern e. revert e We. apply wf_ind1.
  - intros n _ _. apply leaf_T.
  - intros y _. apply leaf_T.
  - intros t a At Wa IH HR. destruct t; try discriminate At; try (apply stuck_T; reflexivity); apply sincos_T; auto.
  - intros t a b At Wa Wb IHa IHb HR.
    pose proof (R_in m _ a _ (sub_mk2l _ t a b (sub_refl a)) HR) as Ra.
    pose proof (R_in m _ b _ (sub_mk2r _ t a b (sub_refl b)) HR) as Rb. specialize (IHa Ra). specialize (IHb Rb).
    pose proof (HC a Ra IHa) as Ca. pose proof (HC b Rb IHb) as Cb.
    assert (R k e_one) as R1 by (apply NW_R, NW_one). assert (TC e_one) as C1 by (apply TC_num; [reflexivity|apply wf_one]).
    assert (forall c, R k c -> TC c -> TC (mk2 ODiv e_one c)) as Cinv.
    { intros c Hc Cc. apply HC; [apply R_mk2; [reflexivity|discriminate|exact R1|exact Hc]|apply T_div; assumption]. }
    destruct t; try discriminate At; try (apply stuck_T; reflexivity).
    + apply T_add; [exact IHa|exact IHb|]. intros za zb er La Lb E. apply T_div; [|apply Cinv; assumption].
      assert (R k (mk2 ODiv a b)) as Hq by (apply R_mk2; [reflexivity|discriminate|exact Ra|exact Rb]).
      apply HC; [apply R_mk2; [reflexivity|discriminate|exact Hq|exact R1]|].
      apply T_add; [apply T_div; assumption|apply TC_T; exact C1|].
      intros zq z1 er' Lq L1 E'. destruct (err_nonnum_add _ _ _ _ _ _ _ _ _ Lq L1 E') as [_ K]. discriminate.
    + apply T_mul; [exact IHa|exact IHb|]. intros za zb er La Lb E.
      split; apply T_div; try assumption; apply Cinv; assumption.
    + apply T_div; assumption.
Qed.
Lemma R_TC k : forall e, R k e -> T e -> TC e.
Proof.
  induction k as [|k IH]; intros e HR Te; [apply Hh_TC; [apply R_0; exact HR|exact Te]|].
  apply TC_intro; [apply HR|exact Te|]. intros _ d Hd. pose proof (D_W k e (proj1 HR) HR d Hd) as Wd.
  destruct (W_T k (R_T k IH) d Wd) as [K|[K1 K2]]; [|apply TC_stuck; [eapply W_wf; exact Wd|exact K1|exact K2]].
  apply IH; [exact K|]. exact (R_T k IH d K).
Qed.
Theorem limit_terminates e : wf e -> T e.
Proof. intros We. exact (R_T _ (R_TC _) e (R_all m e We)). Qed.
End LT.
