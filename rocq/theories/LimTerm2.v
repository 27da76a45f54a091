(** * LimTerm2: [limit] terminates, closure of the chains *)
From Coq Require Import ZArith List String Bool Lia.
From Verif Require Import Base Float Rational SmartNum Ast Compute Limit Spec SpecTree.
From Verif Require Import BaseProofs RationalProofs NumProofs NumProofs2 TreeProofs TreeProofs2 TreeProofs3 TreeProofs4 TreeProofs5 LimTerm.
Import ListNotations.
Open Scope Z_scope.
Open Scope res_scope.

Section LT.
Context (m : mode) (x : string) (to : expr) (ord : Z).
Local Notation lim f := (limit_var f m x to ord).
Local Notation agg := (num_aggregate m).
Local Notation D := (deriv m x).
Local Notation L := (L m x to ord).
Local Notation T := (T m x to ord).
Local Notation ok := (ok m x to ord).
Local Notation Tch := (Tch m x to ord).
Local Notation D2 := (D2 m x).
Local Notation r1 := (r1 m).
Local Notation r2 := (r2 m).
Local Notation NW := (NW m).
Local Notation Hh := (Hh m).
Local Notation QN := (QN m).

(** ** the derivative of each kind of node *)
Lemma D_add a b d : D (mk2 OAdd a b) = Ok d -> exists ga gb, D2 a ga /\ D2 b gb /\ r2 OAdd ga gb d.
Proof.
  intros H. rewrite deriv_mk2 in H by reflexivity. do 2 inv_bind H. cbn [raw2] in H.
  apply agg2_inv in H as (ga & gb & H1 & H2 & H3); [|reflexivity].
  exists ga, gb. split; [eexists; eauto|]. split; [eexists; eauto|assumption].
Qed.
Lemma D_sub a b d : D (mk2 OSub a b) = Ok d -> exists ga gb, D2 a ga /\ D2 b gb /\ r2 OSub ga gb d.
Proof.
  intros H. rewrite deriv_mk2 in H by reflexivity. do 2 inv_bind H. cbn [raw2] in H.
  apply agg2_inv in H as (ga & gb & H1 & H2 & H3); [|reflexivity].
  exists ga, gb. split; [eexists; eauto|]. split; [eexists; eauto|assumption].
Qed.
Lemma D_mul a b d : D (mk2 OMul a b) = Ok d -> exists ga gb A B X Y, D2 a ga /\ D2 b gb /\
  agg a = Ok A /\ agg b = Ok B /\ r2 OMul ga B X /\ r2 OMul A gb Y /\ r2 OAdd X Y d.
Proof.
  intros H. rewrite deriv_mk2 in H by reflexivity. do 2 inv_bind H. cbn [raw2] in H.
  apply agg2_inv in H as (X & Y & H1 & H2 & H3); [|reflexivity].
  apply agg2_inv in H1 as (ga & B & H11 & H12 & H13); [|reflexivity].
  apply agg2_inv in H2 as (A & gb & H21 & H22 & H23); [|reflexivity].
  exists ga, gb, A, B, X, Y. split; [eexists; eauto|]. split; [eexists; eauto|]. auto.
Qed.
Lemma D_div a b d : D (mk2 ODiv a b) = Ok d -> exists ga gb A B X Y N M, D2 a ga /\ D2 b gb /\
  agg a = Ok A /\ agg b = Ok B /\ r2 OMul ga B X /\ r2 OMul A gb Y /\ r2 OSub X Y N /\ r2 OMul B B M /\
  r2 ODiv N M d.
Proof.
  intros H. rewrite deriv_mk2 in H by reflexivity. do 2 inv_bind H. cbn [raw2] in H.
  apply agg2_inv in H as (N & M & H1 & H2 & H3); [|reflexivity].
  apply agg2_inv in H1 as (X & Y & H4 & H5 & H6); [|reflexivity].
  apply agg2_inv in H4 as (ga & B & H11 & H12 & H13); [|reflexivity].
  apply agg2_inv in H5 as (A & gb & H21 & H22 & H23); [|reflexivity].
  apply agg2_inv in H2 as (B' & B'' & H31 & H32 & H33); [|reflexivity].
  rewrite H12 in H31, H32. injection H31 as <-. injection H32 as <-.
  exists ga, gb, A, B, X, Y, N, M. split; [eexists; eauto|]. split; [eexists; eauto|]. auto 10.
Qed.
Lemma D_pow a b d : D (mk2 OPow a b) = Ok d -> exists ga gb A B p q u1 u2 u3 w, D2 a ga /\ D2 b gb /\
  agg a = Ok A /\ agg b = Ok B /\ r2 OPow A B p /\ r1 OLn A q /\ r2 OMul gb q u1 /\ r2 OMul B ga u2 /\
  r2 ODiv u2 A u3 /\ r2 OAdd u1 u3 w /\ r2 OMul p w d.
Proof.
  intros H. rewrite deriv_mk2 in H by reflexivity. do 2 inv_bind H. cbn [raw2] in H.
  apply agg2_inv in H as (p & w & H1 & H2 & H3); [|reflexivity].
  apply agg2_inv in H1 as (A & B & HA & HB & H4); [|reflexivity].
  apply agg2_inv in H2 as (u1 & u3 & H5 & H6 & H7); [|reflexivity].
  apply agg2_inv in H5 as (gb & q & H8 & H9 & H10); [|reflexivity].
  apply agg1_inv in H9 as (A' & HA' & H11); [|reflexivity]. rewrite HA in HA'. injection HA' as <-.
  apply agg2_inv in H6 as (u2 & A' & H12 & HA' & H13); [|reflexivity]. rewrite HA in HA'. injection HA' as <-.
  apply agg2_inv in H12 as (B' & ga & HB' & H14 & H15); [|reflexivity]. rewrite HB in HB'. injection HB' as <-.
  exists ga, gb, A, B, p, q, u1, u2, u3, w. split; [eexists; eauto|]. split; [eexists; eauto|]. auto 12.
Qed.
Lemma D_neg a d : D (mk1 ONeg a) = Ok d -> exists ga, D2 a ga /\ r1 ONeg ga d.
Proof.
  intros H. rewrite deriv_mk1 in H by reflexivity. inv_bind H. cbn [raw1] in H.
  apply agg1_inv in H as (ga & H1 & H2); [|reflexivity]. exists ga. split; [eexists; eauto|assumption].
Qed.
Lemma D_sin a d : D (mk1 OSin a) = Ok d -> exists ga A c, D2 a ga /\ agg a = Ok A /\ r1 OCos A c /\ r2 OMul c ga d.
Proof.
  intros H. rewrite deriv_mk1 in H by reflexivity. inv_bind H. cbn [raw1] in H.
  apply agg2_inv in H as (c & ga & H1 & H2 & H3); [|reflexivity].
  apply agg1_inv in H1 as (A & H4 & H5); [|reflexivity]. exists ga, A, c. split; [eexists; eauto|auto].
Qed.
Lemma D_cos a d : D (mk1 OCos a) = Ok d -> exists ga A s s', D2 a ga /\ agg a = Ok A /\ r1 OSin A s /\
  r1 ONeg s s' /\ r2 OMul s' ga d.
Proof.
  intros H. rewrite deriv_mk1 in H by reflexivity. inv_bind H. cbn [raw1] in H.
  apply agg2_inv in H as (s' & ga & H1 & H2 & H3); [|reflexivity].
  apply agg1_inv in H1 as (s & H4 & H5); [|reflexivity].
  apply agg1_inv in H4 as (A & H6 & H7); [|reflexivity]. exists ga, A, s, s'. split; [eexists; eauto|auto].
Qed.
Lemma D_exp a d : D (mk1 OExp a) = Ok d -> exists ga A c, D2 a ga /\ agg a = Ok A /\ r1 OExp A c /\ r2 OMul ga c d.
Proof.
  intros H. rewrite deriv_mk1 in H by reflexivity. inv_bind H. cbn [raw1] in H.
  apply agg2_inv in H as (ga & c & H1 & H2 & H3); [|reflexivity].
  apply agg1_inv in H2 as (A & H4 & H5); [|reflexivity]. exists ga, A, c. split; [eexists; eauto|auto].
Qed.
Lemma D_ln a d : D (mk1 OLn a) = Ok d -> exists ga A, D2 a ga /\ agg a = Ok A /\ r2 ODiv ga A d.
Proof.
  intros H. rewrite deriv_mk1 in H by reflexivity. inv_bind H. cbn [raw1] in H.
  apply agg2_inv in H as (ga & A & H1 & H2 & H3); [|reflexivity]. exists ga, A. split; [eexists; eauto|auto].
Qed.

Lemma D2_wf e g : wf e -> D2 e g -> wf g.
Proof. intros W (d & H1 & H2). eapply agg_wf; [|exact H2]. eapply deriv_wf; eassumption. Qed.

Ltac nw2 t a b z := match goal with H : r2 t a b z |- _ => apply (NW_2 m t a b z); [reflexivity|discriminate| | |exact H] end.

Lemma D_QN e : wf e -> Hh e -> forall d, D e = Ok d -> QN d.
Proof.
  intros W. pattern e. revert e W. apply wf_ind1.
  - intros n _ _ d [= <-]. apply QN_nf. constructor.
  - intros y _ d. rewrite deriv_var. intros [= <-]. apply QN_nf. destruct (String.eqb x y); constructor.
  - intros t a Ht Wa IH HH d H. pose proof (Hh_1 _ _ _ HH) as Ha.
    assert (forall ga, D2 a ga -> NW ga) as Ga.
    { intros ga Hg. split; [|apply (D2_wf a); assumption]. destruct Hg as (da & H1 & H2).
      eapply QN_agg; [|exact H2]. auto. }
    apply QN_nf. destruct t; try discriminate Ht.
    + apply D_neg in H as (ga & H1 & H2). apply (NW_1 m ONeg ga d eq_refl (Ga _ H1) H2).
    + apply D_sin in H as (ga & A & c & H1 & H2 & H3 & H4).
      refine (proj1 (NW_2 m OMul c ga d eq_refl _ _ (Ga _ H1) H4)); [discriminate|].
      exact (NW_1 m OCos A c eq_refl (Hh_agg _ _ _ Ha H2) H3).
    + apply D_cos in H as (ga & A & s & s' & H1 & H2 & H3 & H4 & H5).
      refine (proj1 (NW_2 m OMul s' ga d eq_refl _ _ (Ga _ H1) H5)); [discriminate|].
      refine (NW_1 m ONeg s s' eq_refl _ H4). exact (NW_1 m OSin A s eq_refl (Hh_agg _ _ _ Ha H2) H3).
    + apply D_exp in H as (ga & A & c & H1 & H2 & H3 & H4).
      refine (proj1 (NW_2 m OMul ga c d eq_refl _ (Ga _ H1) _ H4)); [discriminate|].
      exact (NW_1 m OExp A c eq_refl (Hh_agg _ _ _ Ha H2) H3).
    + apply D_ln in H as (ga & A & H1 & H2 & H3).
      refine (proj1 (NW_2 m ODiv ga A d eq_refl _ (Ga _ H1) (Hh_agg _ _ _ Ha H2) H3)). discriminate.
  - intros t a b Ht Wa Wb IHa IHb HH d H. destruct (Hh_2 _ _ _ _ HH) as [Ha Hb].
    assert (forall ga, D2 a ga -> NW ga) as Ga.
    { intros ga Hg. split; [|apply (D2_wf a); assumption]. destruct Hg as (da & H1 & H2).
      eapply QN_agg; [|exact H2]. auto. }
    assert (forall ga, D2 b ga -> NW ga) as Gb.
    { intros ga Hg. split; [|apply (D2_wf b); assumption]. destruct Hg as (da & H1 & H2).
      eapply QN_agg; [|exact H2]. auto. }
    destruct t; try discriminate Ht.
    + apply D_add in H as (ga & gb & H1 & H2 & H3). apply QN_nf.
      refine (proj1 (NW_2 m OAdd ga gb d eq_refl _ (Ga _ H1) (Gb _ H2) H3)). discriminate.
    + apply D_sub in H as (ga & gb & H1 & H2 & H3).
      destruct (subf_cases m _ _ _ (proj1 (Ga _ H1)) (proj1 (Gb _ H2)) H3) as [K|(v & -> & ->)].
      * apply QN_nf. exact K.
      * apply QN_nn. exact (proj1 (Gb _ H2)).
    + apply D_mul in H as (ga & gb & A & B & X & Y & H1 & H2 & HA & HB & HX & HY & H3). apply QN_nf.
      apply Ga in H1. apply Gb in H2. apply (Hh_agg _ _ _ Ha) in HA. apply (Hh_agg _ _ _ Hb) in HB.
      apply (NW_2 m OAdd X Y d); [reflexivity|discriminate| | |exact H3].
      * nw2 OMul ga B X; assumption.
      * nw2 OMul A gb Y; assumption.
    + apply D_div in H as (ga & gb & A & B & X & Y & N & M & H1 & H2 & HA & HB & HX & HY & HN & HM & H3).
      apply Ga in H1. apply Gb in H2. apply (Hh_agg _ _ _ Ha) in HA. apply (Hh_agg _ _ _ Hb) in HB.
      assert (NW X) as NX by (nw2 OMul ga B X; assumption).
      assert (NW Y) as NY by (nw2 OMul A gb Y; assumption).
      assert (NW M) as NM by (nw2 OMul B B M; assumption).
      pose proof (wf_r2 m OSub X Y N eq_refl NX NY HN) as WN.
      destruct (subf_cases m _ _ _ (proj1 NX) (proj1 NY) HN) as [K|(v & -> & ->)].
      * apply QN_nf. apply (NW_2 m ODiv N M d); [reflexivity|discriminate| |assumption|exact H3]. split; assumption.
      * apply rule2_ar in H3; [|reflexivity]. inversion H3; subst; try discriminate.
        apply QN_div; [exact (proj1 NY)|exact (proj1 NM)].
    + apply D_pow in H as (ga & gb & A & B & p & q & u1 & u2 & u3 & w & H1 & H2 & HA & HB & Hp & Hq & Hu1 & Hu2 & Hu3 & Hw & H3).
      apply Ga in H1. apply Gb in H2. apply (Hh_agg _ _ _ Ha) in HA. apply (Hh_agg _ _ _ Hb) in HB.
      apply QN_nf. apply (NW_2 m OMul p w d); [reflexivity|discriminate| | |exact H3].
      * nw2 OPow A B p; assumption.
      * nw2 OAdd u1 u3 w.
        -- nw2 OMul gb q u1; [assumption|]. exact (NW_1 m OLn A q eq_refl HA Hq).
        -- nw2 ODiv u2 A u3; [|assumption]. nw2 OMul B ga u2; assumption.
Qed.
Lemma D2_NW e g : Hh e -> D2 e g -> NW g.
Proof.
  intros H Hg. split; [|eapply D2_wf; [apply H|eassumption]]. destruct Hg as (d & H1 & H2).
  eapply QN_agg; [|exact H2]. eapply D_QN; [apply H|exact H|exact H1].
Qed.
Lemma D2_zero e g d : Hh e -> D e = Ok d -> agg d = Ok g -> is_zero g = true -> is_zero d = true.
Proof.
  intros H Hd Hg Hz. pose proof (D_QN e (proj1 H) H d Hd) as Q. inversion Q as [e' N|v N|v M N NM]; subst.
  - rewrite (NF_fix _ _ N) in Hg. congruence.
  - apply negneg_agg in Hg as ->; [|assumption]. apply NF_neg_inv in N as (_ & N & _).
    rewrite (zero_num v Hz) in N. discriminate.
  - exfalso. apply agg2_inv in Hg as (a' & b' & Ha & Hb & Hr); [|reflexivity].
    apply negneg_agg in Ha as ->; [|assumption]. apply NF_neg_inv in N as (_ & N & _).
    apply rule2_ar in Hr; [|reflexivity]. inversion Hr; subst; try discriminate.
    match goal with K : is_zero v = true |- _ => rewrite (zero_num v K) in N; discriminate end.
Qed.

(** ** case analyses *)
Lemma one_num e : is_one e = true -> is_num e = true.
Proof. destruct e as [[op|[n|y]] k]; try discriminate. reflexivity. Qed.
Lemma addf_inv a b z : r2 OAdd a b z ->
  (is_num a = true /\ is_num b = true /\ is_num z = true) \/
  (is_zero a = true /\ is_num b = false /\ z = b) \/
  (is_zero b = true /\ is_num a = false /\ z = a) \/
  (z = mk2 OAdd a b /\ is_num a && is_num b = false /\ is_zero a = false /\ is_zero b = false).
Proof.
  intros H. apply rule2_ar in H; [|reflexivity]. inversion H; subst; auto 6.
  - right. left. split; [assumption|]. split; [|reflexivity].
    match goal with K : is_num a && is_num _ = false |- _ => rewrite (zero_num a) in K by assumption; exact K end.
  - right. right. left. split; [assumption|]. split; [|reflexivity].
    match goal with K : is_num _ && is_num b = false |- _ => rewrite (zero_num b) in K by assumption; rewrite andb_true_r in K; exact K end.
  - right. right. right. repeat split; assumption.
Qed.
Lemma subf_inv a b z : r2 OSub a b z ->
  (is_num a = true /\ is_num b = true /\ is_num z = true) \/
  (is_zero a = true /\ is_num b = false /\ z = e_neg b) \/
  (is_zero b = true /\ is_num a = false /\ z = a) \/
  (z = mk2 OSub a b /\ is_num a && is_num b = false /\ is_zero a = false /\ is_zero b = false).
Proof.
  intros H. apply rule2_ar in H; [|reflexivity]. inversion H; subst; auto 6.
  - right. left. split; [assumption|]. split; [|reflexivity].
    match goal with K : is_num a && is_num _ = false |- _ => rewrite (zero_num a) in K by assumption; exact K end.
  - right. right. left. split; [assumption|]. split; [|reflexivity].
    match goal with K : is_num _ && is_num b = false |- _ => rewrite (zero_num b) in K by assumption; rewrite andb_true_r in K; exact K end.
  - right. right. right. repeat split; assumption.
Qed.
Lemma mulf_inv a b z : r2 OMul a b z ->
  (is_num z = true /\ (is_num a && is_num b = true \/ is_zero a || is_zero b = true)) \/
  (is_one a = true /\ is_num b = false /\ z = b) \/
  (is_one b = true /\ is_num a = false /\ z = a) \/
  (z = mk2 OMul a b /\ is_num a && is_num b = false /\ is_zero a = false /\ is_zero b = false /\
   is_one a = false /\ is_one b = false).
Proof.
  intros H. apply rule2_ar in H; [|reflexivity]. inversion H; subst; auto 6.
  - right. left. split; [assumption|]. split; [|reflexivity].
    match goal with K : is_num a && is_num _ = false |- _ => rewrite (one_num a) in K by assumption; exact K end.
  - right. right. left. split; [assumption|]. split; [|reflexivity].
    match goal with K : is_num _ && is_num b = false |- _ => rewrite (one_num b) in K by assumption; rewrite andb_true_r in K; exact K end.
  - right. right. right.
    match goal with K : is_zero a || is_zero b = false |- _ => apply orb_false_iff in K as [? ?] end.
    repeat split; assumption.
Qed.
Lemma divf_inv a b z : r2 ODiv a b z ->
  (is_num z = true /\ (is_num a && is_num b = true \/ is_zero a = true)) \/
  (z = mk2 ODiv a b /\ is_num a && is_num b = false /\ is_zero a = false).
Proof. intros H. apply rule2_ar in H; [|reflexivity]. inversion H; subst; auto 6. Qed.

(** ** the values found are never [BoundedFluctuation] *)
Lemma noBF f : forall e z, lim f e = Ok (ROk z) -> z <> BoundedFluctuation.
Proof.
  induction f as [|f IH]; intros e z H; [discriminate|]. rewrite lim_S in H. apply qbind_ok in H as (w & H & Hp).
  assert (w <> BoundedFluctuation) as N.
  2: { destruct w; cbn [post] in Hp; try congruence. inv_bind Hp. congruence. }
  clear Hp z. unfold limit_rule in H. destruct (root e) as [op|[n|y]].
  - destruct (descriptor op).
    + inv_bind H. injection H as <-. rewrite neg_limit_panics in Hb. discriminate.
    + unfold add_limit_expr_rule in H. inv_bind H. destruct a as [r_ rest]. inv_bind H. destruct a as [l_ rest'].
      apply qbind_ok in H as (r & Hr & H). apply qbind_ok in H as (l & Hl & H).
      apply IH in Hr as Nr. apply IH in Hl as Nl. destruct (l_add l r) eqn:E; [|eapply IH; exact H].
      injection H as <-. destruct l, r; cbn [l_add] in E; unfold lerr in E; congruence.
    + unfold sub_limit_expr_rule in H. inv_bind H. destruct a as [r_ rest]. inv_bind H. destruct a as [l_ rest'].
      eapply IH; exact H.
    + unfold mul_limit_expr_rule in H. inv_bind H. destruct a as [r_ rest]. inv_bind H. destruct a as [l_ rest'].
      apply qbind_ok in H as (r & Hr & H). apply qbind_ok in H as (l & Hl & H).
      apply IH in Hr as Nr. apply IH in Hl as Nl. destruct (l_mul l r) eqn:E.
      * injection H as <-. destruct l, r; cbn [l_mul] in E; unfold lerr in E; congruence.
      * destruct (lim_is_zero r); eapply IH; exact H.
    + unfold div_limit_expr_rule in H. inv_bind H. destruct a as [r_ rest]. inv_bind H. destruct a as [l_ rest'].
      clear Hb Hb0. revert l_ r_ H. induction (Z.to_nat (ord + 1)) as [|n IHn]; intros l_ r_ H; [discriminate|].
      cbn [div_loop] in H. apply qbind_ok in H as (l & Hl & H). apply qbind_ok in H as (r & Hr & H).
      apply IH in Hr as Nr. apply IH in Hl as Nl. destruct (l_div l r) eqn:E.
      * injection H as <-. destruct l, r; cbn [l_div] in E; unfold lerr in E; try congruence;
          repeat match type of E with context [if ?c then _ else _] => destruct c end; congruence.
      * do 2 inv_bind H. eapply IHn. exact H.
    + unfold sin_limit_expr_rule, subst_limit in H. destruct (is_zero to); [congruence|].
      inv_bind H. destruct (is_zero a); congruence.
    + unfold cos_limit_expr_rule, subst_limit in H. inv_bind H. destruct (is_zero a); congruence.
    + discriminate.
    + discriminate.
    + discriminate.
  - congruence.
  - destruct (String.eqb y x); [destruct (is_zero to)|]; congruence.
Qed.
Lemma L_noBF e z : L e (Ok (ROk z)) -> z <> BoundedFluctuation.
Proof. intros [_ [f H]]. eapply noBF. apply (H f). lia. Qed.

(** ** chains *)
Definition TC e := forall k, Tch k e.
Lemma TC_intro e : wf e -> T e -> (ok e -> forall d, D e = Ok d -> TC d) -> TC e.
Proof. intros W Te H [|k]; cbn [LimTerm.Tch]; split; auto; split; auto. intros K d Hd. apply H; assumption. Qed.
Lemma TC_stuck e : wf e -> T e -> ~ ok e -> TC e.
Proof. intros W Te N. apply TC_intro; tauto. Qed.
Lemma TC_T e : TC e -> T e. Proof. intros H. exact (Tch_T _ _ _ _ O e (H O)). Qed.
Lemma num_T e : is_num e = true -> T e.
Proof. intros N. apply is_num_inv in N as (n & k & ->). apply leaf_T. Qed.
Lemma TC_num e : is_num e = true -> wf e -> TC e.
Proof.
  intros N W k. revert e N W. induction k as [|k IH]; intros e N W; cbn [LimTerm.Tch]; (split; [assumption|]); (split; [apply num_T; assumption|]); [exact I|].
  intros _ d Hd. rewrite D_num in Hd by assumption. injection Hd as <-. apply IH; [reflexivity|apply wf_zero].
Qed.
Lemma T_over n M : is_num n = true -> is_zero n = false -> wf n -> wf M -> T M -> T (mk2 ODiv n M).
Proof.
  intros N Z Wn WM TM. apply T_div1; try assumption; [apply num_T; assumption|].
  intros za zb La Lb. apply num_ok_val in La as ->; [|assumption]. apply L_noBF in Lb.
  apply is_num_inv in N as (v & k & ->). cbn [root]. change (is_zero (e_num v) = false) in Z.
  destruct zb; cbn [l_div]; try congruence; try (eexists; reflexivity). rewrite Z. eexists. reflexivity.
Qed.
Lemma T_sq b : T b -> T (mk2 OMul b b).
Proof.
  intros Tb. apply T_mul; try assumption. intros za zb er La Lb E. pose proof (L_det _ _ _ _ _ _ _ La Lb) as K.
  injection K as <-. destruct za; discriminate E.
Qed.
Lemma D2_det e g g' : D2 e g -> D2 e g' -> g = g'.
Proof. intros (d & H1 & H2) (d' & H3 & H4). congruence. Qed.
Lemma D2_num e g : is_num e = true -> wf e -> D2 e g -> g = e_zero.
Proof. intros N W (d & H1 & H2). rewrite D_num in H1 by assumption. injection H1 as <-. injection H2 as <-. reflexivity. Qed.

(** derivative of a square *)
Lemma D_sq b gb d : NW b -> is_num b = false -> D2 b gb -> is_zero gb = false -> D (mk2 OMul b b) = Ok d ->
  exists X Y, d = mk2 OAdd X Y /\ r2 OMul gb b X /\ r2 OMul b gb Y /\ NW d.
Proof.
  intros Nb Nn Hg Zg H. apply D_mul in H as (ga & gb' & A & B & X & Y & H1 & H2 & HA & HB & HX & HY & H3).
  assert (ga = gb) as -> by (eapply D2_det; eassumption). assert (gb' = gb) as -> by (eapply D2_det; eassumption).
  rewrite (NW_agg _ _ Nb) in HA, HB. injection HA as <-. injection HB as <-.
  assert (NW gb) as Ng. { apply (D2_NW b); [apply NW_Hh; assumption|assumption]. }
  assert (is_one b = false) as O1. { destruct (is_one b) eqn:E; [|reflexivity]. apply one_num in E. congruence. }
  assert (is_zero b = false) as Z1. { destruct (is_zero b) eqn:E; [|reflexivity]. apply zero_num in E. congruence. }
  assert (is_num X = false) as NX.
  { apply mulf_inv in HX as [(_ & [K|K])|[(_ & _ & ->)|[(K & _)|(-> & _)]]]; try assumption; try congruence; try reflexivity.
    - rewrite Nn, andb_false_r in K. discriminate.
    - rewrite Zg, Z1 in K. discriminate. }
  assert (is_num Y = false) as NY.
  { apply mulf_inv in HY as [(_ & [K|K])|[(K & _)|[(_ & _ & ->)|(-> & _)]]]; try assumption; try congruence; try reflexivity.
    - rewrite Nn in K. discriminate.
    - rewrite Zg, Z1 in K. discriminate. }
  exists X, Y. assert (d = mk2 OAdd X Y) as ->.
  { apply addf_inv in H3 as [(K & _)|[(K & _)|[(K & _)|(-> & _)]]]; try reflexivity; try congruence; apply zero_num in K; congruence. }
  repeat split; try assumption.
  - apply (NW_2 m OAdd X Y); [reflexivity|discriminate| | |exact H3].
    + apply (NW_2 m OMul gb b X); [reflexivity|discriminate| | |exact HX]; assumption.
    + apply (NW_2 m OMul b gb Y); [reflexivity|discriminate| | |exact HY]; assumption.
  - apply (deriv_wf m x (mk2 OMul b b)).
    + apply wf_mk2; [reflexivity|apply Nb|apply Nb].
    + rewrite deriv_mk2 by reflexivity. destruct Hg as (db & E1 & E2). rewrite E1. cbn [bind raw2].
      unfold e_add, e_mul. rewrite agg_mk2 by reflexivity. rewrite !agg_mk2 by reflexivity. rewrite E2, (NW_agg _ _ Nb).
      cbn [bind]. change (eval_rule m OMul [Ok b; Ok gb]) with (eval_rule m OMul [Ok b; Ok gb]).
      unfold LimTerm.r2 in HX, HY, H3. rewrite HX, HY. exact H3.
Qed.

(** the denominator [M] of a derivative over [b] *)
Lemma sq_node b M : is_num b = false -> r2 OMul b b M -> M = mk2 OMul b b.
Proof.
  intros N H. apply mulf_inv in H as [(_ & [K|K])|[(K & _)|[(K & _)|(-> & _)]]]; try reflexivity.
  - rewrite N in K. discriminate.
  - rewrite orb_diag in K. apply zero_num in K. congruence.
  - apply one_num in K. congruence.
  - apply one_num in K. congruence.
Qed.
Lemma stuck_div u M : stuck_root u = true -> T (mk2 ODiv u M) /\ ~ ok (mk2 ODiv u M).
Proof.
  intros H. apply (stuck_T m x to ord) in H as [H1 H2]. split; [apply T_div2; assumption|].
  intros K. apply ok_2 in K as [K _]; [tauto|]. cbn. auto.
Qed.
Lemma node_nonnum b z : is_num b = false -> NW b -> r2 OMul b b z -> NW z.
Proof. intros N Nb H. apply (NW_2 m OMul b b z); [reflexivity|discriminate| | |exact H]; assumption. Qed.

(** number / square: what its derivative looks like *)
Lemma D_num_sq n b gb d : NW n -> is_num n = true -> is_zero n = false -> NW b -> is_num b = false ->
  D2 b gb -> is_zero gb = false -> D (mk2 ODiv n (mk2 OMul b b)) = Ok d ->
  exists u M, d = mk2 ODiv (e_neg u) M /\ NW d.
Proof.
  intros Nn Hn Zn Nb Hb Hg Zg H.
  assert (NW (mk2 OMul b b)) as NM.
  { split; [apply NF_2; [reflexivity|apply Nb|apply Nb|]|apply wf_mk2; [reflexivity|apply Nb|apply Nb]].
    cbn [eval_rule]. unfold mul_eval_rule. cbn -[is_num is_zero is_one e_mul]. rewrite Hb. cbn [andb].
    destruct (is_zero b) eqn:E; [apply zero_num in E; congruence|]. cbn [orb].
    destruct (is_one b) eqn:E'; [apply one_num in E'; congruence|]. reflexivity. }
  apply D_div in H as (ga & gM & A & B & X & Y & N & M & H1 & H2 & HA & HB & HX & HY & HN & HM & H3).
  rewrite (NW_agg _ _ Nn) in HA. injection HA as <-. rewrite (NW_agg _ _ NM) in HB. injection HB as <-.
  apply (D2_num n ga Hn (proj2 Nn)) in H1 as ->.
  assert (NW gM) as NgM by (apply (D2_NW (mk2 OMul b b)); [apply NW_Hh; assumption|assumption]).
  assert (NW X) as NX by (apply (NW_2 m OMul e_zero (mk2 OMul b b) X); [reflexivity|discriminate|apply NW_zero|assumption|exact HX]).
  assert (NW Y) as NY by (apply (NW_2 m OMul n gM Y); [reflexivity|discriminate|assumption|assumption|exact HY]).
  assert (is_zero X = true) as ZX by (eapply mulf_zero; [apply NW_zero|exact NM|reflexivity|exact HX]).
  destruct H2 as (dM & E1 & E2). destruct (D_sq b gb dM Nb Hb Hg Zg E1) as (p & q & Ed & _ & _ & Nd).
  rewrite (NW_agg _ _ Nd) in E2. injection E2 as <-. subst dM.
  assert (is_num Y = false /\ root_is ONeg Y = false) as [KY1 KY2].
  { apply mulf_inv in HY as [(_ & [K|K])|[(K & _ & ->)|[(K & _)|(-> & _)]]]; try discriminate; try (split; reflexivity).
    - rewrite andb_false_r in K. discriminate.
    - rewrite Zn in K. discriminate. }
  destruct (subf_zl m X Y N NX NY ZX HN) as [(K & _)|(_ & ->)]; [congruence|].
  exists Y, M. assert (NW M) as NMM by (apply (NW_2 m OMul (mk2 OMul b b) (mk2 OMul b b) M); [reflexivity|discriminate|assumption|assumption|exact HM]).
  apply divf_inv in H3 as Hd. destruct Hd as [(_ & [K|K])|(-> & _)]; try discriminate. split; [reflexivity|].
  destruct (subf_cases m _ _ _ (proj1 NX) (proj1 NY) HN) as [K|(v & -> & _)]; [|discriminate KY2].
  pose proof (wf_r2 m OSub X Y _ eq_refl NX NY HN) as WN.
  apply (NW_2 m ODiv (e_neg Y) M); [reflexivity|discriminate| |exact NMM|exact H3]. split; assumption.
Qed.

(** [1/a] never fails at the first attempt, and its chain is short *)
Lemma L_inv a : NW a -> T a -> is_num a = false -> TC (mk2 ODiv e_one a).
Proof.
  intros Na Ta Nn. assert (wf (mk2 ODiv e_one a)) as W by (apply wf_mk2; [reflexivity|apply wf_one|apply Na]).
  apply TC_intro; [exact W|apply T_over; try reflexivity; [apply wf_one|apply Na|exact Ta]|].
  intros _ d H. pose proof (deriv_wf _ _ _ _ W H) as Wd.
  apply D_div in H as (ga & gb & A & B & X & Y & N & M & H1 & H2 & HA & HB & HX & HY & HN & HM & H3).
  rewrite (NW_agg _ _ (NW_one m)) in HA. injection HA as <-. rewrite (NW_agg _ _ Na) in HB. injection HB as <-.
  apply D2_num in H1 as ->; [|reflexivity|apply wf_one].
  assert (NW gb) as Ngb by (apply (D2_NW a); [apply NW_Hh; assumption|assumption]).
  assert (NW X) as NX by (apply (NW_2 m OMul e_zero a X); [reflexivity|discriminate|apply NW_zero|assumption|exact HX]).
  assert (NW Y) as NY by (apply (NW_2 m OMul e_one gb Y); [reflexivity|discriminate|apply NW_one|assumption|exact HY]).
  assert (is_zero X = true) as ZX by (eapply mulf_zero; [apply NW_zero|exact Na|reflexivity|exact HX]).
  pose proof (sq_node a M Nn HM) as ->.
  pose proof (wf_r2 m OSub X Y N eq_refl NX NY HN) as WN.
  destruct (subf_zl m X Y N NX NY ZX HN) as [(NumY & NumN & ZN)|(_ & ->)].
  - apply divf_inv in H3 as [(K & _)|(-> & _ & ZN')].
    + apply TC_num; assumption.
    + assert (is_zero gb = false) as Zg.
      { destruct (is_zero gb) eqn:E; [|reflexivity]. rewrite ZN in ZN'; [discriminate|].
        eapply mulf_zero; [apply NW_one|exact Ngb| |exact HY]. rewrite E. apply orb_true_r. }
      apply TC_intro; [exact Wd|apply T_over; try assumption; [apply wf_mk2; [reflexivity|apply Na|apply Na]|apply T_sq; exact Ta]|].
      intros _ d Hd. pose proof (deriv_wf _ _ _ _ Wd Hd) as Wd'.
      destruct (D_num_sq N a gb d (num_NW m N NumN WN) NumN ZN' Na Nn H2 Zg Hd) as (u & M' & -> & _).
      destruct (stuck_div (e_neg u) M' eq_refl) as [K1 K2]. apply TC_stuck; assumption.
  - apply divf_inv in H3 as [(K & [K'|K'])|(-> & _)]; try discriminate.
    destruct (stuck_div (e_neg Y) (mk2 OMul a a) eq_refl) as [K1 K2]. apply TC_stuck; assumption.
Qed.

(** ** expressions all of whose derivatives can be handled: [n] bounds the length of the chain *)
Definition Zd e := forall d, D e = Ok d -> is_zero d = true.
Fixpoint P (n : nat) (e : expr) : Prop :=
  NW e /\ T e /\ (ok e -> Zd e \/
    match n with
    | O => False
    | S n' => forall g, D2 e g -> P n' g /\ (forall u, g = e_neg u -> TC u)
    end).
Definition PX e := exists n, P n e.
Lemma P_NW n e : P n e -> NW e. Proof. destruct n; intros H; apply H. Qed.
Lemma P_T n e : P n e -> T e. Proof. destruct n; intros H; apply H. Qed.
Lemma P_S n : forall e, P n e -> P (S n) e.
Proof.
  induction n as [|n IH]; intros e (N & Te & H); (split; [exact N|]); (split; [exact Te|]); intros K.
  - destruct (H K) as [Z|[]]. left. exact Z.
  - destruct (H K) as [Z|G]; [left; exact Z|right]. intros g Hg. destruct (G g Hg) as [G1 G2]. split; [apply IH; exact G1|exact G2].
Qed.
Lemma P_le n k e : (n <= k)%nat -> P n e -> P k e.
Proof. induction 1; [auto|]. intros H'. apply P_S. auto. Qed.
Lemma ok_dec e : T e -> ok e \/ ~ ok e.
Proof.
  intros (r & H). destruct r as [[z|er]| | |].
  - left. exists z. exact H.
  - right. intros [z K]. pose proof (L_det _ _ _ _ _ _ _ H K). discriminate.
  - right. intros [z K]. pose proof (L_det _ _ _ _ _ _ _ H K). discriminate.
  - right. intros [z K]. pose proof (L_det _ _ _ _ _ _ _ H K). discriminate.
  - destruct H as [H _]. congruence.
Qed.
Lemma P_stuck n e : NW e -> T e -> ~ ok e -> P n e.
Proof. intros N Te K. destruct n; (split; [exact N|]); (split; [exact Te|]); tauto. Qed.
Lemma P_const n e : NW e -> T e -> Zd e -> P n e.
Proof. intros N Te K. destruct n; (split; [exact N|]); (split; [exact Te|]); auto. Qed.
Lemma Zd_num e : is_num e = true -> wf e -> Zd e.
Proof. intros N W d Hd. rewrite D_num in Hd by assumption. injection Hd as <-. reflexivity. Qed.
Lemma P_num n e : is_num e = true -> wf e -> P n e.
Proof. intros N W. apply P_const; [apply num_NW; assumption|apply num_T; assumption|apply Zd_num; assumption]. Qed.
Lemma stuck_P n e : NW e -> stuck_root e = true -> P n e.
Proof. intros N H. apply (stuck_T m x to ord) in H as [H1 H2]. apply P_stuck; assumption. Qed.

Lemma Zd_D2 e g : Zd e -> wf e -> D2 e g -> is_zero g = true /\ is_num g = true /\ wf g.
Proof.
  intros Z W (d & H1 & H2). pose proof (Z d H1) as K. pose proof (deriv_wf _ _ _ _ W H1) as Wd.
  rewrite (NW_agg _ _ (num_NW m d (zero_num d K) Wd)) in H2. injection H2 as <-. repeat split; auto. apply zero_num. exact K.
Qed.
Lemma P_intro e : NW e -> T e -> (ok e -> forall g, D2 e g -> PX g /\ (forall u, g = e_neg u -> TC u)) -> PX e.
Proof.
  intros N Te H. destruct (ok_dec e Te) as [K|K]; [|exists O; apply P_stuck; assumption].
  specialize (H K). destruct (D e) as [d| | |] eqn:Ed;
    try (exists 1%nat; split; [exact N|]; split; [exact Te|]; intros _; right; intros g (d' & E1 & _); congruence).
  destruct (agg d) as [g| | |] eqn:Eg;
    try (exists 1%nat; split; [exact N|]; split; [exact Te|]; intros _; right; intros g' (d' & E1 & E2); congruence).
  destruct (H g) as [[n Hn] Hu]; [exists d; auto|]. exists (S n). split; [exact N|]. split; [exact Te|]. intros _. right.
  intros g' Hg'. assert (g' = g) as ->. { eapply D2_det; [exact Hg'|exists d; auto]. } auto.
Qed.
Lemma PX_inv e g : PX e -> ok e -> D2 e g -> PX g /\ (forall u, g = e_neg u -> TC u).
Proof.
  intros [n Hn] K Hg. pose proof (P_NW _ _ Hn) as N. destruct n as [|n]; destruct Hn as (_ & _ & H); destruct (H K) as [Z|G];
    try contradiction.
  - destruct (Zd_D2 e g Z (proj2 N) Hg) as (_ & K1 & K2). split; [exists O; apply P_num; assumption|].
    intros u ->. discriminate.
  - destruct (Zd_D2 e g Z (proj2 N) Hg) as (_ & K1 & K2). split; [exists O; apply P_num; assumption|].
    intros u ->. discriminate.
  - destruct (G g Hg) as [G1 G2]. split; [exists n; exact G1|exact G2].
Qed.

Lemma P_TC n : forall e, P n e -> TC e.
Proof.
  assert (forall e, NW e -> T e -> Zd e -> TC e) as HZ.
  { intros e N Te Z. apply TC_intro; [apply N|exact Te|]. intros _ d Hd. pose proof (Z d Hd) as K.
    apply TC_num; [apply zero_num; exact K|]. eapply deriv_wf; [apply N|exact Hd]. }
  induction n as [|n IH]; intros e (N & Te & H); (apply TC_intro; [apply N|exact Te|]); intros K d Hd;
    destruct (H K) as [Z|G]; try contradiction;
    try (pose proof (Z d Hd) as K'; apply TC_num; [apply zero_num; exact K'|eapply deriv_wf; [apply N|exact Hd]]).
  assert (wf d) as Wd by (eapply deriv_wf; [apply N|exact Hd]).
  destruct (QN_T m x to ord d (D_QN e (proj2 N) (NW_Hh _ _ N) d Hd)) as [Nd|[Td Kd]].
  - apply IH. apply G. exists d. split; [exact Hd|]. apply NF_fix. exact Nd.
  - apply TC_stuck; assumption.
Qed.
Lemma PX_TC e : PX e -> TC e. Proof. intros [n H]. eapply P_TC; eassumption. Qed.
Lemma PX_NW e : PX e -> NW e. Proof. intros [n H]. eapply P_NW; eassumption. Qed.
Lemma PX_T e : PX e -> T e. Proof. intros [n H]. eapply P_T; eassumption. Qed.
Lemma PX_num e : is_num e = true -> wf e -> PX e. Proof. exists O. apply P_num; assumption. Qed.

(** *** multiplication and division by a constant *)
Definition C b := NW b /\ T b /\ Zd b.
Lemma C_num e : is_num e = true -> wf e -> C e.
Proof. intros N W. split; [apply num_NW; assumption|]. split; [apply num_T; assumption|apply Zd_num; assumption]. Qed.
Lemma C_TC b : C b -> TC b. Proof. intros (N & Tb & Z). apply (P_TC O). apply P_const; assumption. Qed.
Lemma mulf_NW a b z : NW a -> NW b -> r2 OMul a b z -> NW z.
Proof. intros Na Nb H. apply (NW_2 m OMul a b z); [reflexivity|discriminate| | |exact H]; assumption. Qed.
Lemma addf_NW a b z : NW a -> NW b -> r2 OAdd a b z -> NW z.
Proof. intros Na Nb H. apply (NW_2 m OAdd a b z); [reflexivity|discriminate| | |exact H]; assumption. Qed.
Lemma divf_NW a b z : NW a -> NW b -> r2 ODiv a b z -> NW z.
Proof. intros Na Nb H. apply (NW_2 m ODiv a b z); [reflexivity|discriminate| | |exact H]; assumption. Qed.
Lemma addf_zero a b z : NW a -> NW b -> is_zero a = true -> is_zero b = true -> r2 OAdd a b z -> is_zero z = true.
Proof.
  intros [_ Wa] [_ Wb] Za Zb H. destruct (num_wf _ (zero_num _ Za) Wa) as (u & -> & Ou).
  destruct (num_wf _ (zero_num _ Zb) Wb) as (v & -> & Ov).
  change ((let* w := sn_add m u v in Ok (e_num w)) = Ok z) in H. inv_bind H. injection H as <-.
  change (sn_is_zero u = true) in Za. unfold sn_add in Hb. rewrite Za in Hb. injection Hb as <-. exact Zb.
Qed.
(** product of constants *)
Lemma Zd_mul a b : NW a -> NW b -> Zd a -> Zd b -> Zd (mk2 OMul a b).
Proof.
  intros Na Nb Za Zb d H. apply D_mul in H as (ga & gb & A & B & X & Y & H1 & H2 & HA & HB & HX & HY & H3).
  rewrite (NW_agg _ _ Na) in HA. injection HA as <-. rewrite (NW_agg _ _ Nb) in HB. injection HB as <-.
  destruct (Zd_D2 a ga Za (proj2 Na) H1) as (K1 & K2 & K3). destruct (Zd_D2 b gb Zb (proj2 Nb) H2) as (J1 & J2 & J3).
  pose proof (num_NW m ga K2 K3) as Nga. pose proof (num_NW m gb J2 J3) as Ngb.
  eapply addf_zero; [| | | |exact H3].
  - eapply mulf_NW; [| |exact HX]; assumption.
  - eapply mulf_NW; [| |exact HY]; assumption.
  - eapply mulf_zero; [exact Nga|exact Nb| |exact HX]. rewrite K1. reflexivity.
  - eapply mulf_zero; [exact Na|exact Ngb| |exact HY]. rewrite J1. apply orb_true_r.
Qed.
Lemma C_sq b M : C b -> r2 OMul b b M -> C M.
Proof.
  intros (N & Tb & Z) H. pose proof (mulf_NW _ _ _ N N H) as NM.
  destruct (is_num b) eqn:E.
  - apply C_num; [|apply NM]. apply rule2_ar in H; [|reflexivity]. apply ar2_arith_num in H as (n & ->); try reflexivity.
    rewrite E. reflexivity.
  - pose proof (sq_node b M E H) as ->. split; [exact NM|]. split; [apply T_sq; exact Tb|]. apply Zd_mul; assumption.
Qed.

Lemma T_mul_node a b : NW a -> NW b -> TC a -> TC b -> T (mk2 OMul a b).
Proof.
  intros Na Nb Ca Cb. apply T_mul; [apply TC_T; assumption|apply TC_T; assumption|].
  intros za zb er La Lb E. destruct (err_nonnum_mul _ _ _ _ _ _ _ _ _ La Lb E) as [K1 K2].
  split; apply T_div; try assumption; apply L_inv; try assumption; apply TC_T; assumption.
Qed.

(** L3 *)
Lemma mul_const n : forall a b z, P n a -> C b -> r2 OMul a b z -> P n z.
Proof.
  induction n as [|n IH]; intros a b z Pa Cb H; pose proof (P_NW _ _ Pa) as Na; destruct Cb as (Nb & Tb & Zb);
    pose proof (mulf_NW _ _ _ Na Nb H) as Nz;
    apply mulf_inv in H as [(K & _)|[(K1 & K2 & ->)|[(K1 & K2 & ->)|(-> & K)]]];
    try (apply P_num; [assumption|apply Nz]); try (apply P_const; assumption); try assumption.
  - assert (T (mk2 OMul a b)) as Tz.
    { apply T_mul_node; try assumption; [eapply P_TC; eassumption|apply C_TC; exact (conj Nb (conj Tb Zb))]. }
    split; [exact Nz|]. split; [exact Tz|]. intros Ko. apply ok_2 in Ko as [Ka Kb]; [|cbn; auto].
    destruct Pa as (_ & _ & Ha). destruct (Ha Ka) as [Za|[]]. left. apply Zd_mul; assumption.
  - assert (T (mk2 OMul a b)) as Tz.
    { apply T_mul_node; try assumption; [eapply P_TC; eassumption|apply C_TC; exact (conj Nb (conj Tb Zb))]. }
    split; [exact Nz|]. split; [exact Tz|]. intros Ko. apply ok_2 in Ko as [Ka Kb]; [|cbn; auto].
    destruct Pa as (_ & Ta & Ha). destruct (Ha Ka) as [Za|Ga]; [left; apply Zd_mul; assumption|right].
    intros g (d & Hd & Hg). pose proof (D_QN _ (proj2 Nz) (NW_Hh _ _ Nz) d Hd) as Q.
    apply D_mul in Hd as (ga & gb & A & B & X & Y & H1 & H2 & HA & HB & HX & HY & H3).
    rewrite (NW_agg _ _ Na) in HA. injection HA as <-. rewrite (NW_agg _ _ Nb) in HB. injection HB as <-.
    destruct (Ga ga H1) as [Pga Uga]. pose proof (P_NW _ _ Pga) as Nga.
    destruct (Zd_D2 b gb Zb (proj2 Nb) H2) as (J1 & J2 & J3). pose proof (num_NW m gb J2 J3) as Ngb.
    pose proof (mulf_NW _ _ _ Nga Nb HX) as NX. pose proof (mulf_NW _ _ _ Na Ngb HY) as NY.
    assert (is_zero Y = true) as ZY by (eapply mulf_zero; [exact Na|exact Ngb| |exact HY]; rewrite J1; apply orb_true_r).
    pose proof (addf_NW _ _ _ NX NY H3) as Nd. rewrite (NW_agg _ _ Nd) in Hg. injection Hg as <-.
    pose proof (IH ga b X Pga (conj Nb (conj Tb Zb)) HX) as PX_.
    apply addf_inv in H3 as [(_ & _ & K')|[(_ & K' & _)|[(_ & _ & ->)|(_ & _ & _ & K')]]].
    + split; [apply P_num; [assumption|apply Nd]|]. intros u ->. discriminate.
    + rewrite (zero_num Y ZY) in K'. discriminate.
    + split; [exact PX_|]. intros u ->. apply mulf_inv in HX as [(K' & _)|[(_ & _ & E)|[(_ & _ & E)|(E & _)]]]; try discriminate.
      * destruct (stuck_T m x to ord b) as [_ S]; [rewrite <- E; reflexivity|]. contradiction.
      * apply Uga. symmetry. exact E.
    + congruence.
Qed.

(** L4 *)
Lemma div_const n : forall a b z, P n a -> C b -> r2 ODiv a b z -> P n z.
Proof.
  induction n as [|n IH]; intros a b z Pa Cb H; pose proof (P_NW _ _ Pa) as Na; pose proof Cb as (Nb & Tb & Zb);
    pose proof (divf_NW _ _ _ Na Nb H) as Nz;
    apply divf_inv in H as [(K & _)|(-> & K)];
    try (apply P_num; [assumption|apply Nz]).
  all: assert (T (mk2 ODiv a b)) as Tz by (apply T_div; [eapply P_TC; eassumption|apply C_TC; assumption]).
  all: split; [exact Nz|]; split; [exact Tz|]; intros Ko; apply ok_2 in Ko as [Ka Kb]; [|cbn; auto].
  all: assert (Zd a -> Zd (mk2 ODiv a b)) as HZ.
  1,3: intros Za d Hd;
    apply D_div in Hd as (ga & gb & A & B & X & Y & N & M & H1 & H2 & HA & HB & HX & HY & HN & HM & H3);
    rewrite (NW_agg _ _ Na) in HA; injection HA as <-; rewrite (NW_agg _ _ Nb) in HB; injection HB as <-;
    destruct (Zd_D2 b gb Zb (proj2 Nb) H2) as (J1 & J2 & J3); pose proof (num_NW m gb J2 J3) as Ngb;
    destruct (Zd_D2 a ga Za (proj2 Na) H1) as (I1 & I2 & I3); pose proof (num_NW m ga I2 I3) as Nga;
    pose proof (mulf_NW _ _ _ Nga Nb HX) as NX; pose proof (mulf_NW _ _ _ Na Ngb HY) as NY;
    pose proof (mulf_NW _ _ _ Nb Nb HM) as NM;
    assert (is_zero X = true) as ZX by (eapply mulf_zero; [exact Nga|exact Nb| |exact HX]; rewrite I1; reflexivity);
    assert (is_zero Y = true) as ZY by (eapply mulf_zero; [exact Na|exact Ngb| |exact HY]; rewrite J1; apply orb_true_r);
    pose proof (subf_zero m X Y N NX NY ZX ZY HN) as ZN;
    pose proof (num_NW m N (zero_num N ZN) (wf_r2 m OSub X Y N eq_refl NX NY HN)) as NN;
    pose proof (divf_NW _ _ _ NN NM H3) as Nd;
    apply rule2_ar in H3; [|reflexivity]; inversion H3; subst; try reflexivity; try congruence;
    match goal with Hv : sn_op m ODiv ?u ?v = Ok ?w |- _ => cbn [sn_op] in Hv;
      rewrite (sn_div_0_l m u v) in Hv;
      [injection Hv as <-; reflexivity | destruct NN as [_ NN]; inversion NN; subst; assumption | exact ZN ] end.
  - destruct Pa as (_ & _ & Ha). destruct (Ha Ka) as [Za|[]]. left. auto.
  - destruct Pa as (_ & Ta & Ha). destruct (Ha Ka) as [Za|Ga]; [left; auto|right].
    intros g (d & Hd & Hg).
    apply D_div in Hd as (ga & gb & A & B & X & Y & N & M & H1 & H2 & HA & HB & HX & HY & HN & HM & H3).
    rewrite (NW_agg _ _ Na) in HA. injection HA as <-. rewrite (NW_agg _ _ Nb) in HB. injection HB as <-.
    destruct (Ga ga H1) as [Pga Uga]. pose proof (P_NW _ _ Pga) as Nga.
    destruct (Zd_D2 b gb Zb (proj2 Nb) H2) as (J1 & J2 & J3). pose proof (num_NW m gb J2 J3) as Ngb.
    pose proof (mulf_NW _ _ _ Nga Nb HX) as NX. pose proof (mulf_NW _ _ _ Na Ngb HY) as NY.
    assert (is_zero Y = true) as ZY by (eapply mulf_zero; [exact Na|exact Ngb| |exact HY]; rewrite J1; apply orb_true_r).
    pose proof (mul_const n ga b X Pga Cb HX) as PX_.
    pose proof (C_sq b M Cb HM) as CM.
    assert (P n N) as PN.
    { apply subf_inv in HN as HN'. destruct HN' as [(_ & _ & K')|[(_ & K' & _)|[(_ & _ & ->)|(_ & _ & _ & K')]]].
      - apply P_num; [exact K'|]. exact (wf_r2 m OSub X Y N eq_refl NX NY HN).
      - rewrite (zero_num Y ZY) in K'. discriminate.
      - exact PX_.
      - congruence. }
    pose proof (divf_NW _ _ _ (P_NW _ _ PN) (proj1 CM) H3) as Nd. rewrite (NW_agg _ _ Nd) in Hg. injection Hg as <-.
    split; [eapply IH; [exact PN|exact CM|exact H3]|].
    intros u ->. apply divf_inv in H3 as [(K' & _)|(K' & _)]; discriminate.
Qed.

(** a quotient whose numerator has no limit rule *)
Lemma PX_stuck_div u M d : NW d -> d = mk2 ODiv u M -> stuck_root u = true ->
  PX d /\ (forall v, d = e_neg v -> TC v).
Proof.
  intros N -> H. destruct (stuck_div u M H) as [K1 K2]. split; [exists O; apply P_stuck; assumption|]. discriminate.
Qed.

(** L5: division *)
Lemma div_PX a b z : PX a -> PX b -> r2 ODiv a b z -> PX z.
Proof.
  intros Pa Pb H. pose proof (PX_NW _ Pa) as Na. pose proof (PX_NW _ Pb) as Nb.
  pose proof (divf_NW _ _ _ Na Nb H) as Nz. pose proof H as H0.
  apply divf_inv in H as [(K & _)|(-> & Kn & Kz)]; [apply PX_num; [assumption|apply Nz]|].
  apply P_intro; [exact Nz|apply T_div; apply PX_TC; assumption|].
  intros Ko g Hg. pose proof Ko as Ko'. apply ok_2 in Ko as [Ka Kb]; [|cbn; auto].
  pose proof (PX_T _ Pb) as Tb.
  assert (Zd b -> PX (mk2 ODiv a b)) as HC.
  { intros Zb. destruct Pa as [n Pa]. exists n. eapply div_const; [exact Pa|exact (conj Nb (conj Tb Zb))|exact H0]. }
  assert (Zd b -> PX g /\ (forall u, g = e_neg u -> TC u)) as HC' by (intros Zb; apply (PX_inv (mk2 ODiv a b)); auto).
  destruct Hg as (d & Hd & Hg). pose proof Hd as Hd0.
  apply D_div in Hd as (ga & gb & A & B & X & Y & N & M & H1 & H2 & HA & HB & HX & HY & HN & HM & H3).
  rewrite (NW_agg _ _ Na) in HA. injection HA as <-. rewrite (NW_agg _ _ Nb) in HB. injection HB as <-.
  destruct (is_zero gb) eqn:Zg.
  { apply HC'. destruct H2 as (db & E1 & E2). intros d' Hd'. assert (d' = db) as -> by congruence.
    eapply D2_zero; [apply NW_Hh; exact Nb|exact E1|exact E2|exact Zg]. }
  assert (is_num b = false) as Hb.
  { destruct (is_num b) eqn:E; [|reflexivity]. rewrite (D2_num b gb E (proj2 Nb) H2) in Zg. discriminate. }
  clear HC HC'.
  assert (NW ga) as Nga by (apply (D2_NW a); [apply NW_Hh; assumption|assumption]).
  assert (NW gb) as Ngb by (apply (D2_NW b); [apply NW_Hh; assumption|assumption]).
  destruct (PX_inv b gb Pb Kb H2) as [Pgb Ugb].
  pose proof (mulf_NW _ _ _ Nga Nb HX) as NX. pose proof (mulf_NW _ _ _ Na Ngb HY) as NY.
  pose proof (mulf_NW _ _ _ Nb Nb HM) as NM. pose proof (sq_node b M Hb HM) as ->.
  pose proof (wf_r2 m OSub X Y N eq_refl NX NY HN) as WN.
  assert (T (mk2 OMul b b)) as TM by (apply T_sq; exact Tb).
  apply subf_inv in HN as HN'. destruct HN' as [(_ & _ & NumN)|[(ZX & NumY & ->)|[(ZY & NumX & ->)|(-> & _)]]].
  - (* numerator a number *)
    pose proof (num_NW m N NumN WN) as NN. pose proof (divf_NW _ _ _ NN NM H3) as Nd.
    rewrite (NW_agg _ _ Nd) in Hg. injection Hg as <-.
    apply divf_inv in H3 as [(K & _)|(-> & _ & ZN)].
    + split; [apply PX_num; [exact K|apply Nd]|]. intros u ->. discriminate.
    + split; [|discriminate]. apply P_intro; [exact Nd|apply T_over; try assumption; apply NM|].
      intros _ g' (d' & E1 & E2).
      destruct (D_num_sq N b gb d' NN NumN ZN Nb Hb H2 Zg E1) as (u & M' & Ed & Nd').
      rewrite (NW_agg _ _ Nd') in E2. injection E2 as <-.
      eapply PX_stuck_div; [exact Nd'|exact Ed|reflexivity].
  - (* numerator - Y *)
    apply divf_inv in H3 as Hd. destruct Hd as [(_ & [K|K])|(Ed & _)]; try discriminate.
    destruct (subf_cases m _ _ _ (proj1 NX) (proj1 NY) HN) as [Nn|(v & EY & _)].
    + assert (NW d) as Nd by (eapply divf_NW; [split; [exact Nn|exact WN]|exact NM|exact H3]).
      rewrite (NW_agg _ _ Nd) in Hg. injection Hg as <-. eapply PX_stuck_div; [exact Nd|exact Ed|reflexivity].
    + subst Y d. apply agg2_inv in Hg as (v' & M' & E1 & E2 & Hr); [|reflexivity].
      apply negneg_agg in E1 as ->; [|exact (proj1 NY)]. rewrite (NW_agg _ _ NM) in E2. injection E2 as <-.
      destruct (NF_neg_inv m v (proj1 NY)) as (Nv & Nv1 & Nv2). pose proof (proj2 (wf_mk1_inv _ _ (proj2 NY))) as Wv.
      assert (gb = e_neg v) as Eg.
      { apply mulf_inv in HY as [(K' & _)|[(_ & _ & E)|[(_ & _ & E)|(E & _)]]]; try discriminate; [symmetry; exact E|].
        destruct (stuck_T m x to ord a) as [_ S]; [rewrite <- E; reflexivity|]. contradiction. }
      assert (TC v) as Cv by (apply Ugb; exact Eg).
      assert (NW v) as NWv by (split; assumption).
      assert (g = mk2 ODiv v (mk2 OMul b b)) as ->.
      { apply divf_inv in Hr as [(_ & [K|K])|(-> & _)]; [|apply zero_num in K; congruence|reflexivity].
        rewrite Nv1 in K. discriminate. }
      pose proof (divf_NW _ _ _ NWv NM Hr) as Nq. split; [|discriminate].
      assert (TC (mk2 OMul b b)) as CM.
      { apply TC_intro; [apply NM|exact TM|]. intros _ dM HdM.
        destruct (D_sq b gb dM Nb Hb H2 Zg HdM) as (p & q & -> & Hp & Hq & Nd). 
        assert (p = mk2 OMul gb b) as ->.
        { apply mulf_inv in Hp as [(_ & [K|K])|[(K & _)|[(K & _)|(-> & _)]]]; try reflexivity.
          - rewrite Hb, andb_false_r in K. discriminate.
          - rewrite Zg in K. apply zero_num in K. congruence.
          - subst gb. discriminate.
          - apply one_num in K. congruence. }
        assert (q = mk2 OMul b gb) as ->.
        { apply mulf_inv in Hq as [(_ & [K|K])|[(K & _)|[(K & _)|(-> & _)]]]; try reflexivity.
          - rewrite Hb in K. discriminate.
          - rewrite Zg, orb_false_r in K. apply zero_num in K. congruence.
          - apply one_num in K. congruence.
          - subst gb. discriminate. }
        assert (~ ok gb) as Sg by (subst gb; apply stuck_T; reflexivity).
        assert (T gb) as Tg by (subst gb; apply stuck_T; reflexivity).
        apply TC_stuck; [apply Nd| |].
        + apply T_add.
          * apply T_mul; [exact Tg|exact Tb|]. intros za zb er La. destruct Sg. eexists. exact La.
          * apply T_mul; [exact Tb|exact Tg|]. intros za zb er _ Lb. destruct Sg. eexists. exact Lb.
          * intros za zb er La. destruct Sg.
            assert (ok (mk2 OMul gb b)) as K by (eexists; exact La). apply ok_2 in K as [K _]; [exact K|cbn; auto].
        + intros K. apply ok_2 in K as [K _]; [|cbn; auto]. apply ok_2 in K as [K _]; [|cbn; auto]. contradiction. }
      apply P_intro; [exact Nq|apply T_div; assumption|].
      intros _ g' (d' & E1 & E2).
      apply D_div in E1 as (gv & gM & A & B & X' & Y' & N' & M' & G1 & G2 & HA & HB & HX' & HY' & HN' & HM' & H3').
      rewrite (NW_agg _ _ NWv) in HA. injection HA as <-. rewrite (NW_agg _ _ NM) in HB. injection HB as <-.
      assert (NW gv) as Ngv by (apply (D2_NW v); [apply NW_Hh; assumption|assumption]).
      assert (NW gM) as NgM by (apply (D2_NW (mk2 OMul b b)); [apply NW_Hh; assumption|assumption]).
      pose proof (mulf_NW _ _ _ Ngv NM HX') as NX'. pose proof (mulf_NW _ _ _ NWv NgM HY') as NY'.
      pose proof (mulf_NW _ _ _ NM NM HM') as NM'.
      destruct G2 as (dM & F1 & F2). destruct (D_sq b gb dM Nb Hb H2 Zg F1) as (p & q & Ed & _ & _ & NdM).
      rewrite (NW_agg _ _ NdM) in F2. injection F2 as <-. subst dM.
      assert (Y' = mk2 OMul v (mk2 OAdd p q)) as ->.
      { apply mulf_inv in HY' as [(_ & [K|K])|[(K & _)|[(K & _)|(-> & _)]]]; try reflexivity; try discriminate.
        - rewrite Nv1 in K. discriminate.
        - rewrite orb_false_r in K. apply zero_num in K. congruence.
        - apply one_num in K. congruence. }
      pose proof (wf_r2 m OSub X' _ N' eq_refl NX' NY' HN') as WN'.
      destruct (subf_cases m _ _ _ (proj1 NX') (proj1 NY') HN') as [NN'|(? & ? & _)]; [|discriminate].
      pose proof (divf_NW N' M' d' (conj NN' WN') NM' H3') as Nd'.
      rewrite (NW_agg _ _ Nd') in E2. injection E2 as <-.
      assert (stuck_root N' = true) as SN.
      { apply subf_inv in HN' as [(_ & K & _)|[(_ & _ & ->)|[(K & _)|(-> & _)]]]; try discriminate; reflexivity. }
      apply divf_inv in H3' as [(_ & [K|K])|(Ed & _)].
      * destruct (is_num N') eqn:E; [|discriminate]. apply is_num_inv in E as (? & ? & ->). discriminate.
      * apply zero_num in K. apply is_num_inv in K as (? & ? & ->). discriminate.
      * eapply PX_stuck_div; [exact Nd'|exact Ed|exact SN].
  - (* Y = 0 *)
    exfalso. apply mulf_inv in HY as [(_ & [K|K])|[(_ & K & ->)|[(_ & K & ->)|(-> & _)]]].
    + apply andb_true_iff in K as [K _]. rewrite (D2_num a ga K (proj2 Na) H1) in HX.
      assert (is_zero X = true) as ZX by (eapply mulf_zero; [apply NW_zero|exact Nb|reflexivity|exact HX]).
      apply zero_num in ZX. congruence.
    + rewrite Kz, Zg in K. discriminate.
    + congruence.
    + congruence.
    + discriminate.
  - (* Sub *)
    apply divf_inv in H3 as Hd. destruct Hd as [(_ & [K|K])|(Ed & _)]; try discriminate.
    destruct (subf_cases m _ _ _ (proj1 NX) (proj1 NY) HN) as [Nn|(? & _ & ?)]; [|discriminate].
    assert (NW d) as Nd by (eapply divf_NW; [split; [exact Nn|exact WN]|exact NM|exact H3]).
    rewrite (NW_agg _ _ Nd) in Hg. injection Hg as <-. eapply PX_stuck_div; [exact Nd|exact Ed|reflexivity].
Qed.

Lemma one_over_r2 b : is_num b = false -> r2 ODiv e_one b (mk2 ODiv e_one b).
Proof. intros N. unfold LimTerm.r2. cbn [eval_rule]. unfold div_eval_rule. cbn -[is_num e_div]. rewrite N. reflexivity. Qed.
Lemma div_r2 a b : is_num a = false -> r2 ODiv a b (mk2 ODiv a b).
Proof.
  intros N. unfold LimTerm.r2. cbn [eval_rule]. unfold div_eval_rule. cbn -[is_num is_zero e_div]. rewrite N. cbn [andb].
  destruct (is_zero a) eqn:E; [apply zero_num in E; congruence|reflexivity].
Qed.

(** L6: addition *)
Lemma T_add_node a b : PX a -> PX b -> T (mk2 OAdd a b).
Proof.
  intros Pa Pb. apply T_add; [apply PX_T; assumption|apply PX_T; assumption|].
  intros za zb er La Lb E. destruct (err_nonnum_add _ _ _ _ _ _ _ _ _ La Lb E) as [K1 K2].
  pose proof (PX_NW _ Pa) as Na. pose proof (PX_NW _ Pb) as Nb.
  pose proof (div_PX a b _ Pa Pb (div_r2 a b K1)) as Pq. pose proof (PX_NW _ Pq) as Nq.
  apply T_div; [|apply L_inv; [exact Nb|apply PX_T; exact Pb|exact K2]].
  assert (wf (mk2 OAdd (mk2 ODiv a b) e_one)) as W by (apply wf_mk2; [reflexivity|apply Nq|apply wf_one]).
  apply TC_intro; [exact W| |].
  - apply T_add; [apply PX_T; exact Pq|apply num_T; reflexivity|].
    intros zq z1 er' Lq L1 E'. destruct (err_nonnum_add _ _ _ _ _ _ _ _ _ Lq L1 E') as [_ K]. discriminate.
  - intros Ko d Hd. apply ok_2 in Ko as [Kq _]; [|cbn; auto]. pose proof (deriv_wf _ _ _ _ W Hd) as Wd.
    apply D_add in Hd as (g & g1 & H1 & H2 & H3). apply D2_num in H2 as ->; [|reflexivity|apply wf_one].
    destruct (PX_inv _ g Pq Kq H1) as [Pg _].
    apply addf_inv in H3 as [(_ & _ & K)|[(_ & K & _)|[(_ & _ & ->)|(_ & _ & _ & K)]]]; try discriminate.
    + apply TC_num; assumption.
    + apply PX_TC. exact Pg.
Qed.
Lemma add_PX n : forall k a b z, P n a -> P k b -> r2 OAdd a b z -> PX z.
Proof.
  induction n as [n IH] using lt_wf_ind. intros k a b z Pa Pb H.
  pose proof (P_NW _ _ Pa) as Na. pose proof (P_NW _ _ Pb) as Nb. pose proof (addf_NW _ _ _ Na Nb H) as Nz.
  apply addf_inv in H as [(_ & _ & K)|[(_ & _ & ->)|[(_ & _ & ->)|(-> & K)]]];
    [apply PX_num; [exact K|apply Nz]|exists k; exact Pb|exists n; exact Pa|].
  apply P_intro; [exact Nz|apply T_add_node; eexists; eassumption|].
  intros Ko g (d & Hd & Hg). apply ok_2 in Ko as [Ka Kb]; [|cbn; auto].
  apply D_add in Hd as (ga & gb & H1 & H2 & H3).
  destruct (PX_inv a ga (ex_intro _ n Pa) Ka H1) as [Pga Uga]. destruct (PX_inv b gb (ex_intro _ k Pb) Kb H2) as [Pgb Ugb].
  pose proof (addf_NW _ _ _ (PX_NW _ Pga) (PX_NW _ Pgb) H3) as Nd. rewrite (NW_agg _ _ Nd) in Hg. injection Hg as <-.
  split.
  - assert (Zd a \/ exists n', (n' < n)%nat /\ P n' ga) as [Za|(n' & Hn & Pn)].
    { destruct n as [|n]; destruct Pa as (_ & _ & Ha); destruct (Ha Ka) as [Z|G]; auto; try contradiction.
      right. exists n. split; [lia|]. apply G. exact H1. }
    + destruct (Zd_D2 a ga Za (proj2 Na) H1) as (Z1 & Z2 & Z3).
      apply addf_inv in H3 as [(_ & _ & K')|[(_ & _ & ->)|[(_ & K' & _)|(_ & _ & K' & _)]]]; try congruence.
      apply PX_num; [exact K'|apply Nd].
    + destruct Pgb as [k' Pgb]. eapply IH; [exact Hn|exact Pn|exact Pgb|exact H3].
  - intros u ->. apply addf_inv in H3 as [(_ & _ & K')|[(_ & _ & E)|[(_ & _ & E)|(E & _)]]]; try discriminate.
    + apply Ugb. symmetry. exact E.
    + apply Uga. symmetry. exact E.
Qed.
Lemma add_PX' a b z : PX a -> PX b -> r2 OAdd a b z -> PX z.
Proof. intros [n Pa] [k Pb]. apply (add_PX n k); assumption. Qed.

(** L7: multiplication *)
Lemma mul_PX n : forall k a b z, P n a -> P k b -> r2 OMul a b z -> PX z.
Proof.
  induction n as [n IHn] using lt_wf_ind. induction k as [k IHk] using lt_wf_ind. intros a b z Pa Pb H.
  pose proof (P_NW _ _ Pa) as Na. pose proof (P_NW _ _ Pb) as Nb. pose proof (mulf_NW _ _ _ Na Nb H) as Nz.
  apply mulf_inv in H as [(K & _)|[(_ & _ & ->)|[(_ & _ & ->)|(-> & K)]]];
    [apply PX_num; [exact K|apply Nz]|exists k; exact Pb|exists n; exact Pa|].
  apply P_intro; [exact Nz|apply T_mul_node; try assumption; eapply P_TC; eassumption|].
  intros Ko g (d & Hd & Hg). apply ok_2 in Ko as [Ka Kb]; [|cbn; auto].
  apply D_mul in Hd as (ga & gb & A & B & X & Y & H1 & H2 & HA & HB & HX & HY & H3).
  rewrite (NW_agg _ _ Na) in HA. injection HA as <-. rewrite (NW_agg _ _ Nb) in HB. injection HB as <-.
  destruct (PX_inv a ga (ex_intro _ n Pa) Ka H1) as [Pga Uga]. destruct (PX_inv b gb (ex_intro _ k Pb) Kb H2) as [Pgb Ugb].
  pose proof (PX_NW _ Pga) as Nga. pose proof (PX_NW _ Pgb) as Ngb.
  pose proof (mulf_NW _ _ _ Nga Nb HX) as NX. pose proof (mulf_NW _ _ _ Na Ngb HY) as NY.
  pose proof (addf_NW _ _ _ NX NY H3) as Nd. rewrite (NW_agg _ _ Nd) in Hg. injection Hg as <-.
  assert (PX X) as PX1.
  { assert (Zd a \/ exists n', (n' < n)%nat /\ P n' ga) as [Za|(n' & Hn & Pn)].
    { destruct n as [|n]; destruct Pa as (_ & _ & Ha); destruct (Ha Ka) as [Z|G]; auto; try contradiction.
      right. exists n. split; [lia|]. apply G. exact H1. }
    - destruct (Zd_D2 a ga Za (proj2 Na) H1) as (Z1 & Z2 & Z3). apply PX_num; [|apply NX]. apply zero_num.
      eapply mulf_zero; [exact Nga|exact Nb| |exact HX]. rewrite Z1. reflexivity.
    - eapply IHn; [exact Hn|exact Pn|exact Pb|exact HX]. }
  assert (PX Y) as PX2.
  { assert (Zd b \/ exists n', (n' < k)%nat /\ P n' gb) as [Zb|(n' & Hn & Pn)].
    { destruct k as [|k]; destruct Pb as (_ & _ & Hb); destruct (Hb Kb) as [Z|G]; auto; try contradiction.
      right. exists k. split; [lia|]. apply G. exact H2. }
    - destruct (Zd_D2 b gb Zb (proj2 Nb) H2) as (Z1 & Z2 & Z3). apply PX_num; [|apply NY]. apply zero_num.
      eapply mulf_zero; [exact Na|exact Ngb| |exact HY]. rewrite Z1. apply orb_true_r.
    - eapply IHk; [exact Hn|exact Pa|exact Pn|exact HY]. }
  split; [eapply add_PX'; [exact PX1|exact PX2|exact H3]|].
  assert (forall u, X = e_neg u -> TC u) as UX.
  { intros u ->. apply mulf_inv in HX as [(K' & _)|[(_ & _ & E)|[(_ & _ & E)|(E & _)]]]; try discriminate.
    - destruct (stuck_T m x to ord b) as [_ S]; [rewrite <- E; reflexivity|]. contradiction.
    - apply Uga. symmetry. exact E. }
  assert (forall u, Y = e_neg u -> TC u) as UY.
  { intros u ->. apply mulf_inv in HY as [(K' & _)|[(_ & _ & E)|[(_ & _ & E)|(E & _)]]]; try discriminate.
    - apply Ugb. symmetry. exact E.
    - destruct (stuck_T m x to ord a) as [_ S]; [rewrite <- E; reflexivity|]. contradiction. }
  intros u ->. apply addf_inv in H3 as [(_ & _ & K')|[(_ & _ & E)|[(_ & _ & E)|(E & _)]]]; try discriminate.
  - apply UY. symmetry. exact E.
  - apply UX. symmetry. exact E.
Qed.
Lemma mul_PX' a b z : PX a -> PX b -> r2 OMul a b z -> PX z.
Proof. intros [n Pa] [k Pb]. apply (mul_PX n k); assumption. Qed.
End LT.
