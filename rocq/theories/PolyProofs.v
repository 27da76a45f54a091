(** * PolyProofs: differentiating a polynomial lowers its degree *)
From Coq Require Import ZArith List String Bool Lia.
From Verif Require Import Base Float Rational SmartNum Ast Compute Limit Spec SpecTree SpecPoly.
From Verif Require Import BaseProofs RationalProofs NumProofs NumProofs2 TreeProofs TreeProofs2 TreeProofs3 TreeProofs4 TreeProofs5
  LimTerm LimTerm2 LimTerm3.
Import ListNotations.
Open Scope nat_scope.

Lemma poly_le x d e : poly x d e -> forall d', d <= d' -> poly x d' e.
Proof.
  induction 1 as [d e H|d H|d a H IH|d a b Ha IHa Hb IHb|d a b Ha IHa Hb IHb|d da db a b Ha IHa Hb IHb Hd|d a b Ha IHa Hb]; intros d' L.
  - apply p_free. exact H.
  - apply p_var. lia.
  - apply p_neg. auto.
  - apply p_add; auto.
  - apply p_sub; auto.
  - eapply p_mul; [exact Ha|exact Hb|lia].
  - apply p_div; auto.
Qed.
Lemma free_num x e : is_num e = true -> wf e -> ~ occurs x e.
Proof. intros N W. destruct (num_wf e N W) as (n & -> & _). apply occurs_num. Qed.
Lemma poly_num x d e : is_num e = true -> wf e -> poly x d e.
Proof. intros N W. apply p_free, free_num; assumption. Qed.
Lemma poly_unneg x d u : poly x d (e_neg u) -> poly x d u.
Proof.
  intros H. inversion H as [d' e K|d' K|d' a K|d' a b Ha Hb|d' a b Ha Hb|d' da db a b Ha Hb Hd|d' a b Ha Hb]; subst; try discriminate.
  - apply p_free. intros O. apply K. apply occurs_mk1. exact O.
  - assumption.
Qed.
Lemma free_mk1 x t a : ~ occurs x (mk1 t a) -> ~ occurs x a.
Proof. intros H O. apply H. apply occurs_mk1. exact O. Qed.
Lemma free_mk2 x t a b : ~ occurs x (mk2 t a b) -> ~ occurs x a /\ ~ occurs x b.
Proof. intros H. split; intros O; apply H, occurs_mk2; auto. Qed.
Lemma mk2_free x t a b : ~ occurs x a -> ~ occurs x b -> ~ occurs x (mk2 t a b).
Proof. intros H1 H2 O. apply occurs_mk2 in O as [O|O]; auto. Qed.

Section M.
Context (m : mode) (x : string).
Local Notation agg := (num_aggregate m).
Local Notation D := (deriv m x).
Local Notation r1 := (r1 m).
Local Notation r2 := (r2 m).

Lemma r2_wf t a b z : arity t = 2 -> wf a -> wf b -> r2 t a b z -> wf z.
Proof. intros Ht Wa Wb H. apply rule2_ar in H; [|exact Ht]. eapply ar2_wf; [exact Wa|exact Wb|exact H]. Qed.
Lemma r1_wf t a z : arity t = 1 -> wf a -> r1 t a z -> wf z.
Proof. intros Ht Wa H. apply rule1_ar in H; [|exact Ht]. eapply ar1_wf; [exact Wa|exact H]. Qed.
Lemma agg_free e z : agg e = Ok z -> ~ occurs x e -> ~ occurs x z.
Proof. intros H N O. apply N. eapply agg_subterm_var; eassumption. Qed.

Lemma poly_r1 d a z : wf a -> poly x d a -> r1 ONeg a z -> poly x d z.
Proof.
  intros Wa Pa H. pose proof (r1_wf ONeg a z eq_refl Wa H) as Wz. apply rule1_ar in H; [|reflexivity].
  inversion H as [l n v Hv|op r c Hd|a' N K| | | | | | | | | | | |]; subst.
  - apply poly_num; [reflexivity|exact Wz].
  - rewrite (shape1 ONeg op r z eq_refl Wa Hd) in Pa. apply poly_unneg. exact Pa.
  - apply p_neg. exact Pa.
Qed.
Lemma poly_radd d a b z : wf a -> wf b -> poly x d a -> poly x d b -> r2 OAdd a b z -> poly x d z.
Proof.
  intros Wa Wb Pa Pb H. pose proof (r2_wf OAdd a b z eq_refl Wa Wb H) as Wz.
  apply addf_inv in H as [(_ & _ & K)|[(_ & _ & ->)|[(_ & _ & ->)|(-> & _)]]]; try assumption.
  - apply poly_num; assumption.
  - apply p_add; assumption.
Qed.
Lemma poly_rsub d a b z : wf a -> wf b -> poly x d a -> poly x d b -> r2 OSub a b z -> poly x d z.
Proof.
  intros Wa Wb Pa Pb H. pose proof (r2_wf OSub a b z eq_refl Wa Wb H) as Wz.
  apply subf_inv in H as [(_ & _ & K)|[(_ & _ & ->)|[(_ & _ & ->)|(-> & _)]]]; try assumption.
  - apply poly_num; assumption.
  - apply p_neg; assumption.
  - apply p_sub; assumption.
Qed.
Lemma poly_rmul d da db a b z : wf a -> wf b -> poly x da a -> poly x db b -> da + db <= d -> r2 OMul a b z -> poly x d z.
Proof.
  intros Wa Wb Pa Pb L H. pose proof (r2_wf OMul a b z eq_refl Wa Wb H) as Wz.
  apply mulf_inv in H as [(K & _)|[(_ & _ & ->)|[(_ & _ & ->)|(-> & _)]]].
  - apply poly_num; assumption.
  - eapply poly_le; [exact Pb|lia].
  - eapply poly_le; [exact Pa|lia].
  - eapply p_mul; [exact Pa|exact Pb|exact L].
Qed.
Lemma poly_rdiv d a b z : wf a -> wf b -> poly x d a -> ~ occurs x b -> r2 ODiv a b z -> poly x d z.
Proof.
  intros Wa Wb Pa Pb H. pose proof (r2_wf ODiv a b z eq_refl Wa Wb H) as Wz.
  apply divf_inv in H as [(K & _)|(-> & _)]; [apply poly_num; assumption|apply p_div; assumption].
Qed.

Lemma agg_poly d e : poly x d e -> wf e -> forall z, agg e = Ok z -> poly x d z.
Proof.
  induction 1 as [d e H|d H|d a H IH|d a b Ha IHa Hb IHb|d a b Ha IHa Hb IHb|d da db a b Ha IHa Hb IHb Hd|d a b Ha IHa Hb]; intros W z E.
  - apply p_free. eapply agg_free; eassumption.
  - injection E as <-. apply p_var. exact H.
  - apply wf_mk1_inv in W as [_ W]. apply agg1_inv in E as (a' & Ea & Hr); [|reflexivity].
    exact (poly_r1 d a' z (agg_wf _ _ _ W Ea) (IH W _ Ea) Hr).
  - apply wf_mk2_inv in W as (_ & Wa & Wb). apply agg2_inv in E as (a' & b' & Ea & Eb & Hr); [|reflexivity].
    apply (poly_radd d a' b'); [exact (agg_wf _ _ _ Wa Ea)|exact (agg_wf _ _ _ Wb Eb)|auto|auto|exact Hr].
  - apply wf_mk2_inv in W as (_ & Wa & Wb). apply agg2_inv in E as (a' & b' & Ea & Eb & Hr); [|reflexivity].
    apply (poly_rsub d a' b'); [exact (agg_wf _ _ _ Wa Ea)|exact (agg_wf _ _ _ Wb Eb)|auto|auto|exact Hr].
  - apply wf_mk2_inv in W as (_ & Wa & Wb). apply agg2_inv in E as (a' & b' & Ea & Eb & Hr); [|reflexivity].
    apply (poly_rmul d da db a' b'); [exact (agg_wf _ _ _ Wa Ea)|exact (agg_wf _ _ _ Wb Eb)|auto|auto|exact Hd|exact Hr].
  - apply wf_mk2_inv in W as (_ & Wa & Wb). apply agg2_inv in E as (a' & b' & Ea & Eb & Hr); [|reflexivity].
    apply (poly_rdiv d a' b'); [exact (agg_wf _ _ _ Wa Ea)|exact (agg_wf _ _ _ Wb Eb)|auto|exact (agg_free _ _ Eb Hb)|exact Hr].
Qed.

Lemma poly_0 e : poly x 0 e -> ~ occurs x e.
Proof.
  remember 0 as d eqn:Ed. intros H. revert Ed.
  induction H as [d e H|d H|d a H IH|d a b Ha IHa Hb IHb|d a b Ha IHa Hb IHb|d da db a b Ha IHa Hb IHb Hd|d a b Ha IHa Hb]; intros Ed.
  - exact H.
  - lia.
  - intros K. exact (IH Ed (proj1 (occurs_mk1 x ONeg a) K)).
  - apply mk2_free; auto.
  - apply mk2_free; auto.
  - apply mk2_free; [apply IHa|apply IHb]; lia.
  - apply mk2_free; auto.
Qed.

Lemma D2_poly d a g : wf a -> (forall da, D a = Ok da -> poly x d da) -> D2 m x a g -> poly x d g /\ wf g.
Proof.
  intros W H (da & H1 & H2). pose proof (deriv_wf _ _ _ _ W H1) as Wd.
  split; [eapply agg_poly; [exact (H _ H1)|exact Wd|exact H2]|eapply agg_wf; eassumption].
Qed.
Lemma D2_free a g : wf a -> ~ occurs x a -> D2 m x a g -> g = e_zero.
Proof. intros W H (da & H1 & H2). rewrite (deriv_absent m x a W H da H1) in H2. injection H2 as <-. reflexivity. Qed.
Lemma mul_zero_num a b z : is_zero a || is_zero b = true -> r2 OMul a b z -> is_num z = true.
Proof.
  intros K H. apply mulf_inv in H as [(N & _)|[(K1 & K2 & ->)|[(K1 & K2 & ->)|(_ & _ & K1 & K2 & _)]]].
  - exact N.
  - apply orb_true_iff in K as [K|K]; [|apply zero_num in K; congruence].
    exfalso. destruct a as [[op|[n|y]] k]; try discriminate.
    unfold is_zero, is_one, lift_od in *. cbn in K, K1. unfold sn_is_zero, sn_is_one in *. destruct (ntag n); discriminate.
  - apply orb_true_iff in K as [K|K]; [apply zero_num in K; congruence|].
    exfalso. destruct b as [[op|[n|y]] k]; try discriminate.
    unfold is_zero, is_one, lift_od in *. cbn in K, K1. unfold sn_is_zero, sn_is_one in *. destruct (ntag n); discriminate.
  - rewrite K1, K2 in K. discriminate.
Qed.

(** the derivative of a polynomial of degree at most [S d] has degree at most [d] *)
Lemma deriv_poly d0 e : poly x d0 e -> wf e -> forall d, d0 <= S d -> forall e', D e = Ok e' -> poly x d e'.
Proof.
  induction 1 as [d0 e H|d0 H|d0 a H IH|d0 a b Ha IHa Hb IHb|d0 a b Ha IHa Hb IHb|d0 da db a b Ha IHa Hb IHb Hd|d0 a b Ha IHa Hb]; intros W d L e' E.
  - rewrite (deriv_absent m x e W H e' E). apply poly_num; [reflexivity|apply wf_zero].
  - unfold e_var in E. rewrite deriv_var in E. injection E as <-. rewrite String.eqb_refl. apply poly_num; [reflexivity|apply wf_one].
  - apply wf_mk1_inv in W as [_ W]. apply D_neg in E as (ga & H1 & H2).
    destruct (D2_poly d a ga W (IH W d L) H1) as [Pg Wg]. eapply poly_r1; [exact Wg|exact Pg|exact H2].
  - apply wf_mk2_inv in W as (_ & Wa & Wb). apply D_add in E as (ga & gb & H1 & H2 & H3).
    destruct (D2_poly d a ga Wa (IHa Wa d L) H1) as [Pa Wga]. destruct (D2_poly d b gb Wb (IHb Wb d L) H2) as [Pb Wgb].
    apply (poly_radd d ga gb); assumption.
  - apply wf_mk2_inv in W as (_ & Wa & Wb). apply D_sub in E as (ga & gb & H1 & H2 & H3).
    destruct (D2_poly d a ga Wa (IHa Wa d L) H1) as [Pa Wga]. destruct (D2_poly d b gb Wb (IHb Wb d L) H2) as [Pb Wgb].
    apply (poly_rsub d ga gb); assumption.
  - apply wf_mk2_inv in W as (_ & Wa & Wb).
    apply D_mul in E as (ga & gb & A & B & X & Y & H1 & H2 & HA & HB & HX & HY & H3).
    pose proof (agg_wf _ _ _ Wa HA) as WA. pose proof (agg_wf _ _ _ Wb HB) as WB.
    pose proof (agg_poly _ _ Ha Wa _ HA) as PA. pose proof (agg_poly _ _ Hb Wb _ HB) as PB.
    assert (wf ga) as Wga by exact (D2_wf m x a ga Wa H1). assert (wf gb) as Wgb by exact (D2_wf m x b gb Wb H2).
    pose proof (r2_wf OMul ga B X eq_refl Wga WB HX) as WX. pose proof (r2_wf OMul A gb Y eq_refl WA Wgb HY) as WY.
    assert (poly x d X) as PX.
    { destruct da as [|da].
      - pose proof (D2_free a ga Wa (poly_0 a Ha) H1) as ->. apply poly_num; [|exact WX]. eapply mul_zero_num; [|exact HX]. reflexivity.
      - destruct (D2_poly da a ga Wa (IHa Wa da (le_n _)) H1) as [Pg _]. apply (poly_rmul d da db ga B); try assumption. lia. }
    assert (poly x d Y) as PY.
    { destruct db as [|db].
      - pose proof (D2_free b gb Wb (poly_0 b Hb) H2) as ->. apply poly_num; [|exact WY]. eapply mul_zero_num; [|exact HY]. apply orb_true_r.
      - destruct (D2_poly db b gb Wb (IHb Wb db (le_n _)) H2) as [Pg _]. apply (poly_rmul d da db A gb); try assumption. lia. }
    apply (poly_radd d X Y); assumption.
  - apply wf_mk2_inv in W as (_ & Wa & Wb).
    apply D_div in E as (ga & gb & A & B & X & Y & N & M & H1 & H2 & HA & HB & HX & HY & HN & HM & H3).
    pose proof (agg_wf _ _ _ Wa HA) as WA. pose proof (agg_wf _ _ _ Wb HB) as WB.
    destruct (D2_poly d a ga Wa (IHa Wa d L) H1) as [Pg Wga]. pose proof (D2_free b gb Wb Hb H2) as ->.
    pose proof (agg_free _ _ HB Hb) as FB.
    pose proof (r2_wf OMul ga B X eq_refl Wga WB HX) as WX. pose proof (r2_wf OMul A _ Y eq_refl WA wf_zero HY) as WY.
    pose proof (r2_wf OMul B B M eq_refl WB WB HM) as WM. pose proof (r2_wf OSub X Y N eq_refl WX WY HN) as WN.
    assert (poly x d X) as PX by (apply (poly_rmul d d 0 ga B); try assumption; [apply p_free; exact FB|lia]).
    assert (poly x d Y) as PY by (apply poly_num; [eapply mul_zero_num; [|exact HY]; apply orb_true_r|exact WY]).
    apply (poly_rdiv d N M); try assumption; [apply (poly_rsub d X Y); assumption|].
    apply poly_0. apply (poly_rmul 0 0 0 B B); try assumption; try (apply p_free; exact FB). lia.
Qed.

(** the derivative of order d+1 and all later ones are literally 0 *)
Lemma deriv_n_zero : forall k e, deriv_n m x k e_zero = Ok e -> e = e_zero.
Proof. induction k as [|k IH]; intros e H; cbn [deriv_n] in H; [congruence|]. cbn [deriv e_zero e_of_i64 e_num] in H. exact (IH e H). Qed.
Lemma deriv_n_poly : forall n d e e', poly x d e -> wf e -> d < n -> deriv_n m x n e = Ok e' -> e' = e_zero.
Proof.
  induction n as [|n IH]; intros d e e' Hp W L H; [lia|]. cbn [deriv_n] in H. apply bind_ok in H as (d1 & H1 & H).
  destruct d as [|d].
  - rewrite (deriv_absent m x e W (poly_0 e Hp) d1 H1) in H. apply deriv_n_zero in H. exact H.
  - apply (IH d d1 e'); [eapply deriv_poly; [exact Hp|exact W|lia|exact H1]|eapply deriv_wf; eassumption|lia|exact H].
Qed.
End M.
