(** * LimTerm3: [limit] terminates, the theorem *)
From Coq Require Import ZArith List String Bool Lia.
From Verif Require Import Base Float Rational SmartNum Ast Compute Limit Spec SpecTree.
From Verif Require Import BaseProofs RationalProofs NumProofs NumProofs2 TreeProofs TreeProofs2 TreeProofs3 TreeProofs4 TreeProofs5 LimTerm LimTerm2.
Import ListNotations.
Open Scope Z_scope.
Open Scope res_scope.

Section LT.
Context (m : mode) (x : string) (to : expr) (ord : Z).
Local Notation lim f := (limit_var f m x to ord).
Local Notation agg := (num_aggregate m).
Local Notation D := (deriv m x).
Local Notation L := (L m x to ord).
Local Notation T := (T m x to ord).
Local Notation ok := (ok m x to ord).
Local Notation Tch := (Tch m x to ord).
Local Notation D2 := (D2 m x).
Local Notation r1 := (r1 m).
Local Notation r2 := (r2 m).
Local Notation NW := (NW m).
Local Notation Hh := (Hh m).
Local Notation QN := (QN m).
Local Notation TC := (TC m x to ord).
Local Notation PX := (PX m x to ord).
Local Notation P := (P m x to ord).

Definition V2 g := PX g /\ (forall u, g = e_neg u -> PX u).
Lemma V2_PX g : V2 g -> PX g. Proof. intros H. exact (proj1 H). Qed.
Lemma V2_NW g : V2 g -> NW g. Proof. intros H. apply (PX_NW m x to ord). exact (proj1 H). Qed.
Lemma V2_num e : is_num e = true -> wf e -> V2 e.
Proof. intros N W. split; [apply PX_num; assumption|]. intros u ->. discriminate. Qed.
Lemma V2_stuck e : NW e -> stuck_root e = true -> root_is ONeg e = false -> V2 e.
Proof. intros N S R. split; [exists O; apply stuck_P; assumption|]. intros u ->. discriminate. Qed.
Lemma V2_add a b z : V2 a -> V2 b -> r2 OAdd a b z -> V2 z.
Proof.
  intros [Pa Ua] [Pb Ub] H. split; [eapply add_PX'; [exact Pa|exact Pb|exact H]|]. intros u ->.
  apply addf_inv in H as [(_ & _ & K)|[(_ & _ & E)|[(_ & _ & E)|(E & _)]]]; try discriminate; [apply Ub|apply Ua]; auto.
Qed.
Lemma V2_mul a b z : V2 a -> V2 b -> r2 OMul a b z -> V2 z.
Proof.
  intros [Pa Ua] [Pb Ub] H. split; [eapply mul_PX'; [exact Pa|exact Pb|exact H]|]. intros u ->.
  apply mulf_inv in H as [(K & _)|[(_ & _ & E)|[(_ & _ & E)|(E & _)]]]; try discriminate; [apply Ub|apply Ua]; auto.
Qed.
Lemma V2_div a b z : V2 a -> V2 b -> r2 ODiv a b z -> V2 z.
Proof.
  intros [Pa _] [Pb _] H. split; [eapply div_PX; [exact Pa|exact Pb|exact H]|]. intros u ->.
  apply divf_inv in H as [(K & _)|(E & _)]; discriminate.
Qed.
Lemma V2_unneg v : NF m (e_neg v) -> PX v -> V2 v.
Proof. intros N Pv. apply NF_neg_inv in N as (_ & _ & N). split; [exact Pv|]. intros u ->. discriminate. Qed.
Lemma shape1 t op r c : arity t = 1%nat -> wf (Expr (Operator op) (r ++ [c])) -> descriptor op = t ->
  Expr (Operator op) (r ++ [c]) = mk1 t c.
Proof.
  intros Ht W Hd. apply wf_op_inv in W as [E [[_ (a & Ea & _)]|[H2 _]]]; [|congruence].
  destruct r as [|y [|? ?]]; try discriminate. rewrite E, Hd. reflexivity.
Qed.
Lemma V2_neg a z : V2 a -> r1 ONeg a z -> V2 z.
Proof.
  intros Va H. pose proof (V2_NW _ Va) as Na. pose proof (NW_1 m ONeg a z eq_refl Na H) as Nz.
  apply rule1_ar in H; [|reflexivity]. inversion H as [k n v Hv|op r c Hd|a' N R| | | | | | | | | | | |]; subst.
  - apply V2_num; [reflexivity|apply Nz].
  - pose proof (shape1 ONeg op r z eq_refl (proj2 Na) Hd) as E. rewrite E in Na, Va.
    apply V2_unneg; [exact (proj1 Na)|]. apply (proj2 Va). reflexivity.
  - split; [exists O; apply stuck_P; [exact Nz|reflexivity]|]. intros u [= <-]. exact (proj1 Va).
Qed.
Lemma V2_subagg a b d g : V2 a -> V2 b -> r2 OSub a b d -> agg d = Ok g -> V2 g.
Proof.
  intros Va Vb H Hg. pose proof (V2_NW _ Va) as Na. pose proof (V2_NW _ Vb) as Nb.
  pose proof (wf_r2 m OSub a b d eq_refl Na Nb H) as Wd.
  destruct (subf_cases m _ _ _ (proj1 Na) (proj1 Nb) H) as [Nd|(v & -> & ->)].
  - rewrite (NF_fix _ _ Nd) in Hg. injection Hg as <-.
    apply subf_inv in H as [(_ & _ & K)|[(_ & _ & ->)|[(_ & _ & ->)|(-> & _)]]].
    + apply V2_num; assumption.
    + split; [exists O; apply stuck_P; [split; assumption|reflexivity]|]. intros u [= <-]. exact (proj1 Vb).
    + exact Va.
    + apply V2_stuck; [split; assumption|reflexivity|reflexivity].
  - apply negneg_agg in Hg as ->; [|exact (proj1 Nb)]. apply V2_unneg; [exact (proj1 Nb)|]. apply (proj2 Vb). reflexivity.
Qed.

(** ** sine and cosine *)
Lemma sin_rule a z : is_zero a || is_pi a = false -> r1 OSin a z -> z = e_sin a.
Proof. intros K H. apply rule1_ar in H; [|reflexivity]. inversion H; subst; [congruence|reflexivity]. Qed.
Lemma cos_rule a z : is_zero a || is_pi a = false -> r1 OCos a z -> z = e_cos a.
Proof. intros K H. apply rule1_ar in H; [|reflexivity]. inversion H; subst; [congruence|reflexivity]. Qed.
Lemma neg_rule a z : is_num a = false -> root_is ONeg a = false -> r1 ONeg a z -> z = e_neg a.
Proof.
  intros K1 K2 H. apply rule1_ar in H; [|reflexivity]. inversion H; subst; [discriminate| |reflexivity].
  unfold root_is in K2. cbn [root] in K2. match goal with E : descriptor _ = ONeg |- _ => rewrite E in K2 end. discriminate.
Qed.
Lemma NW_trig t a : t = OSin \/ t = OCos -> NW (mk1 t a) -> is_zero a || is_pi a = false /\ NW a.
Proof.
  intros Ht H. apply NW_inv1 in H as [Na H]. split; [|exact Na]. apply rule1_ar in H; [|destruct Ht as [->| ->]; reflexivity].
  destruct Ht as [->| ->]; inversion H; subst; assumption.
Qed.
Lemma NW_trig' t a : t = OSin \/ t = OCos -> is_zero a || is_pi a = false -> NW a -> NW (mk1 t a).
Proof.
  intros Ht K [Na Wa]. assert (arity t = 1%nat) as At by (destruct Ht as [->| ->]; reflexivity).
  split; [|apply wf_mk1; assumption]. apply NF_1; [exact At|exact Na|].
  destruct a as [[op|o] k]; [destruct Ht as [->| ->]; reflexivity|].
  change (od_is_zero o || od_is_pi o = false) in K.
  destruct Ht as [->| ->]; cbn [eval_rule]; [unfold sin_eval_rule|unfold cos_eval_rule];
    cbn -[od_is_zero od_is_pi e_sin e_cos]; rewrite K; reflexivity.
Qed.
Lemma NW_nsin a : is_zero a || is_pi a = false -> NW a -> NW (e_neg (e_sin a)).
Proof.
  intros K Na. refine (NW_1 m ONeg (e_sin a) _ eq_refl (NW_trig' OSin a (or_introl eq_refl) K Na) _). reflexivity.
Qed.
Lemma D2_cos a g : NW a -> is_zero a || is_pi a = false -> D2 (e_cos a) g ->
  exists ga, D2 a ga /\ NW ga /\ r2 OMul (e_neg (e_sin a)) ga g.
Proof.
  intros Na K (d & Hd & Hg). apply D_cos in Hd as (ga & A & s & s' & H1 & HA & Hs & Hs' & H2).
  rewrite (NW_agg _ _ Na) in HA. injection HA as <-. apply sin_rule in Hs as ->; [|exact K].
  apply neg_rule in Hs' as ->; [|reflexivity|reflexivity].
  assert (NW ga) as Nga by (apply (D2_NW m x a); [apply NW_Hh; exact Na|exact H1]).
  pose proof (NW_2 m OMul _ _ _ eq_refl ltac:(discriminate) (NW_nsin a K Na) Nga H2) as Nd.
  rewrite (NW_agg _ _ Nd) in Hg. injection Hg as <-. eauto.
Qed.
Lemma D2_sin a g : NW a -> is_zero a || is_pi a = false -> D2 (e_sin a) g ->
  exists ga, D2 a ga /\ NW ga /\ r2 OMul (e_cos a) ga g.
Proof.
  intros Na K (d & Hd & Hg). apply D_sin in Hd as (ga & A & c & H1 & HA & Hc & H2).
  rewrite (NW_agg _ _ Na) in HA. injection HA as <-. apply cos_rule in Hc as ->; [|exact K].
  assert (NW ga) as Nga by (apply (D2_NW m x a); [apply NW_Hh; exact Na|exact H1]).
  pose proof (NW_2 m OMul _ _ _ eq_refl ltac:(discriminate) (NW_trig' OCos a (or_intror eq_refl) K Na) Nga H2) as Nd.
  rewrite (NW_agg _ _ Nd) in Hg. injection Hg as <-. eauto.
Qed.
Lemma D_of_D2 e d : NW e -> D e = Ok d -> NW d \/ (T d /\ ~ ok d).
Proof.
  intros N Hd. pose proof (D_QN m x e (proj2 N) (NW_Hh _ _ N) d Hd) as Q.
  destruct (QN_T m x to ord d Q) as [K|K]; [left|right; exact K]. split; [exact K|]. eapply deriv_wf; [apply N|exact Hd].
Qed.
Lemma TC_by_D2 e : NW e -> T e -> (forall g, NW g -> D2 e g -> TC g) -> TC e.
Proof.
  intros N Te H. apply TC_intro; [apply N|exact Te|]. intros _ d Hd.
  destruct (D_of_D2 e d N Hd) as [Nd|[Td Kd]].
  - apply H; [exact Nd|]. exists d. split; [exact Hd|apply NW_agg; exact Nd].
  - apply TC_stuck; [eapply deriv_wf; [apply N|exact Hd]|exact Td|exact Kd].
Qed.
(** [sin A] when [A] has derivative one *)
Lemma TC_sin1 a ga : NW a -> is_zero a || is_pi a = false -> D2 a ga -> is_one ga = true -> TC (e_sin a).
Proof.
  intros Na K Hg Ho. apply TC_by_D2; [apply NW_trig'; auto|apply sincos_T; auto|].
  intros g Ng H. apply D2_sin in H as (ga' & H1 & _ & H2); [|exact Na|exact K].
  assert (ga' = ga) as -> by (eapply D2_det; [exact H1|exact Hg]).
  apply mulf_inv in H2 as [(Kn & _)|[(Kn & _)|[(_ & _ & ->)|(_ & _ & _ & _ & _ & Kn)]]]; try discriminate; try congruence.
  - apply TC_num; [exact Kn|apply Ng].
  - apply TC_by_D2; [exact Ng|apply sincos_T; auto|].
    intros g Ng' H. apply D2_cos in H as (ga' & H1' & _ & H2); [|exact Na|exact K].
    assert (ga' = ga) as -> by (eapply D2_det; [exact H1'|exact Hg]).
    apply mulf_inv in H2 as [(Kn & _)|[(Kn & _)|[(_ & _ & ->)|(_ & _ & _ & _ & _ & Kn)]]]; try discriminate; try congruence.
    + apply TC_num; [exact Kn|apply Ng'].
    + apply TC_stuck; [apply Ng'| |]; apply (stuck_T m x to ord); reflexivity.
Qed.
Lemma PX_cos a : NW (e_cos a) -> (forall g, D2 a g -> PX g) -> PX (e_cos a).
Proof.
  intros N H. apply NW_trig in N as K; [|auto]. destruct K as [K Na].
  apply P_intro; [exact N|apply sincos_T; auto|]. intros _ g Hg.
  apply D2_cos in Hg as (ga & H1 & Nga & H2); [|exact Na|exact K].
  split.
  - eapply mul_PX'; [|exact (H _ H1)|exact H2]. exists O. apply stuck_P; [apply NW_nsin; assumption|reflexivity].
  - intros u ->. apply mulf_inv in H2 as [(Kn & _)|[(Kn & _)|[(Ko & _ & E)|(E & _)]]]; try discriminate.
    injection E as ->. eapply TC_sin1; [exact Na|exact K|exact H1|exact Ko].
Qed.
Lemma PX_sin a : NW (e_sin a) -> (forall g, D2 a g -> V2 g) -> PX (e_sin a).
Proof.
  intros N H. apply NW_trig in N as K; [|auto]. destruct K as [K Na].
  apply P_intro; [exact N|apply sincos_T; auto|]. intros _ g Hg.
  apply D2_sin in Hg as (ga & H1 & Nga & H2); [|exact Na|exact K].
  assert (PX (e_cos a)) as Pc by (apply PX_cos; [apply NW_trig'; auto|intros; apply H; assumption]).
  split; [eapply mul_PX'; [exact Pc|apply H; exact H1|exact H2]|].
  intros u ->. apply mulf_inv in H2 as [(Kn & _)|[(Kn & _)|[(Ko & _ & E)|(E & _)]]]; discriminate.
Qed.
Lemma V2_trig t a : t = OSin \/ t = OCos -> NW (mk1 t a) -> (forall g, D2 a g -> V2 g) -> V2 (mk1 t a).
Proof.
  intros Ht N H. split; [|intros u E; destruct Ht as [->| ->]; discriminate].
  destruct Ht as [->| ->]; [apply PX_sin; assumption|apply PX_cos; [assumption|]]. intros g Hg. apply H. exact Hg.
Qed.

(** ** everything that is reached from a simplified tree *)
Lemma NW_pop t op r c : arity t = 1%nat -> NW (Expr (Operator op) (r ++ [c])) -> descriptor op = t ->
  NW c /\ (size c < size (Expr (Operator op) (r ++ [c])))%nat.
Proof.
  intros Ht N Hd. pose proof (shape1 t op r c Ht (proj2 N) Hd) as E. rewrite E in N. rewrite E. split; [apply (NW_inv1 m t c N)|]. rewrite size_mk1. lia.
Qed.

Lemma thmA n : forall e, (size e < n)%nat -> Hh e ->
  (forall e', agg e = Ok e' -> V2 e') /\ (forall g, D2 e g -> V2 g).
Proof.
  induction n as [|n IH]; [lia|]. intros e Hn HH.
  assert (forall c, NW c -> (size c < size e)%nat -> V2 c) as IHn.
  { intros c Nc Hc. apply (proj1 (IH c ltac:(lia) (NW_Hh _ _ Nc))). apply NW_agg. exact Nc. }
  assert (forall a A, Hh a -> (size a < size e)%nat -> agg a = Ok A -> (size A < size e)%nat) as SA.
  { intros a A Ha Hs HA. destruct (agg_shrinks m a (proj1 Ha) A HA) as [->|K]; lia. }
  assert (forall a A, Hh a -> (size a < size e)%nat -> agg a = Ok A -> V2 A) as IHA.
  { intros a A Ha Hs HA. apply IHn; [exact (Hh_agg _ _ _ Ha HA)|]. apply (SA a); assumption. }
  assert (forall A t z, t = OSin \/ t = OCos -> NW A -> (size A < size e)%nat -> r1 t A z -> V2 z) as Vtrig.
  { intros A t z Ht NA Hs H. assert (arity t = 1%nat) as At by (destruct Ht as [->| ->]; reflexivity).
    pose proof (NW_1 m t A z At NA H) as Nz. apply rule1_ar in H; [|exact At].
    assert (is_num z = true \/ z = mk1 t A) as [K| ->].
    { destruct Ht as [->| ->]; inversion H; subst; auto. }
    - apply V2_num; [exact K|apply Nz].
    - apply V2_trig; [exact Ht|exact Nz|]. apply (IH A ltac:(lia) (NW_Hh _ _ NA)). }
  assert (forall A t z, t = OExp \/ t = OLn -> NW A -> (size A < size e)%nat -> r1 t A z -> V2 z) as Vexp.
  { intros A t z Ht NA Hs H. assert (arity t = 1%nat) as At by (destruct Ht as [->| ->]; reflexivity).
    pose proof (NW_1 m t A z At NA H) as Nz. apply rule1_ar in H; [|exact At].
    assert (is_num z = true \/ z = mk1 t A \/ (NW z /\ (size z < size A)%nat)) as [K|[->|[K1 K2]]].
    { destruct Ht as [->| ->]; inversion H as [| | | | | | | | |op r c Hd| | | |op r c Hd|]; subst; auto; right; right.
      - exact (NW_pop OLn op r z eq_refl NA Hd).
      - exact (NW_pop OExp op r z eq_refl NA Hd). }
    - apply V2_num; [exact K|apply Nz].
    - destruct Ht as [->| ->]; (apply V2_stuck; [exact Nz|reflexivity|reflexivity]).
    - apply IHn; [exact K1|lia]. }
  assert (forall A B z, NW A -> NW B -> V2 A -> V2 B -> (size A < size e)%nat -> r2 OPow A B z -> V2 z) as Vpow.
  { intros A B z NA NB VA VB Hs H. pose proof (NW_2 m OPow A B z eq_refl ltac:(discriminate) NA NB H) as Nz.
    apply rule2_ar in H; [|reflexivity]. inversion H; subst.
    - match goal with K : _ \/ _ |- _ => destruct K as [K|[K|[K|K]]]; discriminate K end.
    - apply V2_num; [reflexivity|apply Nz].
    - exact VB.
    - match goal with K : descriptor ?op = OLn |- _ => destruct (NW_pop OLn _ _ _ eq_refl NA K) as [K1 K2] end.
      apply IHn; [exact K1|lia].
    - apply V2_stuck; [exact Nz|reflexivity|reflexivity]. }
  assert (forall g, D2 e g -> V2 g) as HD.
  { destruct HH as [W HH0]. assert (Hh e) as HH by (split; assumption). clear HH0.
    inversion W as [v Hv|y|t c Hl Hc]; subst.
    - intros g (d & [= <-] & [= <-]). apply V2_num; [reflexivity|apply wf_zero].
    - intros g (d & Hd & Hg). rewrite deriv_var in Hd. injection Hd as <-.
      destruct (String.eqb x y); injection Hg as <-; (apply V2_num; [reflexivity|]); [apply wf_one|apply wf_zero].
    - destruct (arity t) as [|[|[|?]]] eqn:At; try (destruct t; discriminate).
      + destruct c as [|a [|? ?]]; try discriminate. change (Expr (Operator (gen_op t)) [a]) with (mk1 t a) in *.
        pose proof (Hh_1 _ _ _ HH) as Ha. rewrite size_mk1 in *.
        assert (forall g, D2 a g -> V2 g) as Ga by (apply (IH a ltac:(lia) Ha)).
        intros g Hg. pose proof (D2_NW m x _ _ HH Hg) as Ng. destruct Hg as (d & Hd & Hg).
        destruct t; try discriminate At.
        * apply D_neg in Hd as (ga & H1 & H2). pose proof (V2_neg _ _ (Ga _ H1) H2) as Vd.
          rewrite (NW_agg _ _ (V2_NW _ Vd)) in Hg. injection Hg as <-. exact Vd.
        * apply D_sin in Hd as (ga & A & c & H1 & HA & Hr & H2).
          assert (V2 c) as Vc by (apply (Vtrig A OCos c); [auto|exact (Hh_agg _ _ _ Ha HA)|apply (SA a); [exact Ha|lia|exact HA]|exact Hr]).
          pose proof (V2_mul _ _ _ Vc (Ga _ H1) H2) as Vd.
          rewrite (NW_agg _ _ (V2_NW _ Vd)) in Hg. injection Hg as <-. exact Vd.
        * apply D_cos in Hd as (ga & A & s & s' & H1 & HA & Hr & Hs' & H2).
          assert (V2 s) as Vs by (apply (Vtrig A OSin s); [auto|exact (Hh_agg _ _ _ Ha HA)|apply (SA a); [exact Ha|lia|exact HA]|exact Hr]).
          pose proof (V2_mul _ _ _ (V2_neg _ _ Vs Hs') (Ga _ H1) H2) as Vd.
          rewrite (NW_agg _ _ (V2_NW _ Vd)) in Hg. injection Hg as <-. exact Vd.
        * apply D_exp in Hd as (ga & A & c & H1 & HA & Hr & H2).
          assert (V2 c) as Vc by (apply (Vexp A OExp c); [auto|exact (Hh_agg _ _ _ Ha HA)|apply (SA a); [exact Ha|lia|exact HA]|exact Hr]).
          pose proof (V2_mul _ _ _ (Ga _ H1) Vc H2) as Vd.
          rewrite (NW_agg _ _ (V2_NW _ Vd)) in Hg. injection Hg as <-. exact Vd.
        * apply D_ln in Hd as (ga & A & H1 & HA & H2).
          assert (V2 A) as VA by (apply (IHA a); [exact Ha|lia|exact HA]).
          pose proof (V2_div _ _ _ (Ga _ H1) VA H2) as Vd.
          rewrite (NW_agg _ _ (V2_NW _ Vd)) in Hg. injection Hg as <-. exact Vd.
      + destruct c as [|a [|b [|? ?]]]; try discriminate. change (Expr (Operator (gen_op t)) [a; b]) with (mk2 t a b) in *.
        destruct (Hh_2 _ _ _ _ HH) as [Ha Hb]. rewrite size_mk2 in *.
        assert (forall g, D2 a g -> V2 g) as Ga by (apply (IH a ltac:(lia) Ha)).
        assert (forall g, D2 b g -> V2 g) as Gb by (apply (IH b ltac:(lia) Hb)).
        intros g Hg. pose proof (D2_NW m x _ _ HH Hg) as Ng. destruct Hg as (d & Hd & Hg).
        destruct t; try discriminate At.
        * apply D_add in Hd as (ga & gb & H1 & H2 & H3). pose proof (V2_add _ _ _ (Ga _ H1) (Gb _ H2) H3) as Vd.
          rewrite (NW_agg _ _ (V2_NW _ Vd)) in Hg. injection Hg as <-. exact Vd.
        * apply D_sub in Hd as (ga & gb & H1 & H2 & H3). exact (V2_subagg _ _ _ _ (Ga _ H1) (Gb _ H2) H3 Hg).
        * apply D_mul in Hd as (ga & gb & A & B & X & Y & H1 & H2 & HA & HB & HX & HY & H3).
          assert (V2 A) as VA by (apply (IHA a); [exact Ha|lia|exact HA]).
          assert (V2 B) as VB by (apply (IHA b); [exact Hb|lia|exact HB]).
          pose proof (V2_add _ _ _ (V2_mul _ _ _ (Ga _ H1) VB HX) (V2_mul _ _ _ VA (Gb _ H2) HY) H3) as Vd.
          rewrite (NW_agg _ _ (V2_NW _ Vd)) in Hg. injection Hg as <-. exact Vd.
        * apply D_div in Hd as (ga & gb & A & B & X & Y & N & M & H1 & H2 & HA & HB & HX & HY & HN & HM & H3).
          assert (V2 A) as VA by (apply (IHA a); [exact Ha|lia|exact HA]).
          assert (V2 B) as VB by (apply (IHA b); [exact Hb|lia|exact HB]).
          pose proof (V2_mul _ _ _ (Ga _ H1) VB HX) as VX. pose proof (V2_mul _ _ _ VA (Gb _ H2) HY) as VY.
          pose proof (V2_mul _ _ _ VB VB HM) as VM.
          pose proof (wf_r2 m OSub X Y N eq_refl (V2_NW _ VX) (V2_NW _ VY) HN) as WN.
          apply divf_inv in H3 as [(K & _)|(-> & _)].
          -- destruct d as [[op|[v|y]] k]; try discriminate. cbn in Hg. injection Hg as <-.
             apply V2_num; [reflexivity|apply Ng].
          -- apply agg2_inv in Hg as (N' & M' & E1 & E2 & Hr); [|reflexivity].
             rewrite (NW_agg _ _ (V2_NW _ VM)) in E2. injection E2 as <-.
             eapply V2_div; [exact (V2_subagg _ _ _ _ VX VY HN E1)|exact VM|exact Hr].
        * apply D_pow in Hd as (ga & gb & A & B & p & q & u1 & u2 & u3 & w & H1 & H2 & HA & HB & Hp & Hq & Hu1 & Hu2 & Hu3 & Hw & H3).
          assert (V2 A) as VA by (apply (IHA a); [exact Ha|lia|exact HA]).
          assert (V2 B) as VB by (apply (IHA b); [exact Hb|lia|exact HB]).
          assert (size A < size a + size b + 1)%nat as Hs by (pose proof (SA a A Ha ltac:(lia) HA); lia).
          assert (V2 q) as Vq by (apply (Vexp A OLn q); [auto|exact (V2_NW _ VA)|apply (SA a); [exact Ha|lia|exact HA]|exact Hq]).
          assert (V2 p) as Vp by (apply (Vpow A B p); [exact (V2_NW _ VA)|exact (V2_NW _ VB)|exact VA|exact VB|apply (SA a); [exact Ha|lia|exact HA]|exact Hp]).
          pose proof (V2_mul _ _ _ (Gb _ H2) Vq Hu1) as V1.
          pose proof (V2_div _ _ _ (V2_mul _ _ _ VB (Ga _ H1) Hu2) VA Hu3) as V3.
          pose proof (V2_mul _ _ _ Vp (V2_add _ _ _ V1 V3 Hw) H3) as Vd.
          rewrite (NW_agg _ _ (V2_NW _ Vd)) in Hg. injection Hg as <-. exact Vd. }
  split; [|exact HD]. intros e' He'.
  destruct (agg_shrinks m e (proj1 HH) e' He') as [->|Hlt]; [|apply IHn; [exact (Hh_agg _ _ _ HH He')|exact Hlt]].
  pose proof (Hh_agg _ _ _ HH He') as Ne. destruct HH as [W _].
  inversion W as [v Hv|y|t c Hl Hc]; subst.
  - apply V2_num; [reflexivity|exact W].
  - split; [|intros u [=]]. apply P_intro; [exact Ne|apply leaf_T|]. intros _ g Hg. pose proof (HD g Hg) as Vg.
    split; [exact (proj1 Vg)|]. intros u Eu. apply PX_TC. apply (proj2 Vg). exact Eu.
  - destruct (arity t) as [|[|[|?]]] eqn:At; try (destruct t; discriminate).
    + destruct c as [|a [|? ?]]; try discriminate. change (Expr (Operator (gen_op t)) [a]) with (mk1 t a) in *.
      destruct (NW_inv1 _ _ _ Ne) as [Na Hr]. rewrite size_mk1 in *.
      destruct t; try discriminate At.
      * eapply V2_neg; [apply IHn; [exact Na|lia]|exact Hr].
      * apply (Vtrig a OSin); [auto|exact Na|lia|exact Hr].
      * apply (Vtrig a OCos); [auto|exact Na|lia|exact Hr].
      * apply V2_stuck; [exact Ne|reflexivity|reflexivity].
      * apply V2_stuck; [exact Ne|reflexivity|reflexivity].
    + destruct c as [|a [|b [|? ?]]]; try discriminate. change (Expr (Operator (gen_op t)) [a; b]) with (mk2 t a b) in *.
      destruct (NW_inv2 _ _ _ _ Ne) as (Na & Nb & Hr). rewrite size_mk2 in *.
      assert (V2 a) as Va by (apply IHn; [exact Na|lia]). assert (V2 b) as Vb by (apply IHn; [exact Nb|lia]).
      destruct t; try discriminate At.
      * eapply V2_add; [exact Va|exact Vb|exact Hr].
      * apply V2_stuck; [exact Ne|reflexivity|reflexivity].
      * eapply V2_mul; [exact Va|exact Vb|exact Hr].
      * eapply V2_div; [exact Va|exact Vb|exact Hr].
      * apply V2_stuck; [exact Ne|reflexivity|reflexivity].
Qed.

(** ** the theorem *)
Lemma Hh_TC e : Hh e -> T e -> TC e.
Proof.
  intros HH Te. apply TC_intro; [apply HH|exact Te|]. intros _ d Hd.
  pose proof (D_QN m x e (proj1 HH) HH d Hd) as Q. pose proof (deriv_wf _ _ _ _ (proj1 HH) Hd) as Wd.
  destruct (QN_T m x to ord d Q) as [K|[K1 K2]]; [|apply TC_stuck; assumption].
  apply PX_TC. apply (proj2 (thmA (S (size e)) e ltac:(lia) HH)). exists d. split; [exact Hd|apply NF_fix; exact K].
Qed.
Lemma Hh_mk2 t a b : arity t = 2%nat -> t <> OSub -> Hh a -> Hh b -> Hh (mk2 t a b).
Proof.
  intros At Hs Ha Hb. split; [apply wf_mk2; [exact At|apply Ha|apply Hb]|]. intros s z Hst E.
  apply subterm_mk2 in Hst as [->|[Hst|Hst]]; [|eapply Ha; [exact Hst|exact E]|eapply Hb; [exact Hst|exact E]].
  apply agg2_inv in E as (a' & b' & E1 & E2 & Hr); [|exact At].
  apply (NW_2 m t a' b' z At Hs); [exact (Hh_agg _ _ _ Ha E1)|exact (Hh_agg _ _ _ Hb E2)|exact Hr].
Qed.
Lemma Hh_T e : Hh e -> T e.
Proof.
  intros HH. pose proof (proj1 HH) as W. revert HH. pattern e. revert e W. apply wf_ind1.
  - intros n _ _. apply leaf_T.
  - intros y _. apply leaf_T.
  - intros t a At Wa IH HH. destruct t; try discriminate At; try (apply stuck_T; reflexivity); apply sincos_T; auto.
  - intros t a b At Wa Wb IHa IHb HH. destruct (Hh_2 _ _ _ _ HH) as [Ha Hb]. specialize (IHa Ha). specialize (IHb Hb).
    pose proof (Hh_TC a Ha IHa) as Ca. pose proof (Hh_TC b Hb IHb) as Cb.
    pose proof (NW_Hh _ _ (NW_one m)) as H1. assert (TC e_one) as C1 by (apply TC_num; [reflexivity|apply wf_one]).
    assert (forall c, Hh c -> TC c -> TC (mk2 ODiv e_one c)) as Cinv.
    { intros c Hc Cc. apply Hh_TC; [apply Hh_mk2; [reflexivity|discriminate|exact H1|exact Hc]|apply T_div; assumption]. }
    destruct t; try discriminate At; try (apply stuck_T; reflexivity).
    + apply T_add; [exact IHa|exact IHb|]. intros za zb er La Lb E. apply T_div; [|apply Cinv; assumption].
      assert (Hh (mk2 ODiv a b)) as Hq by (apply Hh_mk2; [reflexivity|discriminate|exact Ha|exact Hb]).
      apply Hh_TC; [apply Hh_mk2; [reflexivity|discriminate|exact Hq|exact H1]|].
      apply T_add; [apply T_div; assumption|apply TC_T; exact C1|].
      intros zq z1 er' Lq L1 E'. destruct (err_nonnum_add _ _ _ _ _ _ _ _ _ Lq L1 E') as [_ K]. discriminate.
    + apply T_mul; [exact IHa|exact IHb|]. intros za zb er La Lb E.
      split; apply T_div; try assumption; apply Cinv; assumption.
    + apply T_div; assumption.
Qed.
End LT.
