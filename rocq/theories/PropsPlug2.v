(** * PropsPlug2: where the plugged-in expression makes sense, limit returns it (C89) *)
From Coq Require Import ZArith List String Bool Lia.
From Coq Require Import Reals Lra.
From Verif Require Import Base Float Rational SmartNum Ast Compute Limit Spec SpecTree SpecShape SpecPlug SpecPlug2.
From Verif Require Import BaseProofs RationalProofs NumProofs NumProofs2 TreeProofs TreeProofs2 TreeProofs3 TreeProofs4
  ShapeProofs RealProofs.
From Verif Require Import PropsTree PropsPlug.
Import ListNotations.
Open Scope string_scope.
Open Scope Z_scope.

Lemma pl_wf m x to e : pluggable m x to e -> wf e.
Proof.
  induction 1 as [n H|y|a b Ha IHa Hb IHb|a b Ha IHa Hb IHb|a b Ha IHa Hb IHb|u W N|u W N];
    try (apply wf_mk2; [reflexivity|assumption|assumption]); try (apply wf_mk1; [reflexivity|assumption]); constructor; exact H.
Qed.

Lemma subst_no_sub x to e : wf e -> ~ has_op OSub e -> ~ has_op OSub to -> ~ has_op OSub (subst x to e).
Proof.
  intros W N T. induction W as [n O|y|t a At Wa IHa|t a b At Wa Wb IHa IHb] using wf_ind1.
  - exact N.
  - cbn [subst]. destruct (String.eqb y x); assumption.
  - rewrite subst_mk1. intros (op & c & D & S). unfold mk1 in S. inversion S as [|? ? ? c' I' S']; subst.
    + apply N. exists (gen_op t), [a]. split; [exact D|apply sub_refl].
    + destruct I' as [<-|[]]. apply IHa; [|exists op, c; auto].
      intros (op' & c' & D' & S''). apply N. exists op', c'. split; [exact D'|]. apply sub_child with (2 := S''). cbn; auto.
  - rewrite subst_mk2. intros (op & c & D & S). unfold mk2 in S. inversion S as [|? ? ? c' I' S']; subst.
    + apply N. exists (gen_op t), [a; b]. split; [exact D|apply sub_refl].
    + destruct I' as [<-|[<-|[]]]; [apply IHa|apply IHb]; try (exists op, c; auto; fail);
        intros (op' & c' & D' & S''); apply N; exists op', c'; (split; [exact D'|]); apply sub_child with (2 := S''); cbn; auto.
Qed.

(** zero operands *)
Lemma zero_num z : wf z -> is_zero z = true -> exists n, z = e_num n /\ sn_is_zero n = true /\ val_is_zero (nval n) = true.
Proof.
  intros W Z. destruct W as [n O|y|t c L F]; try discriminate. exists n. split; [reflexivity|].
  cbn in Z. split; [exact Z|]. destruct O as [_ T]. unfold sn_is_zero in Z. destruct (ntag n); try discriminate. exact T.
Qed.

Lemma num_shape z : wf z -> is_num z = true -> exists n, z = e_num n.
Proof. intros W Z. destruct W as [n O|y|t c L F]; try discriminate. exists n. reflexivity. Qed.

Lemma add_zero_l m l r : wf l -> wf r -> is_zero l = true -> eval_rule m OAdd [Ok l; Ok r] = Ok r.
Proof.
  intros Wl Wr Z. cbn [eval_rule]. unfold add_eval_rule, eval2. cbn [pop_unwrap pop bind].
  destruct (is_num l && is_num r) eqn:N; [|rewrite Z; reflexivity].
  apply andb_prop in N as [_ Nr]. destruct (num_shape r Wr Nr) as (k & ->). destruct (zero_num l Wl Z) as (n & -> & T & _).
  cbn [to_smart_num_unwrap to_smart_num root e_num bind]. unfold sn_add. rewrite T. reflexivity.
Qed.
Lemma add_zero_r m l r : wf l -> wf r -> is_zero l = false -> is_zero r = true -> eval_rule m OAdd [Ok l; Ok r] = Ok l.
Proof.
  intros Wl Wr Zl Z. cbn [eval_rule]. unfold add_eval_rule, eval2. cbn [pop_unwrap pop bind].
  destruct (is_num l && is_num r) eqn:N; [|rewrite Zl, Z; reflexivity].
  apply andb_prop in N as [Nl _]. destruct (num_shape l Wl Nl) as (k & ->). destruct (zero_num r Wr Z) as (n & -> & T & _).
  cbn [to_smart_num_unwrap to_smart_num root e_num bind]. unfold sn_add. rewrite T.
  assert (sn_is_zero k = false) as -> by exact Zl. reflexivity.
Qed.
Lemma mul_zero m l r : m = Debug \/ m = Release -> wf l -> wf r -> is_zero l = true \/ is_zero r = true ->
  exists z, eval_rule m OMul [Ok l; Ok r] = Ok z /\ is_zero z = true.
Proof.
  intros Hm Wl Wr Z. cbn [eval_rule]. unfold mul_eval_rule, eval2. cbn [pop_unwrap pop bind].
  destruct (is_num l && is_num r) eqn:N.
  - apply andb_prop in N as [Nl Nr]. destruct (num_shape l Wl Nl) as (k & ->). destruct (num_shape r Wr Nr) as (n & ->).
    cbn [to_smart_num_unwrap to_smart_num root e_num bind].
    assert (val_is_zero (nval k) || val_is_zero (nval n) = true) as V.
    { destruct Z as [Z|Z]; [destruct (zero_num _ Wl Z) as (? & E & _ & V)|destruct (zero_num _ Wr Z) as (? & E & _ & V)];
        injection E as <-; rewrite V; auto using orb_true_r. }
    unfold sn_mul. destruct (sn_is_one k) eqn:O1.
    { eexists. split; [reflexivity|]. destruct Z as [Z|Z]; [|exact Z]. exfalso.
      cbn in Z. unfold sn_is_zero in Z. unfold sn_is_one in O1. destruct (ntag k); discriminate. }
    destruct (sn_is_one n) eqn:O2.
    { eexists. split; [reflexivity|]. destruct Z as [Z|Z]; [exact Z|]. exfalso.
      cbn in Z. unfold sn_is_zero in Z. unfold sn_is_one in O2. destruct (ntag n); discriminate. }
    unfold guard, val_mul. rewrite V. destruct Hm as [-> | ->]; cbn [is_strict andb bind]; eexists; (split; [reflexivity|reflexivity]).
  - assert (is_zero l || is_zero r = true) as -> by (destruct Z as [-> | ->]; auto using orb_true_r).
    eexists. split; reflexivity.
Qed.
Lemma div_zero m l r : m = Debug \/ m = Release -> wf l -> wf r -> is_zero l = true ->
  exists z, eval_rule m ODiv [Ok l; Ok r] = Ok z /\ is_zero z = true.
Proof.
  intros Hm Wl Wr Z. cbn [eval_rule]. unfold div_eval_rule, eval2. cbn [pop_unwrap pop bind].
  destruct (is_num l && is_num r) eqn:N; [|rewrite Z; eexists; split; reflexivity].
  apply andb_prop in N as [_ Nr]. destruct (num_shape r Wr Nr) as (k & ->). destruct (zero_num l Wl Z) as (n & -> & _ & V).
  cbn [to_smart_num_unwrap to_smart_num root e_num bind]. unfold sn_div, guard, val_div. rewrite V. cbn [negb]. rewrite andb_false_r.
  destruct Hm as [-> | ->]; cbn [is_strict andb bind]; eexists; (split; [reflexivity|reflexivity]).
Qed.

(** the plugged-in result is simplified *)
Lemma pl_fix m x to e : wf to -> ~ has_op OSub to -> num_aggregate m to = Ok to -> pluggable m x to e ->
  forall z, num_aggregate m (subst x to e) = Ok z -> num_aggregate m z = Ok z.
Proof.
  intros Wt Nt Ft. induction 1 as [n H|y|a b Ha IHa Hb IHb|a b Ha IHa Hb IHb|a b Ha IHa Hb IHb|u W N|u W N]; intros z E.
  - injection E as <-. reflexivity.
  - cbn [subst e_var] in E. destruct (String.eqb y x); [congruence|injection E as <-; reflexivity].
  - unfold e_add in E. rewrite subst_mk2, agg_mk2 in E by reflexivity.
    apply bind_ok in E. destruct E as (r & Er & E). apply bind_ok in E. destruct E as (l & El & E).
    exact (rule_fix m OAdd l r z (or_introl eq_refl) (IHa _ El) (IHb _ Er) E).
  - unfold e_mul in E. rewrite subst_mk2, agg_mk2 in E by reflexivity.
    apply bind_ok in E. destruct E as (r & Er & E). apply bind_ok in E. destruct E as (l & El & E).
    exact (rule_fix m OMul l r z (or_intror (or_introl eq_refl)) (IHa _ El) (IHb _ Er) E).
  - unfold e_div in E. rewrite subst_mk2, agg_mk2 in E by reflexivity.
    apply bind_ok in E. destruct E as (r & Er & E). apply bind_ok in E. destruct E as (l & El & E).
    exact (rule_fix m ODiv l r z (or_intror (or_intror (or_introl eq_refl))) (IHa _ El) (IHb _ Er) E).
  - refine (c25_idempotent m _ z _ _ E).
    + apply subst_wf; [apply wf_mk1; [reflexivity|exact W]|exact Wt].
    + apply subst_no_sub; [apply wf_mk1; [reflexivity|exact W]| |exact Nt].
      intros (op & c & D & S). unfold e_cos, mk1 in S. inversion S as [|? ? ? c' I' S']; subst; [discriminate|].
      destruct I' as [<-|[]]. apply N. exists op, c. auto.
  - refine (c25_idempotent m _ z _ _ E).
    + apply subst_wf; [apply wf_mk1; [reflexivity|exact W]|exact Wt].
    + apply subst_no_sub; [apply wf_mk1; [reflexivity|exact W]| |exact Nt].
      intros (op & c & D & S). unfold e_sin, mk1 in S. inversion S as [|? ? ? c' I' S']; subst; [discriminate|].
      destruct I' as [<-|[]]. apply N. exists op, c. auto.
Qed.

(** what limit returns, in terms of what simplification returns *)
Definition agrees (r : res expr) (q : res lres) : Prop :=
  match r with
  | Ok z => exists l, q = Ok (ROk l) /\ answers l z
  | Panic => q = Panic
  | _ => False
  end.

Lemma zero_wf y : literal_zero y -> wf y /\ is_zero y = true.
Proof. intros (n & -> & O & Z). split; [constructor; exact O|exact Z]. Qed.
Lemma zero_fix m y : literal_zero y -> num_aggregate m y = Ok y.
Proof. intros (n & -> & _). reflexivity. Qed.
Lemma to_zero z : wf z -> is_zero z = true -> literal_zero z.
Proof. intros W Z. destruct W as [n O|y|t c L F]; try discriminate. exists n. auto. Qed.

(** an answer either is the simplified expression, not 0, or both are 0 *)
Lemma answers_cases l z : wf z -> answers l z ->
  (is_zero z = false /\ l = Normal z) \/ (is_zero z = true /\ (l = Infinitesimal \/ exists y, l = Normal y /\ literal_zero y)).
Proof.
  intros W [-> |H]; [|right; exact H]. destruct (is_zero z) eqn:Z; [right|left; auto].
  split; [reflexivity|]. right. exists z. split; [reflexivity|apply to_zero; assumption].
Qed.

Definition last (m : mode) (q : res lres) : res lres :=
  qbind q (fun z => match z with Normal ex => bind (num_aggregate m ex) (fun ex' => Ok (ROk (Normal ex'))) | _ => Ok (ROk z) end).

(** sums, products and quotients of answers *)
Section Two.
Variables (m : mode) (l r : expr) (ll lr : lexpr).
Hypothesis Hm : m = Debug \/ m = Release.
Hypothesis (Wl : wf l) (Wr : wf r) (Fl : num_aggregate m l = Ok l) (Fr : num_aggregate m r = Ok r).
Hypothesis (Al : answers ll l) (Ar : answers lr r).

Lemma op_safe t a b : arity t = 2%nat -> wf a -> wf b -> num_aggregate m a = Ok a -> num_aggregate m b = Ok b ->
  eval_rule m t [Ok a; Ok b] = Panic \/ exists z, eval_rule m t [Ok a; Ok b] = Ok z.
Proof.
  intros A Wa Wb Fa Fb. pose proof (agg_safe m (mk2 t a b) (wf_mk2 t a b A Wa Wb)) as S. rewrite agg_mk2, Fa, Fb in S by exact A.
  cbn [bind] in S. destruct (eval_rule m t [Ok a; Ok b]) as [z| | |]; cbn [safe] in S; eauto; [destruct Hm; congruence|contradiction].
Qed.
(** two plain answers are combined by the same rule *)
Lemma both_normal t a b : arity t = 2%nat -> wf a -> wf b -> num_aggregate m a = Ok a -> num_aggregate m b = Ok b ->
  agrees (eval_rule m t [Ok a; Ok b]) (last m (Ok (ROk (Normal (mk2 t a b))))).
Proof.
  intros A Wa Wb Fa Fb. unfold last. cbn [qbind bind]. rewrite agg_mk2, Fa, Fb by exact A. cbn [bind].
  destruct (op_safe t a b A Wa Wb Fa Fb) as [E|[z E]]; rewrite E; cbn [bind agrees]; [reflexivity|].
  exists (Normal z). split; [reflexivity|left; reflexivity].
Qed.
Lemma says_zero z q : is_zero z = true -> q = Ok (ROk Infinitesimal) \/ (exists y, q = Ok (ROk (Normal y)) /\ literal_zero y) ->
  agrees (Ok z) q.
Proof.
  intros Z [-> |(y & -> & Y)]; cbn [agrees]; eexists; (split; [reflexivity|right; split; [exact Z|]]); [left; reflexivity|right; eauto].
Qed.

Lemma add_answers : exists q, l_add ll lr = ROk q /\ agrees (eval_rule m OAdd [Ok l; Ok r]) (last m (Ok (ROk q))).
Proof.
  destruct (answers_cases ll l Wl Al) as [[Zl ->]|[Zl [-> |(y & -> & Y)]]];
  destruct (answers_cases lr r Wr Ar) as [[Zr ->]|[Zr [-> |(w & -> & W)]]]; cbn [l_add]; eexists; (split; [reflexivity|]).
  - exact (both_normal OAdd l r eq_refl Wl Wr Fl Fr).
  - rewrite add_zero_r by assumption. unfold last. cbn [qbind bind]. rewrite Fl. eexists. split; [reflexivity|left; reflexivity].
  - destruct (zero_wf w W) as [Ww Zw]. rewrite add_zero_r by assumption.
    pose proof (both_normal OAdd l w eq_refl Wl Ww Fl (zero_fix m w W)) as B. rewrite add_zero_r in B by assumption. exact B.
  - rewrite add_zero_l by assumption. unfold last. cbn [qbind bind]. rewrite Fr. eexists. split; [reflexivity|left; reflexivity].
  - rewrite add_zero_l by assumption. apply says_zero; [exact Zr|left; reflexivity].
  - rewrite add_zero_l by assumption. apply says_zero; [exact Zr|right]. exists w. unfold last. cbn [qbind bind]. rewrite zero_fix by assumption. auto.
  - destruct (zero_wf y Y) as [Wy Zy]. rewrite add_zero_l by assumption.
    pose proof (both_normal OAdd y r eq_refl Wy Wr (zero_fix m y Y) Fr) as B. rewrite add_zero_l in B by assumption. exact B.
  - rewrite add_zero_l by assumption. apply says_zero; [exact Zr|right]. exists y. unfold last. cbn [qbind bind]. rewrite zero_fix by assumption. auto.
  - destruct (zero_wf y Y) as [Wy Zy], (zero_wf w W) as [Ww Zw]. rewrite add_zero_l by assumption. apply says_zero; [exact Zr|right].
    exists w. split; [|exact W]. unfold last. cbn [qbind bind]. unfold e_add. rewrite agg_mk2, !zero_fix by (reflexivity || assumption). cbn [bind].
    rewrite add_zero_l by assumption. reflexivity.
Qed.

(** a product or quotient whose value is literally 0 *)
Lemma zero_result t z a b : arity t = 2%nat -> is_zero z = true -> wf a -> wf b -> num_aggregate m a = Ok a -> num_aggregate m b = Ok b ->
  (exists y, eval_rule m t [Ok a; Ok b] = Ok y /\ is_zero y = true) -> agrees (Ok z) (last m (Ok (ROk (Normal (mk2 t a b))))).
Proof.
  intros A Z Wa Wb Fa Fb (y & E & Zy). apply says_zero; [exact Z|]. right. exists y. unfold last. cbn [qbind bind].
  rewrite agg_mk2, Fa, Fb by exact A. cbn [bind]. rewrite E. split; [reflexivity|]. apply to_zero; [|exact Zy].
  refine (agg_wf m (mk2 t a b) y (wf_mk2 t a b A Wa Wb) _). rewrite agg_mk2, Fa, Fb by exact A. exact E.
Qed.

Lemma mul_answers : exists q, l_mul ll lr = ROk q /\ agrees (eval_rule m OMul [Ok l; Ok r]) (last m (Ok (ROk q))).
Proof.
  destruct (answers_cases ll l Wl Al) as [[Zl ->]|[Zl Cl]].
  - destruct (answers_cases lr r Wr Ar) as [[Zr ->]|[Zr Cr]].
    + cbn [l_mul]. eexists. split; [reflexivity|]. exact (both_normal OMul l r eq_refl Wl Wr Fl Fr).
    + destruct (mul_zero m l r Hm Wl Wr (or_intror Zr)) as (z & E & Zz). rewrite E.
      destruct Cr as [-> |(w & -> & W)]; cbn [l_mul]; eexists; (split; [reflexivity|]).
      * apply says_zero; [exact Zz|left; reflexivity].
      * destruct (zero_wf w W) as [Ww Zw]. apply zero_result; try assumption; [reflexivity|apply zero_fix; exact W|].
        apply mul_zero; auto.
  - destruct (mul_zero m l r Hm Wl Wr (or_introl Zl)) as (z & E & Zz). rewrite E.
    assert (lr = Infinitesimal \/ exists w, lr = Normal w /\ wf w /\ num_aggregate m w = Ok w) as Cr.
    { destruct (answers_cases lr r Wr Ar) as [[_ ->]|[_ [-> |(w & -> & W)]]]; [right; eauto|left; reflexivity|right].
      exists w. split; [reflexivity|]. split; [apply zero_wf; exact W|apply zero_fix; exact W]. }
    destruct Cl as [-> |(y & -> & Y)], Cr as [-> |(w & -> & Ww & Fw)]; cbn [l_mul]; eexists; (split; [reflexivity|]);
      try (apply says_zero; [exact Zz|left; reflexivity]).
    destruct (zero_wf y Y) as [Wy Zy]. apply zero_result; try assumption; [reflexivity|apply zero_fix; exact Y|].
    apply mul_zero; auto.
Qed.

Lemma div_answers : is_zero r = false ->
  exists q, l_div ll lr = ROk q /\ agrees (eval_rule m ODiv [Ok l; Ok r]) (last m (Ok (ROk q))).
Proof.
  intros Zr. destruct (answers_cases lr r Wr Ar) as [[_ ->]|[Z _]]; [|congruence].
  destruct (answers_cases ll l Wl Al) as [[Zl ->]|[Zl Cl]].
  - cbn [l_div]. eexists. split; [reflexivity|]. exact (both_normal ODiv l r eq_refl Wl Wr Fl Fr).
  - destruct (div_zero m l r Hm Wl Wr Zl) as (z & E & Zz). rewrite E.
    destruct Cl as [-> |(y & -> & Y)]; cbn [l_div]; [rewrite Zr|]; eexists; (split; [reflexivity|]).
    + apply says_zero; [exact Zz|left; reflexivity].
    + destruct (zero_wf y Y) as [Wy Zy]. apply zero_result; try assumption; [reflexivity|apply zero_fix; exact Y|].
      apply div_zero; assumption.
Qed.
End Two.

Lemma limit_agrees m x to ord e : m = Debug \/ m = Release -> wf to -> ~ has_op OSub to -> num_aggregate m to = Ok to -> 0 <= ord ->
  pluggable m x to e -> forall fuel, (depth e <= fuel)%nat ->
  agrees (num_aggregate m (subst x to e)) (limit_var fuel m x to ord e).
Proof.
  intros Hm Wt Nt Ft Ho.
  assert (forall e, wf e -> num_aggregate m (subst x to e) = Panic \/ exists z, num_aggregate m (subst x to e) = Ok z /\ wf z) as Safe.
  { intros e' W. assert (wf (subst x to e')) as W' by (apply subst_wf; assumption).
    pose proof (agg_safe m _ W') as S. destruct (num_aggregate m (subst x to e')) as [z| | |] eqn:E; cbn in S; auto.
    - right. exists z. split; [reflexivity|]. exact (agg_wf m _ z W' E).
    - destruct Hm; congruence.
    - contradiction. }
  induction 1 as [n H|y|a b Ha IHa Hb IHb|a b Ha IHa Hb IHb|a b Ha IHa Hb IHb D|u W N|u W N S];
    intros fuel L; (destruct fuel as [|fuel]; [exfalso; cbn in L; lia|]).
  - exists (Normal (e_num n)). split; [reflexivity|left; reflexivity].
  - cbn [limit_var]. unfold limit_rule. cbn [root e_var subst]. destruct (String.eqb y x).
    + rewrite Ft. destruct (is_zero to) eqn:Z; cbn [qbind bind].
      * exists Infinitesimal. split; [reflexivity|right; auto].
      * rewrite Ft. exists (Normal to). split; [reflexivity|left; reflexivity].
    + exists (Normal (e_var y)). split; [reflexivity|left; reflexivity].
  - unfold e_add in *. rewrite depth_mk2 in L. rewrite subst_mk2, (agg_mk2 m OAdd) by reflexivity. cbn [limit_var].
    unfold limit_rule, add_limit_expr_rule. cbn [root mk2 gen_op descriptor child pop_unwrap pop bind].
    specialize (IHa fuel ltac:(lia)). specialize (IHb fuel ltac:(lia)).
    destruct (Safe b (pl_wf _ _ _ _ Hb)) as [Er|(r & Er & Wr)]; rewrite Er in *; cbn [agrees] in IHb.
    { rewrite IHb. reflexivity. }
    destruct IHb as (lr & Qr & Ar). rewrite Qr. cbn [qbind bind].
    destruct (Safe a (pl_wf _ _ _ _ Ha)) as [El|(l & El & Wl)]; rewrite El in *; cbn [agrees] in IHa.
    { rewrite IHa. reflexivity. }
    destruct IHa as (ll & Ql & Al). rewrite Ql. cbn [qbind bind].
    destruct (add_answers m l r ll lr Hm Wl Wr (pl_fix m x to a Wt Nt Ft Ha l El) (pl_fix m x to b Wt Nt Ft Hb r Er) Al Ar) as (q & Q & A).
    rewrite Q. exact A.
  - unfold e_mul in *. rewrite depth_mk2 in L. rewrite subst_mk2, (agg_mk2 m OMul) by reflexivity. cbn [limit_var].
    unfold limit_rule, mul_limit_expr_rule. cbn [root mk2 gen_op descriptor child pop_unwrap pop bind].
    specialize (IHa fuel ltac:(lia)). specialize (IHb fuel ltac:(lia)).
    destruct (Safe b (pl_wf _ _ _ _ Hb)) as [Er|(r & Er & Wr)]; rewrite Er in *; cbn [agrees] in IHb.
    { rewrite IHb. reflexivity. }
    destruct IHb as (lr & Qr & Ar). rewrite Qr. cbn [qbind bind].
    destruct (Safe a (pl_wf _ _ _ _ Ha)) as [El|(l & El & Wl)]; rewrite El in *; cbn [agrees] in IHa.
    { rewrite IHa. reflexivity. }
    destruct IHa as (ll & Ql & Al). rewrite Ql. cbn [qbind bind].
    destruct (mul_answers m l r ll lr Hm Wl Wr (pl_fix m x to a Wt Nt Ft Ha l El) (pl_fix m x to b Wt Nt Ft Hb r Er) Al Ar) as (q & Q & A).
    rewrite Q. exact A.
  - unfold e_div in *. rewrite depth_mk2 in L. rewrite subst_mk2, (agg_mk2 m ODiv) by reflexivity. cbn [limit_var].
    unfold limit_rule, div_limit_expr_rule. cbn [root mk2 gen_op descriptor child pop_unwrap pop bind].
    replace (Z.to_nat (ord + 1)) with (S (Z.to_nat ord)) by lia. cbn [div_loop].
    specialize (IHa fuel ltac:(lia)). specialize (IHb fuel ltac:(lia)).
    destruct (Safe a (pl_wf _ _ _ _ Ha)) as [El|(l & El & Wl)]; rewrite El in *; cbn [agrees] in IHa.
    { rewrite IHa. destruct (Safe b (pl_wf _ _ _ _ Hb)) as [Er|(r & Er & _)]; rewrite Er; reflexivity. }
    destruct IHa as (ll & Ql & Al). rewrite Ql. cbn [qbind bind].
    destruct (Safe b (pl_wf _ _ _ _ Hb)) as [Er|(r & Er & Wr)]; rewrite Er in *; cbn [agrees] in IHb.
    { rewrite IHb. reflexivity. }
    destruct IHb as (lr & Qr & Ar). rewrite Qr. cbn [qbind bind].
    destruct (div_answers m l r ll lr Hm Wl Wr (pl_fix m x to a Wt Nt Ft Ha l El) (pl_fix m x to b Wt Nt Ft Hb r Er) Al Ar (D r eq_refl)) as (q & Q & A).
    rewrite Q. exact A.
  - pose proof (pl_fix m x to (e_cos u) Wt Nt Ft (pl_cos m x to u W N)) as F.
    cbn [limit_var]. unfold limit_rule, cos_limit_expr_rule, subst_limit. cbn [root e_cos mk1 gen_op descriptor].
    change (Expr (Operator (gen_op OCos)) [u]) with (e_cos u).
    destruct (Safe (e_cos u) (wf_mk1 OCos u eq_refl W)) as [E|(z & E & Wz)]; rewrite E; cbn [bind qbind agrees]; [reflexivity|].
    destruct (is_zero z) eqn:Z.
    + exists Infinitesimal. split; [reflexivity|right; auto].
    + rewrite (F z E). exists (Normal z). split; [reflexivity|left; reflexivity].
  - pose proof (pl_fix m x to (e_sin u) Wt Nt Ft (pl_sin m x to u W N S)) as F.
    cbn [limit_var]. unfold limit_rule, sin_limit_expr_rule, subst_limit. cbn [root e_sin mk1 gen_op descriptor].
    change (Expr (Operator (gen_op OSin)) [u]) with (e_sin u).
    destruct (is_zero to) eqn:Zt.
    + destruct (S eq_refl) as (z & E & Z). unfold e_sin. rewrite subst_mk1, agg_mk1, E by reflexivity. cbn [bind eval_rule].
      unfold sin_eval_rule. cbn [pop_unwrap pop bind].
      assert (wf z) as Wz by exact (agg_wf m _ z (subst_wf x to u W Wt) E).
      destruct (zero_num z Wz Z) as (n & -> & T & _). cbn [root e_num od_is_zero]. cbn in Z. rewrite T. cbn [orb agrees qbind bind].
      exists Infinitesimal. split; [reflexivity|right; auto].
    + destruct (Safe (e_sin u) (wf_mk1 OSin u eq_refl W)) as [E|(z & E & Wz)]; rewrite E; cbn [bind qbind agrees]; [reflexivity|].
      destruct (is_zero z) eqn:Z.
      * exists Infinitesimal. split; [reflexivity|right; auto].
      * rewrite (F z E). exists (Normal z). split; [reflexivity|left; reflexivity].
Qed.

(** ** C89 *)
Theorem c89_limit_is_substitution m x to e ord fuel : m = Debug \/ m = Release ->
  pluggable m x to e -> wf to -> ~ has_op OSub to -> num_aggregate m to = Ok to -> 0 <= ord -> (depth e <= fuel)%nat ->
  (forall z, num_aggregate m (subst x to e) = Ok z -> exists l, limit fuel m e (e_var x) to ord = Ok (ROk l) /\ answers l z) /\
  (num_aggregate m (subst x to e) = Panic -> limit fuel m e (e_var x) to ord = Panic).
Proof.
  intros Hm P Wt Nt Ft Ho L. change (limit fuel m e (e_var x) to ord) with (limit_var fuel m x to ord e).
  pose proof (limit_agrees m x to ord e Hm Wt Nt Ft Ho P fuel L) as A.
  split; [intros z E|intros E]; rewrite E in A; exact A.
Qed.
Print Assumptions c89_limit_is_substitution.

(** the hypotheses are met: (x + cos(x)) / (2 + sin(x*y)) at 0 is answered 1/2, x*sin(y+x)/x at y is
    answered y*sin(y+y)/y *)
Definition ex_pl : expr := e_div (e_add (e_var "x") (e_cos (e_var "x"))) (e_add (e_of_i64 2) (e_sin (e_mul (e_var "x") (e_var "y")))).
Definition ex_pl2 : expr := e_div (e_mul (e_var "x") (e_sin (e_add (e_var "y") (e_var "x")))) (e_var "x").
Lemma no_sub_leaf o : ~ has_op OSub (Expr (Operand o) []).
Proof. intros (op & c & D & S). inversion S as [|? ? ? c' I' S']; subst. destruct I'. Qed.
Lemma no_sub_mk2 t a b : t <> OSub -> ~ has_op OSub a -> ~ has_op OSub b -> ~ has_op OSub (mk2 t a b).
Proof.
  intros T A B (op & c & D & S). unfold mk2 in S. inversion S as [|? ? ? c' I' S']; subst; [apply T; destruct t; cbn in D; congruence|].
  destruct I' as [<-|[<-|[]]]; [apply A|apply B]; exists op, c; auto.
Qed.
Example c89_witness m : m = Debug \/ m = Release ->
  pluggable m "x" (e_of_i64 0) ex_pl /\ pluggable m "x" (e_var "y") ex_pl2 /\
  (exists n, num_aggregate m (subst "x" (e_of_i64 0) ex_pl) = Ok (e_num n) /\ nval n = Rational (mkRat 1 1 2)) /\
  num_aggregate m (subst "x" (e_var "y") ex_pl2) = Ok (e_div (e_mul (e_var "y") (e_sin (e_add (e_var "y") (e_var "y")))) (e_var "y")).
Proof.
  intros Hm. split; [|split; [|split]].
  - apply pl_div; [apply pl_add; [apply pl_var|apply pl_cos; [apply wf_var|apply no_sub_leaf]]| |].
    + apply pl_add; [apply pl_num, sn_of_i64_ok; reflexivity|]. apply pl_sin.
      * apply wf_mk2; [reflexivity|apply wf_var|apply wf_var].
      * apply no_sub_mk2; [discriminate|apply no_sub_leaf|apply no_sub_leaf].
      * intros _. destruct Hm as [-> | ->]; eexists; (split; [vm_compute; reflexivity|reflexivity]).
    + intros z E. destruct Hm as [-> | ->]; vm_compute in E; injection E as <-; reflexivity.
  - apply pl_div; [apply pl_mul; [apply pl_var|]|apply pl_var|].
    + apply pl_sin; [apply wf_mk2; [reflexivity|apply wf_var|apply wf_var]| |discriminate].
      apply no_sub_mk2; [discriminate|apply no_sub_leaf|apply no_sub_leaf].
    + intros z E. destruct Hm as [-> | ->]; vm_compute in E; injection E as <-; reflexivity.
  - destruct Hm as [-> | ->]; eexists; (split; [vm_compute; reflexivity|reflexivity]).
  - destruct Hm as [-> | ->]; vm_compute; reflexivity.
Qed.

(** the condition on sines is needed: sin(x + 1) at 0 is answered Infinitesimal (C40), and so is the one on
    subtractions: cos(0 - (-y)) is simplified twice *)
Theorem c89_conditions_refuted m : m = Debug \/ m = Release ->
  limit 3 m (e_sin (e_add (e_var "x") e_one)) (e_var "x") e_zero 0 = Ok (ROk Infinitesimal) /\
  num_aggregate m (subst "x" e_zero (e_sin (e_add (e_var "x") e_one))) = Ok (e_sin e_one) /\
  limit 3 m (e_cos (e_sub e_zero (e_neg (e_var "y")))) (e_var "x") e_zero 0 = Ok (ROk (Normal (e_cos (e_var "y")))) /\
  num_aggregate m (subst "x" e_zero (e_cos (e_sub e_zero (e_neg (e_var "y"))))) = Ok (e_cos (e_neg (e_neg (e_var "y")))).
Proof. intros [-> | ->]; vm_compute; auto. Qed.
Print Assumptions c89_conditions_refuted.
