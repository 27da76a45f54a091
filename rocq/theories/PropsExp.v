(** * PropsExp: Taylor expansions of integer expressions with exponentials (C91) *)
From Coq Require Import ZArith List String Bool Lia.
From Coq Require Import Reals Lra QArith Qreals.
From Coquelicot Require Import Coquelicot.
From Verif Require Import Base Float Rational SmartNum Ast Compute Spec SpecTree SpecR SpecInt SpecQuot SpecExp.
From Verif Require Import BaseProofs RationalProofs NumProofs NumProofs2 TreeProofs TreeProofs2 TreeProofs3 TreeProofs4
  RealProofs RealDeriv RealDeriv2 RealTaylor IntProofs.
From Verif Require ConstProofs.
From Verif Require Import PropsTree PropsReal PropsInt PropsQuot.
Import ListNotations.
Open Scope string_scope.
Open Scope Z_scope.

(** ** the class with the condition on exponents at the valuation [s] *)
Inductive xp (s : string -> R) : expr -> Prop :=
| p_num z : in_i64 z = true -> xp s (e_of_i64 z)
| p_var x : xp s (e_var x)
| p_neg a : xp s a -> xp s (e_neg a)
| p_sin a : xp s a -> xp s (e_sin a)
| p_cos a : xp s a -> xp s (e_cos a)
| p_exp a : xp s a -> eval s a <> Some 1%R -> xp s (e_exp a)
| p_add a b : xp s a -> xp s b -> xp s (e_add a b)
| p_sub a b : xp s a -> xp s b -> xp s (e_sub a b)
| p_mul a b : xp s a -> xp s b -> xp s (e_mul a b).

Lemma noe_sub s e a : no_exponent_one s e -> subterm a e -> no_exponent_one s a.
Proof. intros N S u Su. apply N. exact (subterm_trans _ _ _ Su S). Qed.
Lemma xp_of s e : exp_poly e -> no_exponent_one s e -> xp s e.
Proof.
  induction 1; intros N; constructor; try assumption;
    try (match goal with IH : _ -> xp s ?a |- xp s ?a => apply IH end;
         apply (noe_sub s _ _ N); unfold e_neg, e_sin, e_cos, e_exp, e_add, e_sub, e_mul; first [apply sub_mk1|apply sub_mk2_l|apply sub_mk2_r]).
  apply N. apply sub_refl.
Qed.
Lemma xp_poly s e : xp s e -> exp_poly e.
Proof. induction 1; constructor; assumption. Qed.
Lemma xp_wf e : exp_poly e -> wf e.
Proof.
  induction 1; try (apply wf_mk2; [reflexivity|assumption..]); try (apply wf_mk1; [reflexivity|assumption]).
  - apply wf_num', sn_of_i64_ok. assumption.
  - apply wf_var.
Qed.
Lemma xp_defined rho e : exp_poly e -> defined rho e.
Proof.
  unfold defined. induction 1; unfold e_neg, e_sin, e_cos, e_exp, e_add, e_sub, e_mul;
    try (destruct IHexp_poly as [u Hu]; rewrite eval_mk1, Hu; cbn; eauto; fail);
    try (destruct IHexp_poly1 as [u Hu], IHexp_poly2 as [w Hw]; rewrite eval_mk2, Hu, Hw; cbn; eauto; fail).
  - unfold e_of_i64, e_num. rewrite eval_num, num_R_int. eauto.
  - unfold e_var. rewrite eval_var. eauto.
Qed.
Lemma xp_num_int n c : exp_poly (Expr (Operand (Num n)) c) -> intnum n /\ c = [].
Proof. intros H. inversion H; subst. split; [eexists; split; [eassumption|reflexivity]|reflexivity]. Qed.
Lemma xp_no_pi e : exp_poly e -> ~ has_pi e.
Proof.
  induction 1; unfold e_neg, e_sin, e_cos, e_exp, e_ln, e_add, e_sub, e_mul, e_div, e_pow;
    rewrite ?has_pi_mk1, ?has_pi_mk2; try tauto.
  - intros Hp. apply has_pi_num in Hp. destruct (intnum_not_pi (sn_of_i64 z)) as [Q _]; [exists z; auto|congruence].
  - apply npi_var.
Qed.
Lemma xp_subterm e : exp_poly e -> forall s, subterm s e -> exp_poly s.
Proof.
  induction 1; intros s Hs; inversion Hs; subst; try (constructor; assumption); cbn in *;
    repeat match goal with
      | H : False |- _ => destruct H
      | H : _ \/ _ |- _ => destruct H; subst
      end; auto.
Qed.
Lemma xp_root op c : exp_poly (Expr (Operator op) c) -> In (descriptor op) [ONeg; OSin; OCos; OExp; OAdd; OSub; OMul].
Proof. intros H. inversion H; subst; cbn; tauto. Qed.
Lemma xp_ops e t : exp_poly e -> In t [ODiv; OLn; OPow] -> ~ has_op t e.
Proof.
  intros H Ht (op & c & D & S). apply (xp_subterm e H) in S. apply xp_root in S. rewrite D in S.
  clear D. destruct Ht as [<-|[<-|[<-|[]]]]; cbn in S; intuition discriminate.
Qed.
Lemma xp_avoids e : exp_poly e -> avoids_bad_rules e.
Proof.
  intros H. split.
  - intros a b a' S. elim (xp_ops e OPow H); [cbn; auto|]. exists (gen_op OPow), [a; b]. split; [reflexivity|exact S].
  - intros a a' S E. pose proof (xp_subterm e H a (subterm_trans _ _ _ (sub_mk1 _ _) S)) as Xa.
    destruct (is_pi a') eqn:P; [exfalso|reflexivity].
    apply (xp_no_pi a Xa), (agg_pi Strict a (xp_wf a Xa) a' E). destruct a' as [[op|[n|y]] k]; try discriminate P.
    exists n, k. split; [exact P|apply sub_refl].
Qed.

(** ** simplification *)
Lemma xp_one rho s e : xp s e -> is_one e = true -> eval rho e = Some 1%R.
Proof.
  intros X O. destruct X; try discriminate O.
  assert (z = 1) as ->; [|unfold e_of_i64, e_num; rewrite eval_num, num_R_int; reflexivity].
  unfold is_one, lift_od, od_is_one, e_of_i64, e_num, sn_is_one, sn_of_i64, sn_of_val, val_of_i64 in O. cbn [root ntag] in O.
  cbn [val_is_one val_is_zero] in O. destruct (Z.eqb_spec z 1); [assumption|]. destruct (z =? 0); discriminate O.
Qed.
Lemma xp_of_intnum s n : intnum n -> xp s (e_num n).
Proof. intros (z & Hz & ->). exact (p_num s z Hz). Qed.
Lemma xp_inv1 s op r c t : xp s (Expr (Operator op) (r ++ [c])) -> descriptor op = t -> t = ONeg \/ t = OExp -> xp s c.
Proof.
  intros H D Ht. inversion H; subst; cbn in Ht; try (destruct Ht as [Ht|Ht]; discriminate Ht);
    match goal with E : [_] = (_ ++ [_])%list |- _ => symmetry in E; apply app1_inv in E as [_ ->] end; assumption.
Qed.

Lemma xp_rule1 s t a z : xp s a -> In t [ONeg; OSin; OCos; OExp] -> (t = OExp -> eval s a <> Some 1%R) ->
  eval_rule Debug t [Ok a] = Ok z -> eval_rule Strict t [Ok a] = Ok z /\ xp s z.
Proof.
  intros X Ht He H. split.
  - cbn in Ht. destruct Ht as [<-|[<-|[<-|[<-|[]]]]]; try exact H.
    cbn [eval_rule] in *. unfold neg_eval_rule in *. cbn -[sn_neg e_neg e_num is_num] in *.
    destruct (is_num a) eqn:N; [|exact H]. apply is_num_inv in N as (n & k & ->). apply xp_poly, xp_num_int in X as [I _].
    cbn -[sn_neg] in *. inv_bind H. destruct (sn_neg_DS _ _ I Hb) as [E _]. rewrite E. exact H.
  - apply rule1_ar in H; [|cbn in Ht; intuition (subst; reflexivity)].
    destruct H; try (cbn in Ht; intuition discriminate).
    + apply xp_poly, xp_num_int in X as [I _]. apply xp_of_intnum. exact (proj2 (sn_neg_DS _ _ I H)).
    + exact (xp_inv1 s _ _ _ _ X H (or_introl eq_refl)).
    + apply p_neg. exact X.
    + apply (p_num s 0). reflexivity.
    + apply p_sin. exact X.
    + apply (p_num s 1). reflexivity.
    + apply p_cos. exact X.
    + apply (p_num s 1). reflexivity.
    + elim (He eq_refl). exact (xp_one s s a X H0).
    + exfalso. apply xp_poly, xp_root in X. rewrite H in X. cbn in X. intuition discriminate.
    + apply p_exp; [exact X|exact (He eq_refl)].
Qed.
Lemma xp_rule2 s t l r z : xp s l -> xp s r -> In t [OAdd; OSub; OMul] ->
  eval_rule Debug t [Ok l; Ok r] = Ok z -> eval_rule Strict t [Ok l; Ok r] = Ok z /\ xp s z.
Proof.
  intros Xl Xr Ht H. split.
  - cbn in Ht. destruct Ht as [<-|[<-|[<-|[]]]]; cbn [eval_rule] in *;
    unfold add_eval_rule, sub_eval_rule, mul_eval_rule in *;
    cbn -[sn_add sn_sub sn_mul e_add e_sub e_mul e_num is_num is_zero is_one to_smart_num_unwrap e_of_i64] in *;
    (destruct (is_num l && is_num r) eqn:N; [|exact H]);
    apply andb_true_iff in N as [N1 N2]; apply is_num_inv in N1 as (n & k & ->); apply is_num_inv in N2 as (n' & k' & ->);
    apply xp_poly, xp_num_int in Xl as [I _]; apply xp_poly, xp_num_int in Xr as [I' _];
    cbn -[sn_add sn_sub sn_mul] in *; inv_bind H.
    + destruct (sn_op_DS OAdd _ _ _ I I' ltac:(discriminate) ltac:(auto) Hb) as [E _]. cbn [sn_op] in E. rewrite E. exact H.
    + destruct (sn_op_DS OSub _ _ _ I I' ltac:(discriminate) ltac:(auto) Hb) as [E _]. cbn [sn_op] in E. rewrite E. exact H.
    + destruct (sn_op_DS OMul _ _ _ I I' ltac:(discriminate) ltac:(auto) Hb) as [E _]. cbn [sn_op] in E. rewrite E. exact H.
  - apply rule2_ar in H; [|cbn in Ht; intuition (subst; reflexivity)].
    destruct H; try (cbn in Ht; intuition discriminate); try assumption; try (apply (p_num s 0); reflexivity); try (constructor; assumption).
    apply xp_poly, xp_num_int in Xl as [I _]. apply xp_poly, xp_num_int in Xr as [I' _]. apply xp_of_intnum.
    refine (proj2 (sn_op_DS t _ _ _ I I' _ H H0)). intros ->. cbn in Ht. intuition discriminate.
Qed.

Lemma xp_agg s e : xp s e -> forall z, num_aggregate Debug e = Ok z -> num_aggregate Strict e = Ok z /\ xp s z.
Proof.
  induction 1; intros z' E;
    try (unfold e_neg, e_sin, e_cos, e_exp in *; rewrite agg_mk1 in * by reflexivity; inv_bind E;
         match goal with H : num_aggregate Debug ?a = Ok ?b, IH : forall z, num_aggregate Debug ?a = Ok z -> _ |- _ =>
           destruct (IH _ H) as [S Xa]; rewrite S; cbn [bind] end;
         refine (xp_rule1 s _ _ _ Xa _ _ E); [cbn; tauto|]; intros Q; try discriminate Q);
    try (unfold e_add, e_sub, e_mul in *; rewrite agg_mk2 in * by reflexivity; do 2 inv_bind E;
         destruct (IHxp2 _ Hb) as [S2 X2]; destruct (IHxp1 _ Hb0) as [S1 X1]; rewrite S2; cbn [bind]; rewrite S1; cbn [bind];
         refine (xp_rule2 s _ _ _ _ X1 X2 _ E); cbn; tauto).
  - injection E as <-. split; [reflexivity|apply p_num; assumption].
  - injection E as <-. split; [reflexivity|apply p_var].
  - match goal with H : num_aggregate Debug a = Ok _ |- _ => clear H end.
    pose proof (xp_poly s a H) as P. destruct (xp_defined s a P) as [v V]. rewrite (agg_sound s a (xp_wf a P) (xp_avoids a P) _ v S V).
    rewrite <- V. assumption.
Qed.

(** ** derivatives, substitution *)
Lemma xp_deriv s x e : xp s e -> forall d, deriv Debug x e = Ok d -> deriv Strict x e = Ok d /\ xp s d.
Proof.
  induction 1; intros d E;
    try (unfold e_neg, e_sin, e_cos, e_exp in *; rewrite deriv_mk1 in * by reflexivity; inv_bind E; destruct (IHxp _ Hb) as [S Xd];
         rewrite S; cbn [bind]; refine (xp_agg s _ _ _ E); cbn [raw1]);
    try (unfold e_add, e_sub, e_mul in *; rewrite deriv_mk2 in * by reflexivity; do 2 inv_bind E; destruct (IHxp2 _ Hb) as [S2 X2];
         destruct (IHxp1 _ Hb0) as [S1 X1]; rewrite S2; cbn [bind]; rewrite S1; cbn [bind]; refine (xp_agg s _ _ _ E); cbn [raw2]).
  - injection E as <-. split; [reflexivity|apply (p_num s 0); reflexivity].
  - unfold e_var in *. rewrite deriv_var in *. injection E as <-. split; [reflexivity|].
    destruct (String.eqb x x0); [exact (p_num s 1 eq_refl)|exact (p_num s 0 eq_refl)].
  - apply p_neg; assumption.
  - apply p_mul; [apply p_cos|]; assumption.
  - apply p_mul; [apply p_neg, p_sin|]; assumption.
  - apply p_mul; [|apply p_exp]; assumption.
  - apply p_add; assumption.
  - apply p_sub; assumption.
  - apply p_add; apply p_mul; assumption.
Qed.
Lemma xp_subst s x v a e : eval s v = Some a -> xp s v -> xp (upd s x a) e -> xp s (subst x v e).
Proof.
  intros V Xv. induction 1; try (constructor; assumption).
  - cbn. destruct (String.eqb x0 x); [assumption|apply p_var].
  - unfold e_exp. rewrite subst_mk1. apply p_exp; [assumption|]. rewrite (eval_subst s x v a); assumption.
Qed.

(** ** quotients and logarithms *)
Inductive xr (s : string -> R) : expr -> Prop :=
| xr_poly p : xp s p -> xr s p
| xr_div p q : xp s p -> xp s q -> xr s (e_div p q)
| xr_ln p : xp s p -> xr s (e_ln p)
| xr_num n : frac n -> xr s (e_num n).

Lemma xr_num_frac s n c : xr s (Expr (Operand (Num n)) c) -> frac n /\ c = [].
Proof.
  intros H. inversion H as [p T E|p q T T' E|p T E|k F E]; subst.
  - destruct (xp_num_int _ _ (xp_poly _ _ T)) as [I ->]. split; [apply int_frac; exact I|reflexivity].
  - auto.
Qed.
Lemma xdiv_rule s l r z : xr s l -> xr s r -> eval_rule Debug ODiv [Ok l; Ok r] = Ok z ->
  eval_rule Strict ODiv [Ok l; Ok r] = Ok z /\ ((exists n, frac n /\ z = e_num n) \/ z = e_zero \/ z = e_div l r).
Proof.
  intros Rl Rr. cbn [eval_rule]. unfold div_eval_rule, eval2. cbn [pop_unwrap pop bind]. intros H.
  destruct (is_num l && is_num r) eqn:N.
  - apply andb_prop in N as [Nl Nr]. destruct l as [[op|[n|y]] c]; try discriminate Nl. destruct r as [[op|[k|y]] d]; try discriminate Nr.
    apply xr_num_frac in Rl as [Fn _]. apply xr_num_frac in Rr as [Fk _].
    cbn [to_smart_num_unwrap to_smart_num root bind] in *. inv_bind H. injection H as <-.
    destruct (frac_div _ _ _ Fn Fk Hb) as [E F]. rewrite E. split; [reflexivity|left; eauto].
  - destruct (is_zero l); injection H as <-; (split; [reflexivity|auto]).
Qed.

Lemma xr_agg s e : xr s e -> forall z, num_aggregate Debug e = Ok z -> num_aggregate Strict e = Ok z /\ xr s z.
Proof.
  intros X z E. destruct X as [p T|p q T T'|p T|n F].
  - destruct (xp_agg s _ T _ E) as [S Xz]. split; [exact S|apply xr_poly; exact Xz].
  - unfold e_div in *. rewrite agg_mk2 in * by reflexivity. do 2 inv_bind E.
    destruct (xp_agg s _ T' _ Hb) as [S1 Tr], (xp_agg s _ T _ Hb0) as [S2 Tl]. rewrite S1. cbn [bind]. rewrite S2. cbn [bind].
    destruct (xdiv_rule s _ _ _ (xr_poly s _ Tl) (xr_poly s _ Tr) E) as [S C]. split; [exact S|].
    destruct C as [(n & F & ->)|[-> | ->]]; [apply xr_num; exact F|apply xr_poly, (p_num s 0); reflexivity|apply xr_div; assumption].
  - unfold e_ln in *. rewrite agg_mk1 in * by reflexivity. inv_bind E.
    destruct (xp_agg s _ T _ Hb) as [S Ta]. rewrite S. cbn [bind]. split; [exact E|].
    apply rule1_ar in E; [|reflexivity]. inversion E; subst.
    + apply xr_poly, (p_num s 1). reflexivity.
    + apply xr_poly, (p_num s 0). reflexivity.
    + apply xr_poly. refine (xp_inv1 s _ _ _ _ Ta _ (or_intror eq_refl)). assumption.
    + apply xr_ln. exact Ta.
  - injection E as <-. split; [reflexivity|apply xr_num; exact F].
Qed.
Lemma xr_deriv s x e : xr s e -> forall d, deriv Debug x e = Ok d -> deriv Strict x e = Ok d /\ xr s d.
Proof.
  intros X d E. destruct X as [p T|p q T T'|p T|n F].
  - destruct (xp_deriv s x _ T _ E) as [S Xz]. split; [exact S|apply xr_poly; exact Xz].
  - unfold e_div in *. rewrite deriv_mk2 in * by reflexivity. do 2 inv_bind E.
    match goal with H : deriv Debug x q = Ok ?a |- _ => rename H into Hq; rename a into dq end.
    match goal with H : deriv Debug x p = Ok ?a |- _ => rename H into Hp; rename a into dp end.
    destruct (xp_deriv s x _ T _ Hp) as [S1 Tp], (xp_deriv s x _ T' _ Hq) as [S2 Tq]. rewrite S1, S2. cbn [bind].
    apply xr_agg; [|exact E]. cbn [raw2]. apply xr_div; [apply p_sub; apply p_mul; assumption|apply p_mul; assumption].
  - unfold e_ln in *. rewrite deriv_mk1 in * by reflexivity. inv_bind E.
    destruct (xp_deriv s x _ T _ Hb) as [S1 Tp]. rewrite S1. cbn [bind].
    apply xr_agg; [|exact E]. cbn [raw1]. apply xr_div; assumption.
  - injection E as <-. split; [reflexivity|apply xr_poly, (p_num s 0); reflexivity].
Qed.
Lemma xr_subst s x v a e : eval s v = Some a -> xp s v -> xr (upd s x a) e -> xr s (subst x v e).
Proof.
  intros V Xv X. destruct X as [p Tp|p q Tp Tq|p Tp|n F].
  - apply xr_poly, (xp_subst s x v a); assumption.
  - unfold e_div. rewrite subst_mk2. apply xr_div; apply (xp_subst s x v a); assumption.
  - unfold e_ln. rewrite subst_mk1. apply xr_ln, (xp_subst s x v a); assumption.
  - apply xr_num. exact F.
Qed.

Lemma exp_loop_DS s x at_ a : eval s at_ = Some a -> xp s at_ -> forall n k f r c p,
  0 <= k -> k + Z.of_nat n <= 1000 -> intnum f -> xr (upd s x a) r ->
  taylor_loop Debug x at_ n k f r c = Ok p -> taylor_loop Strict x at_ n k f r c = Ok p.
Proof.
  intros V Ta. induction n; intros k f r c p K0 K If Tr H; cbn [taylor_loop] in *; [exact H|].
  do 5 inv_bind H.
  assert (in_i64 (Z.max k 1) = true) as I. { apply in_i64_iff. unfold two63. lia. }
  unfold sn_of_u64, val_of_u64, cast_i64 in *. rewrite I in *. cbn [bind] in *. injection Hb as <-.
  assert (intnum (sn_of_val (Integer (Z.max k 1)))) as Ik. { exists (Z.max k 1). auto. }
  destruct (sn_op_DS OMul _ _ _ If Ik ltac:(discriminate) ltac:(auto) Hb0) as [E0 I0]. cbn [sn_op] in E0. rewrite E0. cbn [bind].
  destruct (xr_agg s _ (xr_subst s x at_ a r V Ta Tr) _ Hb1) as [E1 W1]. rewrite E1. cbn [bind].
  match goal with H : num_aggregate Debug (e_div ?u (e_num ?w)) = Ok ?z |- _ =>
    assert (num_aggregate Strict (e_div u (e_num w)) = Ok z) as E2 end.
  { unfold e_div in *. rewrite agg_mk2 in * by reflexivity. cbn [num_aggregate e_num bind] in *.
    inv_bind Hb2. destruct (xr_agg s _ W1 _ Hb) as [S2 W2]. rewrite S2. cbn [bind].
    exact (proj1 (xdiv_rule s _ _ _ W2 (xr_num s _ (int_frac _ I0)) Hb2)). }
  rewrite E2. cbn [bind]. destruct (xr_deriv _ x r Tr _ Hb3) as [E3 R3]. rewrite E3. cbn [bind].
  apply IHn; [lia|lia|exact I0|exact R3|exact H].
Qed.

Lemma xq_xr s e : exp_quotient e -> no_exponent_one s e -> xr s e.
Proof.
  destruct 1; intros N; constructor; apply xp_of; try assumption; apply (noe_sub s _ _ N); unfold e_div, e_ln;
    first [apply sub_mk1|apply sub_mk2_l|apply sub_mk2_r].
Qed.

Lemma exp_taylor_strict s e x at_ a n t : exp_quotient e -> exp_poly at_ -> eval s at_ = Some a ->
  no_exponent_one (upd s x a) e -> no_exponent_one s at_ ->
  taylor_expansion Debug e (e_var x) at_ (Z.of_nat n) = Ok (ROk t) ->
  taylor_expansion Strict e (e_var x) at_ (Z.of_nat n) = Ok (ROk t).
Proof.
  intros T Ta V N Na H. assert (n <= 20)%nat as Hn.
  { destruct (Nat.le_gt_cases n 20) as [L|L]; [exact L|]. exfalso.
    exact (proj1 (c34_debug_never_returns e (e_var x) at_ (Z.of_nat n) t ltac:(lia)) H). }
  unfold taylor_expansion in *. cbn [to_variable root e_var] in *. inv_bind H. unfold taylor_var in *. inv_bind Hb.
  rewrite (exp_loop_DS s x at_ a V (xp_of s at_ Ta Na) (Z.to_nat (Z.of_nat n + 1)) 0 (sn_of_i64 1) e [] a1); [|lia|lia| |exact (xq_xr _ e T N)|exact Hb0].
  - cbn [bind] in *. rewrite Hb. exact H.
  - exists 1%Z. auto.
Qed.

(** ** regularity *)
Lemma xq_wf e : exp_quotient e -> wf e.
Proof.
  destruct 1; try (apply wf_mk2; [reflexivity| |]); try (apply wf_mk1; [reflexivity|]); apply xp_wf; assumption.
Qed.
Lemma xq_sub e u : exp_quotient e -> subterm u e -> u = e \/ exp_poly u.
Proof.
  intros Q S. destruct Q as [p T|p q T T'|p T].
  - right. exact (xp_subterm p T u S).
  - inversion S as [|? ? ? c I' S']; subst; [left; reflexivity|right]. destruct I' as [<-|[<-|[]]]; [exact (xp_subterm p T u S')|exact (xp_subterm q T' u S')].
  - inversion S as [|? ? ? c I' S']; subst; [left; reflexivity|right]. destruct I' as [<-|[]]. exact (xp_subterm p T u S').
Qed.
Lemma xq_no_pow e u b : exp_quotient e -> ~ subterm (e_pow u b) e.
Proof.
  intros Q S. destruct (xq_sub e _ Q S) as [<-|X].
  - inversion Q as [p T E|p q T T' E|p T E]; subst. apply xp_root in T. cbn in T. intuition discriminate.
  - apply xp_root in X. cbn in X. intuition discriminate.
Qed.
Lemma xq_no_pi e u : exp_quotient e -> subterm (e_sin u) e \/ subterm (e_cos u) e -> ~ has_pi u.
Proof.
  intros Q S.
  assert (exp_poly u) as X; [|exact (xp_no_pi u X)].
  destruct S as [S|S]; (destruct (xq_sub e _ Q S) as [<-|X]; [inversion Q as [p T E|p q T T' E|p T E]; subst|]);
    try (exact (xp_subterm _ T u (sub_mk1 _ u))); exact (xp_subterm _ X u (sub_mk1 _ u)).
Qed.
Lemma xq_regular rho x e : exp_quotient e -> regular rho x e.
Proof. intros Q. split; [intros u b S; elim (xq_no_pow e u b Q S)|exact (fun u => xq_no_pi e u Q)]. Qed.
Lemma xq_taylor_regular rho x at_ a e : exp_quotient e -> exp_poly at_ -> taylor_regular rho x at_ a e.
Proof.
  intros Q Ta. refine (conj _ (conj _ (conj _ (conj _ _)))).
  - intros u b S. elim (xq_no_pow e u b Q S).
  - exact (fun u => xq_no_pi e u Q).
  - apply xp_ops; [exact Ta|cbn; auto].
  - apply xp_no_pi. exact Ta.
  - apply xq_regular, xq_poly, Ta.
Qed.

(** ** C91 *)
(** [s] is any one valuation at which no exponent is 1; the conclusion holds at every valuation. *)
Theorem c91_taylor rho s x at_ a b e n t : exp_quotient e -> exp_poly at_ ->
  eval s at_ = Some b -> no_exponent_one (upd s x b) e -> no_exponent_one s at_ ->
  eval rho at_ = Some a -> defined (upd rho x a) e ->
  taylor_expansion Debug e (e_var x) at_ (Z.of_nat n) = Ok (ROk t) ->
  forall k, (k <= n)%nat -> exists ck, nth_error (ex_coef t) k = Some ck /\
     eval rho ck = Some (Derive_n (evalx rho x e) k a / INR (fact k))%R /\ ex_derive_n (evalx rho x e) k a.
Proof.
  intros Q Ta V N Na Ha D H. apply (exp_taylor_strict s e x at_ b n t Q Ta V N Na) in H.
  exact (c32_coefficients rho x at_ a e n t (xq_wf e Q) (xp_wf at_ Ta) Ha (xq_taylor_regular rho x at_ a e Q Ta) D H).
Qed.
Print Assumptions c91_taylor.

Theorem c91_remainder rho s x at_ a b e n t y : exp_quotient e -> exp_poly at_ ->
  eval s at_ = Some b -> no_exponent_one (upd s x b) e -> no_exponent_one s at_ -> eval rho at_ = Some a ->
  (forall u, (Rmin a y <= u <= Rmax a y)%R -> defined (upd rho x u) e) ->
  taylor_expansion Debug e (e_var x) at_ (Z.of_nat n) = Ok (ROk t) -> y <> a ->
  exists z, (Rmin a y < z < Rmax a y)%R /\ defined (upd rho x z) (ex_residual t) /\
    eval (upd rho x y) e = Some (
      sum_f_R0 (fun k => value rho (nth k (ex_coef t) e_zero) * (y - a) ^ k) n
      + value (upd rho x z) (ex_residual t) * (y - a) ^ (S n) / INR (fact (S n)))%R.
Proof.
  intros Q Ta V N Na Ha D H Ny. apply (exp_taylor_strict s e x at_ b n t Q Ta V N Na) in H.
  refine (c33_lagrange rho x at_ a e n t y (xq_wf e Q) (xp_wf at_ Ta) Ha (xq_taylor_regular rho x at_ a e Q Ta) _ H Ny).
  intros u Hu. split; [apply xq_regular; exact Q|exact (D u Hu)].
Qed.
Print Assumptions c91_remainder.

(** derivatives themselves: whatever a debug build returns *)
Theorem c91_derivative rho s x t0 e d v : exp_quotient e -> no_exponent_one s e ->
  derivative Debug e (e_var x) = Ok (ROk d) -> eval (upd rho x t0) e = Some v ->
  exists v', eval (upd rho x t0) d = Some v' /\
    (exists eps, (0 < eps)%R /\ forall t, (Rabs (t - t0) < eps)%R -> defined (upd rho x t) e) /\
    derivable_pt_lim (evalx rho x e) t0 v'.
Proof.
  intros Q N H V. refine (c29_derivative_correct rho x t0 e d v (xq_wf e Q) (xq_regular _ x e Q) V _).
  unfold derivative in *. cbn [to_variable root e_var] in *. inv_bind H.
  rewrite (proj1 (xr_deriv s x e (xq_xr s e Q N) _ Hb)). exact H.
Qed.
Print Assumptions c91_derivative.

(** simplification keeps the value *)
Theorem c91_simplify rho s e z v : exp_poly e -> no_exponent_one s e ->
  num_aggregate Debug e = Ok z -> eval rho e = Some v -> eval rho z = Some v.
Proof.
  intros X N H V. exact (agg_sound rho e (xp_wf e X) (xp_avoids e X) z v (proj1 (xp_agg s e (xp_of s e X N) z H)) V).
Qed.
Print Assumptions c91_simplify.

(** the condition is needed: the coefficients of exp(x) at 1 are rounded *)
Theorem c91_exponent_one_refuted : exists e t c v, exp_quotient e /\
  taylor_expansion Debug e (e_var "x") (e_of_i64 1) 0 = Ok (ROk t) /\
  nth_error (ex_coef t) 0 = Some c /\ eval (fun _ => 0%R) c = Some v /\
  v <> evalx (fun _ => 0%R) "x" e 1.
Proof.
  exists (e_exp (e_var "x")). do 3 eexists. split; [apply xq_poly, xp_exp, xp_var|].
  split; [vm_compute; reflexivity|]. split; [reflexivity|]. split; [reflexivity|].
  unfold evalx, e_exp, e_var. rewrite eval_mk1, eval_var. unfold upd. rewrite String.eqb_refl. cbn [obind ev1].
  pose proof ConstProofs.E_dec as [L U]. intros E.
  assert (Q2R (6121026514868073 # 2251799813685248) = exp 1) as E' by exact E.
  unfold Q2R in E'. cbn [Qnum Qden] in E'. lra.
Qed.
Print Assumptions c91_exponent_one_refuted.

(** ** the hypotheses are met, and a debug build does return *)
Lemma eval_at (s : string -> R) x t : eval (upd s x t) (e_var x) = Some t.
Proof. unfold e_var. rewrite eval_var. unfold upd. rewrite String.eqb_refl. reflexivity. Qed.
Example c91_witness : (forall s, exp_quotient (gauss "x") /\ no_exponent_one (upd s "x" 0%R) (gauss "x")) /\
  (forall s, exp_quotient (exp_geometric "x") /\ no_exponent_one (upd s "x" 0%R) (exp_geometric "x")) /\
  (exists t, taylor_expansion Debug (gauss "x") (e_var "x") (e_of_i64 0) 4 = Ok (ROk t)) /\
  (exists t, taylor_expansion Debug (exp_geometric "x") (e_var "x") (e_of_i64 0) 4 = Ok (ROk t)) /\
  (exists t, taylor_expansion Debug (gauss "x") (e_var "x") (e_exp (e_var "y")) 2 = Ok (ROk t)).
Proof.
  assert (forall a, exp_poly (e_exp (e_var a))) as X by (intros a; apply xp_exp, xp_var).
  refine (conj _ (conj _ (conj _ (conj _ _)))).
  - intros s. split; [apply xq_poly, xp_exp, xp_neg, xp_mul; apply xp_var|].
    intros u S. inversion S as [|? ? ? c I S']; subst.
    + unfold e_neg, e_mul. rewrite eval_mk1, eval_mk2, eval_at. cbn. intros [= E]. lra.
    + exfalso. destruct I as [<-|[]].
      apply (xp_subterm _ (xp_neg _ (xp_mul _ _ (xp_var "x") (xp_var "x")))) in S' as P.
      inversion S' as [|? ? ? c I S'']; subst. destruct I as [<-|[]]. inversion S'' as [|? ? ? c I S3]; subst.
      destruct I as [<-|[<-|[]]]; inversion S3 as [|? ? ? c I S4]; subst; destruct I.
  - intros s. split; [apply xq_div; [apply X|apply xp_sub; [apply xp_num; reflexivity|apply xp_var]]|].
    intros u S. inversion S as [|? ? ? c I S']; subst. destruct I as [<-|[<-|[]]].
    + inversion S' as [|? ? ? c I S'']; subst.
      * rewrite eval_at. intros [= E]. lra.
      * exfalso. destruct I as [<-|[]]. inversion S'' as [|? ? ? c I S3]; subst; destruct I.
    + exfalso. inversion S' as [|? ? ? c I S'']; subst.
      destruct I as [<-|[<-|[]]]; inversion S'' as [|? ? ? c I S3]; subst; destruct I.
  - eexists. vm_compute. reflexivity.
  - eexists. vm_compute. reflexivity.
  - eexists. vm_compute. reflexivity.
Qed.
