(** * PropsPow2: exactness of debug builds on expressions with integer powers (C100) *)
From Coq Require Import ZArith List String Bool Lia.
From Coq Require Import Reals Lra QArith Qreals.
From Coquelicot Require Import Coquelicot.
From Verif Require Import Base Float Rational SmartNum Ast Compute Spec SpecTree SpecR SpecInt SpecQuot SpecExp SpecPow2.
From Verif Require Import BaseProofs RationalProofs NumProofs NumProofs2 TreeProofs TreeProofs2 TreeProofs3 TreeProofs4
  RealProofs RealDeriv RealDeriv2 RealTaylor IntProofs.
From Verif Require LimTerm4.
From Verif Require Import PropsTree PropsReal PropsInt PropsQuot PropsExp.
Import ListNotations.
Open Scope string_scope.
Open Scope Z_scope.

(** ** the class that simplification and differentiation stay in
    [KA]: any number in it is an integer; [KH]: any number in it is 0; [KQ]: numbers are fractions *)
Inductive kind := KA | KH | KQ.
Inductive ok (s : string -> R) : kind -> expr -> Prop :=
| o_num z : in_i64 z = true -> ok s KA (e_of_i64 z)
| o_var x : ok s KA (e_var x)
| o_neg a : ok s KA a -> ok s KA (e_neg a)
| o_sin a : ok s KA a -> ok s KA (e_sin a)
| o_cos a : ok s KA a -> ok s KA (e_cos a)
| o_exp a : ok s KA a -> eval s a <> Some 1%R -> ok s KA (e_exp a)
| o_add a b : ok s KA a -> ok s KA b -> ok s KA (e_add a b)
| o_sub a b : ok s KA a -> ok s KA b -> ok s KA (e_sub a b)
| o_mul a b : ok s KA a -> ok s KA b -> ok s KA (e_mul a b)
| o_H a : ok s KH a -> ok s KA a
| h_zero : ok s KH e_zero
| h_pow a z : ok s KA a -> eval s a <> Some 0%R -> eval s a <> Some 1%R -> in_i64 z = true ->
    ok s KH (e_pow a (e_of_i64 z))
| h_neg a : ok s KH a -> ok s KH (e_neg a)
| h_add a b : ok s KH a -> ok s KH b -> ok s KH (e_add a b)
| h_sub a b : ok s KH a -> ok s KH b -> ok s KH (e_sub a b)
| h_mul a q : ok s KH a -> ok s KQ q -> ok s KH (e_mul a q)
| q_A a : ok s KA a -> ok s KQ a
| q_div a b : ok s KA a -> ok s KA b -> eval s b <> Some 0%R -> ok s KQ (e_div a b)
| q_num n : num_ok n -> frac n -> defined s (e_num n) -> ok s KQ (e_num n).

Definition zero_i : expr := e_of_i64 0.
Lemma zero_int : intnum (sn_of_i64 0). Proof. exists 0. auto. Qed.

Lemma ok_num s k e : ok s k e -> forall n c, e = Expr (Operand (Num n)) c ->
  c = [] /\ frac n /\ (k <> KQ -> intnum n) /\ (k = KH -> e = e_zero).
Proof.
  induction 1; intros m0 c0 E; try discriminate E.
  - injection E as <- <-. assert (intnum (sn_of_i64 z)) as I by (exists z; auto). repeat split; try discriminate; try (intros; exact I); apply int_frac; exact I.
  - destruct (IHok _ _ E) as (-> & F & I & _). repeat split; try discriminate; auto; try (apply F); intros; apply I; discriminate.
  - injection E as <- <-. assert (intnum (sn_of_i64 0)) as I by apply zero_int. repeat split; try discriminate; try (intros; exact I); try (apply int_frac; exact I).
  - destruct (IHok _ _ E) as (-> & F & I & _). repeat split; try discriminate; auto; try (apply F); intros []; congruence.
  - injection E as <- <-. split; [reflexivity|]. split; [assumption|]. split; congruence.
Qed.
Lemma ok_root s k e : ok s k e -> forall op c, e = Expr (Operator op) c ->
  In (descriptor op) [ONeg; OSin; OCos; OExp; OAdd; OSub; OMul; OPow] \/ (k = KQ /\ descriptor op = ODiv).
Proof.
  induction 1; intros op c E; try discriminate E; unfold e_neg, e_sin, e_cos, e_exp, e_add, e_sub, e_mul, e_div, e_pow, mk1, mk2 in E; try (injection E as <- <-; cbn; tauto).
  - destruct (IHok _ _ E) as [H'|[H' _]]; [auto|discriminate H'].
  - destruct (IHok _ _ E) as [H'|[H' _]]; [auto|discriminate H'].
Qed.
Lemma ok_neg_inv s k e : ok s k e -> forall op r c, e = Expr (Operator op) (r ++ [c]) -> descriptor op = ONeg -> ok s k c.
Proof.
  induction 1; intros op r c E D; try discriminate E;
    try (unfold e_neg, e_sin, e_cos, e_exp, e_add, e_sub, e_mul, e_div, e_pow, mk1, mk2 in E; injection E as <- E; try discriminate D; symmetry in E; apply app1_inv in E as [_ ->]; assumption);
    try (constructor; eapply IHok; eassumption).
Qed.
Lemma ok_exp_inv s k e : ok s k e -> forall op r c, e = Expr (Operator op) (r ++ [c]) -> descriptor op = OExp -> ok s KA c.
Proof.
  induction 1; intros op r c E D; try discriminate E;
    try (unfold e_neg, e_sin, e_cos, e_exp, e_add, e_sub, e_mul, e_div, e_pow, mk1, mk2 in E; injection E as <- E; try discriminate D; symmetry in E; apply app1_inv in E as [_ ->]; assumption);
    try (eapply IHok; eassumption).
Qed.
Lemma ok_wf s k e : ok s k e -> wf e.
Proof.
  induction 1; try assumption; try (apply wf_mk2; [reflexivity|assumption..]); try (apply wf_mk1; [reflexivity|assumption]).
  - apply wf_num', sn_of_i64_ok. assumption.
  - apply wf_var.
  - apply wf_num', sn_of_i64_ok. reflexivity.
  - apply wf_mk2; [reflexivity|assumption|]. apply wf_num', sn_of_i64_ok. assumption.
  - apply wf_num'. assumption.
Qed.
Lemma ok_subterm s k e : ok s k e -> forall u, subterm u e -> ok s KQ u.
Proof.
  induction 1; intros u Hs; try (apply IHok; exact Hs);
  inversion Hs as [|? ? ? ? Hi Hc]; subst;
    try (apply q_A; first [constructor; assumption|apply o_H; constructor; assumption]); try (constructor; assumption); cbn in *;
    repeat match goal with
      | H : False |- _ => destruct H
      | H : _ \/ _ |- _ => destruct H; subst
      end; auto.
  inversion Hc; subst; [apply q_A, o_num; assumption|match goal with H : In _ [] |- _ => destruct H end].
Qed.
Lemma ok_no_pi s k e : ok s k e -> ~ has_pi e.
Proof.
  intros X (n & c & P & S). apply (ok_subterm s k e X) in S. destruct (ok_num _ _ _ S n c eq_refl) as (_ & [_ A] & _).
  unfold approx in A. rewrite P in A. discriminate A.
Qed.
Lemma ok_defined s k e : ok s k e -> defined s e.
Proof.
  unfold defined. induction 1; unfold e_neg, e_sin, e_cos, e_exp, e_add, e_sub, e_mul, e_div, e_pow in *; try assumption;
    try (destruct IHok as [u Hu]; rewrite eval_mk1, Hu; cbn; eauto; fail);
    try (destruct IHok1 as [u Hu], IHok2 as [w Hw]; rewrite eval_mk2, Hu, Hw; cbn; eauto; fail).
  - unfold e_of_i64, e_num. rewrite eval_num, num_R_int. eauto.
  - unfold e_var. rewrite eval_var. eauto.
  - unfold e_zero, e_of_i64, e_num. rewrite eval_num, num_R_int. eauto.
  - destruct IHok as [u Hu]. rewrite eval_mk2, Hu. unfold e_of_i64, e_num. rewrite eval_num, num_R_int. cbn [obind ev2].
    rewrite Hu in *. unfold powR. destruct (Rlt_dec 0 u); [eauto|]. destruct (Req_EM_T u 0); [subst; congruence|].
    assert (Int_part (IZR z) = z) as ->; [|destruct (Req_EM_T (IZR z) (IZR z)); [eauto|congruence]].
    symmetry. unfold Int_part. rewrite <- (tech_up (IZR z) (z + 1)); [lia|..]; rewrite plus_IZR; lra.
  - destruct IHok1 as [u Hu], IHok2 as [w Hw]. rewrite eval_mk2, Hu, Hw. cbn [obind ev2]. rewrite Hw in *.
    destruct (Req_EM_T w 0); [subst; congruence|eauto].
Qed.
Lemma ok_noln s k e : ok s k e -> ~ has_op OLn e.
Proof.
  intros X (op & c & D & S). apply (ok_subterm s k e X) in S. apply ok_root with (op := op) (c := c) in S; [|reflexivity].
  rewrite D in S. cbn in S. intuition discriminate.
Qed.
Lemma ok_pow_inv s k e : ok s k e -> forall u b, e = e_pow u b ->
  ok s KA u /\ eval s u <> Some 0%R /\ eval s u <> Some 1%R.
Proof.
  induction 1; intros u r E; try discriminate E; try (apply (IHok u r E)).
  unfold e_pow, mk2 in E. injection E as -> _. auto.
Qed.
Lemma ok_avoids s : forall n k e, (size e <= n)%nat -> ok s k e -> avoids_bad_rules e.
Proof.
  induction n as [|n IH]; intros k e L X. { exfalso. destruct e; cbn in L; lia. }
  split.
  - intros u b u' S E. pose proof (ok_subterm s k e X _ S) as Y. destruct (ok_pow_inv s _ _ Y u b eq_refl) as (U & N0 & N1).
    assert (avoids_bad_rules u) as Au.
    { apply (IH KA); [|exact U]. apply (LimTerm4.sub_size e (ok_wf s k e X)) in S. unfold e_pow in S. rewrite size_mk2 in S. lia. }
    destruct (ok_defined s _ _ U) as [v V]. pose proof (agg_sound s u (ok_wf _ _ _ U) Au u' v E V) as V'.
    pose proof (agg_wf Strict u u' (ok_wf _ _ _ U) E) as W'.
    refine (conj _ (conj _ _)).
    + destruct (is_zero u') eqn:Z; [exfalso|reflexivity]. apply N0. rewrite V. f_equal. exact (eval_is_zero s u' v W' Z V').
    + destruct (is_one u') eqn:Z; [exfalso|reflexivity]. apply N1. rewrite V. f_equal. exact (eval_is_one s u' v W' Z V').
    + intros c ->. apply (agg_noln _ _ _ (ok_noln _ _ _ U) E). eexists _, _. split; [|apply sub_refl]. reflexivity.
  - intros u u' S E. pose proof (ok_subterm s k e X _ S) as Y.
    pose proof (ok_subterm s _ _ Y _ (sub_mk1 _ _)) as U.
    destruct (is_pi u') eqn:P; [exfalso|reflexivity].
    apply (ok_no_pi _ _ _ U), (agg_pi Strict u (ok_wf _ _ _ U) u' E). destruct u' as [[op|[x|y]] c]; try discriminate P.
    exists x, c. split; [exact P|apply sub_refl].
Qed.

(** ** simplification *)
Lemma ok_one s a : is_one a = true -> defined s a -> wf a -> eval s a = Some 1%R.
Proof. intros O [v V] W. rewrite V. f_equal. exact (eval_is_one s a v W O V). Qed.
Lemma ok_A_num s n c : ok s KA (Expr (Operand (Num n)) c) -> intnum n.
Proof. intros H. apply (proj1 (proj2 (proj2 (ok_num s KA _ H n c eq_refl)))). discriminate. Qed.
Lemma ok_H_num s e : ok s KH e -> is_num e = true -> e = e_zero.
Proof. intros H N. apply is_num_inv in N as (n & c & ->). exact (proj2 (proj2 (proj2 (ok_num s KH _ H n c eq_refl))) eq_refl). Qed.
Lemma one_num a : is_one a = true -> is_num a = true.
Proof. destruct a as [[op|[n|x]] c]; try discriminate. reflexivity. Qed.
Lemma A_zero s : ok s KA e_zero. Proof. apply o_H, h_zero. Qed.
Lemma A_one s : ok s KA e_one. Proof. apply (o_num s 1). reflexivity. Qed.
Lemma A_int s n : intnum n -> ok s KA (e_num n).
Proof. intros (z & Hz & ->). exact (o_num s z Hz). Qed.

Lemma A_rule1 s t a z : ok s KA a -> In t [ONeg; OSin; OCos; OExp] -> (t = OExp -> eval s a <> Some 1%R) ->
  eval_rule Debug t [Ok a] = Ok z -> eval_rule Strict t [Ok a] = Ok z /\ ok s KA z.
Proof.
  intros X Ht He H. split.
  - cbn in Ht. destruct Ht as [<-|[<-|[<-|[<-|[]]]]]; try exact H.
    cbn [eval_rule] in *. unfold neg_eval_rule in *. cbn -[sn_neg e_neg e_num is_num] in *.
    destruct (is_num a) eqn:N; [|exact H]. apply is_num_inv in N as (n & k & ->). apply ok_A_num in X.
    cbn -[sn_neg] in *. inv_bind H. destruct (sn_neg_DS _ _ X Hb) as [E _]. rewrite E. exact H.
  - apply rule1_ar in H; [|cbn in Ht; intuition (subst; reflexivity)].
    destruct H; try (cbn in Ht; intuition discriminate).
    + apply ok_A_num in X. apply A_int. exact (proj2 (sn_neg_DS _ _ X H)).
    + exact (ok_neg_inv s _ _ X _ _ _ eq_refl H).
    + apply o_neg. exact X.
    + apply A_zero.
    + apply o_sin. exact X.
    + apply A_one.
    + apply o_cos. exact X.
    + apply A_one.
    + elim (He eq_refl). exact (ok_one s a H0 (ok_defined _ _ _ X) (ok_wf _ _ _ X)).
    + exfalso. apply ok_root with (op := op) (c := (r ++ [c])%list) in X; [|reflexivity]. rewrite H in X. cbn in X. intuition discriminate.
    + apply o_exp; [exact X|exact (He eq_refl)].
Qed.
Lemma A_rule2_DS s t l r z : ok s KA l -> ok s KA r -> In t [OAdd; OSub; OMul] ->
  eval_rule Debug t [Ok l; Ok r] = Ok z -> eval_rule Strict t [Ok l; Ok r] = Ok z.
Proof.
  intros Xl Xr Ht H.
  cbn in Ht. destruct Ht as [<-|[<-|[<-|[]]]]; cbn [eval_rule] in *;
    unfold add_eval_rule, sub_eval_rule, mul_eval_rule in *;
    cbn -[sn_add sn_sub sn_mul e_add e_sub e_mul e_num is_num is_zero is_one to_smart_num_unwrap e_of_i64] in *;
    (destruct (is_num l && is_num r) eqn:N; [|exact H]);
    apply andb_true_iff in N as [N1 N2]; apply is_num_inv in N1 as (n & k & ->); apply is_num_inv in N2 as (n' & k' & ->);
    apply ok_A_num in Xl; apply ok_A_num in Xr;
    cbn -[sn_add sn_sub sn_mul] in *; inv_bind H.
  + destruct (sn_op_DS OAdd _ _ _ Xl Xr ltac:(discriminate) ltac:(auto) Hb) as [E _]. cbn [sn_op] in E. rewrite E. exact H.
  + destruct (sn_op_DS OSub _ _ _ Xl Xr ltac:(discriminate) ltac:(auto) Hb) as [E _]. cbn [sn_op] in E. rewrite E. exact H.
  + destruct (sn_op_DS OMul _ _ _ Xl Xr ltac:(discriminate) ltac:(auto) Hb) as [E _]. cbn [sn_op] in E. rewrite E. exact H.
Qed.
Lemma A_rule2 s t l r z : ok s KA l -> ok s KA r -> In t [OAdd; OSub; OMul] ->
  eval_rule Debug t [Ok l; Ok r] = Ok z -> eval_rule Strict t [Ok l; Ok r] = Ok z /\ ok s KA z.
Proof.
  intros Xl Xr Ht H. split; [exact (A_rule2_DS s t l r z Xl Xr Ht H)|].
  apply rule2_ar in H; [|cbn in Ht; intuition (subst; reflexivity)].
  destruct H; try (cbn in Ht; intuition discriminate); try assumption; try apply A_zero; try (constructor; assumption).
  apply ok_A_num in Xl. apply ok_A_num in Xr. apply A_int.
  refine (proj2 (sn_op_DS t _ _ _ Xl Xr _ H H0)). intros ->. cbn in Ht. intuition discriminate.
Qed.
(** sums of expressions whose numbers are 0 *)
Lemma H_neg s a z : ok s KH a -> eval_rule Debug ONeg [Ok a] = Ok z -> eval_rule Strict ONeg [Ok a] = Ok z /\ ok s KH z.
Proof.
  intros X H. split; [exact (proj1 (A_rule1 s ONeg a z (o_H _ _ X) ltac:(cbn; auto) ltac:(discriminate) H))|].
  apply rule1_ar in H; [|reflexivity]. inversion H; subst.
  - apply ok_H_num in X; [|reflexivity]. injection X as -> ->. vm_compute in H0. injection H0 as <-. apply h_zero.
  - exact (ok_neg_inv s _ _ X _ _ _ eq_refl H0).
  - apply h_neg. exact X.
Qed.
Lemma H_rule2 s t l r z : ok s KH l -> ok s KH r -> In t [OAdd; OSub] ->
  eval_rule Debug t [Ok l; Ok r] = Ok z -> eval_rule Strict t [Ok l; Ok r] = Ok z /\ ok s KH z.
Proof.
  intros Xl Xr Ht H. split; [refine (proj1 (A_rule2 s t l r z (o_H _ _ Xl) (o_H _ _ Xr) _ H)); cbn in *; tauto|].
  apply rule2_ar in H; [|cbn in Ht; intuition (subst; reflexivity)].
  destruct H; try (cbn in Ht; intuition discriminate); try assumption; try (constructor; assumption).
  apply ok_H_num in Xl; [|reflexivity]. apply ok_H_num in Xr; [|reflexivity]. injection Xl as -> ->. injection Xr as -> ->.
  cbn in Ht. destruct Ht as [<-|[<-|[]]]; vm_compute in H0; injection H0 as <-; apply h_zero.
Qed.
Lemma H_mul s l r z : ok s KH l -> ok s KQ r ->
  eval_rule Debug OMul [Ok l; Ok r] = Ok z -> eval_rule Strict OMul [Ok l; Ok r] = Ok z /\ ok s KH z.
Proof.
  intros Xl Xr H.
  assert (forall m x, sn_mul m (sn_of_i64 0) x = Ok (sn_of_i64 0)) as M0.
  { intros m x. unfold sn_mul. change (sn_is_one (sn_of_i64 0)) with false. cbn iota. destruct (sn_is_one x); [reflexivity|].
    change (val_is_zero (nval (sn_of_i64 0))) with true. cbn [orb negb]. rewrite andb_false_r, guard_false. reflexivity. }
  split.
  - cbn [eval_rule] in *. unfold mul_eval_rule in *. cbn -[sn_mul e_mul e_num is_num is_zero is_one to_smart_num_unwrap e_of_i64] in *.
    destruct (is_num l && is_num r) eqn:N; [|exact H].
    apply andb_true_iff in N as [N1 N2]. apply (ok_H_num s) in N1; [|exact Xl]. subst l. apply is_num_inv in N2 as (n' & k' & ->).
    cbn -[sn_mul sn_of_i64] in *. rewrite M0 in *. exact H.
  - apply rule2_ar in H; [|reflexivity]. inversion H; subst.
    + apply ok_H_num in Xl; [|reflexivity]. injection Xl as -> ->. cbn [sn_op] in H1. rewrite M0 in H1. injection H1 as <-. apply h_zero.
    + apply h_zero.
    + exfalso. match goal with O : is_one l = true |- _ => pose proof (one_num l O) as N; rewrite (ok_H_num s l Xl N) in O; discriminate O end.
    + exact Xl.
    + apply h_mul; assumption.
Qed.
Lemma ok_val s k e z : ok s k e -> num_aggregate Strict e = Ok z -> eval s z = eval s e.
Proof.
  intros X E. destruct (ok_defined _ _ _ X) as [v V]. rewrite V.
  exact (agg_sound s e (ok_wf _ _ _ X) (ok_avoids s _ k e (le_n _) X) z v E V).
Qed.
Lemma Q_div s l r z : ok s KA l -> ok s KA r -> eval s r <> Some 0%R -> eval_rule Debug ODiv [Ok l; Ok r] = Ok z ->
  eval_rule Strict ODiv [Ok l; Ok r] = Ok z /\ (z = e_zero \/ z = e_div l r \/ exists n, z = e_num n /\ frac n).
Proof.
  intros Xl Xr _ H. cbn [eval_rule] in *. unfold div_eval_rule, eval2 in *. cbn [pop_unwrap pop bind] in *.
  destruct (is_num l && is_num r) eqn:N.
  - apply andb_prop in N as [Nl Nr]. apply is_num_inv in Nl as (n & c & ->). apply is_num_inv in Nr as (k & d & ->).
    apply ok_A_num in Xl. apply ok_A_num in Xr.
    cbn [to_smart_num_unwrap to_smart_num root bind] in *. inv_bind H. injection H as <-.
    destruct (frac_div _ _ _ (int_frac _ Xl) (int_frac _ Xr) Hb) as [E F]. rewrite E. split; [reflexivity|right; right; eauto].
  - destruct (is_zero l); injection H as <-; (split; [reflexivity|auto]).
Qed.
Lemma ok_agg s k e : ok s k e -> forall z, num_aggregate Debug e = Ok z -> num_aggregate Strict e = Ok z /\ ok s k z.
Proof.
  induction 1; intros z' E;
    try (unfold e_neg, e_sin, e_cos, e_exp in *; rewrite agg_mk1 in * by reflexivity; inv_bind E;
         match goal with H : num_aggregate Debug ?a = Ok ?b, IH : forall z, num_aggregate Debug ?a = Ok z -> _ |- _ =>
           destruct (IH _ H) as [S Xa]; rewrite S; cbn [bind] end;
         first [refine (H_neg s _ _ Xa E) | refine (A_rule1 s _ _ _ Xa _ _ E); [cbn; tauto|]; intros Q; try discriminate Q]; fail);
    try (unfold e_add, e_sub, e_mul in *; rewrite agg_mk2 in * by reflexivity; do 2 inv_bind E;
         destruct (IHok2 _ Hb) as [S2 X2]; destruct (IHok1 _ Hb0) as [S1 X1]; rewrite S2; cbn [bind]; rewrite S1; cbn [bind];
         first [refine (H_rule2 s _ _ _ _ X1 X2 _ E); cbn; tauto | refine (A_rule2 s _ _ _ _ X1 X2 _ E); cbn; tauto | exact (H_mul s _ _ _ X1 X2 E)]).
  - injection E as <-. split; [reflexivity|apply o_num; assumption].
  - injection E as <-. split; [reflexivity|apply o_var].
  - unfold e_exp in *. rewrite agg_mk1 in * by reflexivity. inv_bind E. destruct (IHok _ Hb) as [S Xa]. rewrite S. cbn [bind].
    refine (A_rule1 s _ _ _ Xa _ _ E); [cbn; tauto|]. intros _. rewrite (ok_val s KA a _ H S). assumption.
  - destruct (IHok _ E) as [S Xa]. split; [exact S|apply o_H; exact Xa].
  - injection E as <-. split; [reflexivity|apply h_zero].
  - unfold e_pow in *. rewrite agg_mk2 in * by reflexivity. cbn [num_aggregate e_of_i64 e_num bind] in *. inv_bind E.
    destruct (IHok _ Hb) as [S Xa]. rewrite S. cbn [bind]. split; [exact E|].
    pose proof (ok_val s KA a _ H S) as V. pose proof (ok_wf _ _ _ Xa) as W. pose proof (ok_defined _ _ _ Xa) as D.
    apply rule2_ar in E; [|reflexivity]. inversion E; subst. all: try (match goal with H : _ \/ _ |- _ => destruct H as [H|[H|[H|H]]]; discriminate H end).
    + elim H0. rewrite <- V. destruct D as [v D]. rewrite D. f_equal. match goal with Z : is_zero _ = true |- _ => exact (eval_is_zero s _ v W Z D) end.
    + elim H1. rewrite <- V. match goal with O : is_one _ = true |- _ => exact (ok_one s _ O D W) end.
    + exfalso. match goal with L : descriptor ?op = OLn |- _ => refine (ok_noln _ _ _ Xa _); exists op; eexists; split; [exact L|apply sub_refl] end.
    + apply h_pow; [exact Xa|rewrite V; assumption|rewrite V; assumption|assumption].
  - destruct (IHok _ E) as [S Xa]. split; [exact S|apply q_A; exact Xa].
  - assert (ok s KQ (e_div a b)) as X by (apply q_div; assumption).
    pose proof E as E0. unfold e_div in E. rewrite agg_mk2 in E by reflexivity. do 2 inv_bind E.
    destruct (IHok2 _ Hb) as [S2 X2]; destruct (IHok1 _ Hb0) as [S1 X1].
    pose proof (ok_val s KA b _ H0 S2) as Vb. 
    destruct (Q_div s _ _ _ X1 X2 ltac:(rewrite Vb; exact H1) E) as [S C].
    assert (num_aggregate Strict (e_div a b) = Ok z') as SS.
    { unfold e_div. rewrite agg_mk2 by reflexivity. rewrite S2. cbn [bind]. rewrite S1. cbn [bind]. exact S. }
    split; [exact SS|]. destruct C as [-> |[-> |(n & -> & F)]].
    + apply q_A, A_zero.
    + apply q_div; [assumption..|]. rewrite Vb. exact H1.
    + apply q_num; [|exact F|].
      * pose proof (agg_wf _ _ _ (ok_wf _ _ _ X) SS) as W. inversion W. assumption.
      * unfold defined. rewrite (ok_val s KQ _ _ X SS). exact (ok_defined _ _ _ X).
  - injection E as <-. split; [reflexivity|apply q_num; assumption].
Qed.

(** ** derivatives: the part with the logarithm of the base is multiplied by 0 *)
Lemma zero_mul m l : eval_rule m OMul [Ok e_zero; Ok l] = Ok e_zero.
Proof.
  cbn [eval_rule]. unfold mul_eval_rule, eval2. cbn [pop_unwrap pop bind].
  change (is_num e_zero) with true. change (is_zero e_zero) with true. cbn [andb orb].
  destruct (is_num l) eqn:N; [|reflexivity]. apply is_num_inv in N as (n & c & ->).
  cbn [to_smart_num_unwrap to_smart_num root e_zero e_of_i64 e_num bind].
  unfold sn_mul. change (sn_is_one (sn_of_i64 0)) with false. cbn iota.
  destruct (sn_is_one n); [reflexivity|].
  change (val_is_zero (nval (sn_of_i64 0))) with true. cbn [orb negb]. rewrite andb_false_r, guard_false. reflexivity.
Qed.
Lemma zero_add m s q : ok s KQ q -> eval_rule m OAdd [Ok e_zero; Ok q] = Ok q.
Proof.
  intros X. cbn [eval_rule]. unfold add_eval_rule, eval2. cbn [pop_unwrap pop bind].
  change (is_num e_zero) with true. change (is_zero e_zero) with true. cbn [andb].
  destruct (is_num q) eqn:N; [|reflexivity]. apply is_num_inv in N as (n & c & ->).
  destruct (ok_num _ _ _ X n c eq_refl) as [-> _].
  cbn [to_smart_num_unwrap to_smart_num root e_zero e_of_i64 e_num bind]. reflexivity.
Qed.
Lemma raw_pow_agg s a z da w : ok s KA a -> ok s KA da -> in_i64 z = true -> eval s a <> Some 0%R ->
  num_aggregate Debug (e_add (e_mul e_zero (e_ln a)) (e_div (e_mul (e_of_i64 z) da) a)) = Ok w ->
  num_aggregate Strict (e_add (e_mul e_zero (e_ln a)) (e_div (e_mul (e_of_i64 z) da) a)) = Ok w /\ ok s KQ w.
Proof.
  intros Xa Xd Hz N0 H. unfold e_add in *. rewrite agg_mk2 in * by reflexivity. inv_bind H.
  destruct (ok_agg s KQ _ (q_div s _ _ (o_mul s _ _ (o_num s z Hz) Xd) Xa N0) _ Hb) as [S X]. rewrite S. cbn [bind].
  inv_bind H. unfold e_mul in Hb0 |- *. rewrite agg_mk2 in Hb0 |- * by reflexivity. unfold e_ln in *. rewrite agg_mk1 in * by reflexivity.
  inv_bind Hb0. inv_bind Hb1. destruct (ok_agg s KA a Xa _ Hb2) as [Sa Xa']. rewrite Sa. cbn [bind].
  assert (eval_rule Strict OLn [Ok a3] = Ok a2) as -> by exact Hb1. cbn [bind].
  change (num_aggregate Debug e_zero) with (Ok e_zero) in Hb0. change (num_aggregate Strict e_zero) with (Ok e_zero). cbn [bind] in *.
  rewrite zero_mul in *. injection Hb0 as <-. cbn [bind]. rewrite (zero_add Debug s _ X) in H. rewrite (zero_add Strict s _ X). injection H as <-. auto.
Qed.
Lemma ok_deriv s x k e : ok s k e -> forall d, deriv Debug x e = Ok d -> deriv Strict x e = Ok d /\ ok s k d.
Proof.
  induction 1; intros d E;
    try (unfold e_neg, e_sin, e_cos, e_exp in *; rewrite deriv_mk1 in * by reflexivity; inv_bind E; destruct (IHok _ Hb) as [S Xd];
         rewrite S; cbn [bind]; refine (ok_agg s _ _ _ _ E); cbn [raw1]);
    try (unfold e_add, e_sub, e_mul, e_div in *; rewrite deriv_mk2 in * by reflexivity; do 2 inv_bind E; destruct (IHok2 _ Hb) as [S2 X2];
         destruct (IHok1 _ Hb0) as [S1 X1]; rewrite S2; cbn [bind]; rewrite S1; cbn [bind]; refine (ok_agg s _ _ _ _ E); cbn [raw2]).
  - injection E as <-. split; [reflexivity|apply A_zero].
  - unfold e_var in *. rewrite deriv_var in *. injection E as <-. split; [reflexivity|].
    destruct (String.eqb x x0); [exact A_one|exact A_zero] || (destruct (String.eqb _ _); [apply A_one|apply A_zero]).
  - apply o_neg; assumption.
  - apply o_mul; [apply o_cos|]; assumption.
  - apply o_mul; [apply o_neg, o_sin|]; assumption.
  - apply o_mul; [|apply o_exp]; assumption.
  - apply o_add; assumption.
  - apply o_sub; assumption.
  - apply o_add; apply o_mul; assumption.
  - destruct (IHok _ E) as [S X]. split; [exact S|apply o_H; exact X].
  - injection E as <-. split; [reflexivity|apply h_zero].
  - unfold e_pow in *. rewrite deriv_mk2 in * by reflexivity. change (deriv Debug x (e_of_i64 z)) with (Ok e_zero) in E.
    change (deriv Strict x (e_of_i64 z)) with (Ok e_zero). cbn [bind] in *. inv_bind E.
    destruct (IHok _ Hb) as [S Xd]. rewrite S. cbn [bind raw2] in *. 
    unfold e_mul at 1 in E. unfold e_mul at 1. rewrite agg_mk2 in * by reflexivity. do 2 inv_bind E.
    destruct (raw_pow_agg s _ z _ _ H Xd H2 H0 Hb0) as [S1 X1]. rewrite S1. cbn [bind].
    destruct (ok_agg s KH _ (h_pow s _ z H H0 H1 H2) _ Hb1) as [S2 X2]. rewrite S2. cbn [bind].
    exact (H_mul s _ _ _ X2 X1 E).
  - apply h_neg; assumption.
  - apply h_add; assumption.
  - apply h_sub; assumption.
  - apply h_add; apply h_mul; assumption.
  - destruct (IHok _ E) as [S X]. split; [exact S|apply q_A; exact X].
  - apply q_div; [apply o_sub; apply o_mul; assumption|apply o_mul; assumption|].
    destruct (ok_defined s _ _ H0) as [v V]. unfold e_mul. rewrite eval_mk2, V. cbn [obind ev2]. rewrite V in H1.
    intros [= F]. apply H1. f_equal. apply Rmult_integral in F. tauto.
  - injection E as <-. split; [reflexivity|apply q_A, A_zero].
Qed.
Lemma ok_subst s x v a k e : eval s v = Some a -> ok s KA v -> ok (upd s x a) k e -> ok s k (subst x v e).
Proof.
  intros V Xv. induction 1; try (constructor; assumption).
  - cbn. destruct (String.eqb x0 x); [assumption|apply o_var].
  - unfold e_exp. rewrite subst_mk1. apply o_exp; [assumption|]. rewrite (eval_subst s x v a); assumption.
  - unfold e_pow. rewrite subst_mk2. apply h_pow; try assumption; rewrite (eval_subst s x v a); assumption.
  - unfold e_div. rewrite subst_mk2. apply q_div; try assumption. rewrite (eval_subst s x v a); assumption.
Qed.


(** ** quotients and logarithms on top *)
Inductive okr (s : string -> R) : expr -> Prop :=
| r_A p : ok s KA p -> okr s p
| r_div p q : ok s KA p -> ok s KA q -> okr s (e_div p q)
| r_ln p : ok s KA p -> okr s (e_ln p)
| r_num n : frac n -> okr s (e_num n).

Lemma okr_num s n c : okr s (Expr (Operand (Num n)) c) -> frac n /\ c = [].
Proof.
  intros H. inversion H as [p T E|p q T T' E|p T E|k F E]; subst.
  - destruct (ok_num s KA _ T n c eq_refl) as (-> & F & _). auto.
  - auto.
Qed.
Lemma okr_div_rule s l r z : okr s l -> okr s r -> eval_rule Debug ODiv [Ok l; Ok r] = Ok z ->
  eval_rule Strict ODiv [Ok l; Ok r] = Ok z /\ ((exists n, frac n /\ z = e_num n) \/ z = e_zero \/ z = e_div l r).
Proof.
  intros Rl Rr. cbn [eval_rule]. unfold div_eval_rule, eval2. cbn [pop_unwrap pop bind]. intros H.
  destruct (is_num l && is_num r) eqn:N.
  - apply andb_prop in N as [Nl Nr]. destruct l as [[op|[n|y]] c]; try discriminate Nl. destruct r as [[op|[k|y]] d]; try discriminate Nr.
    apply okr_num in Rl as [Fn _]. apply okr_num in Rr as [Fk _].
    cbn [to_smart_num_unwrap to_smart_num root bind] in *. inv_bind H. injection H as <-.
    destruct (frac_div _ _ _ Fn Fk Hb) as [E F]. rewrite E. split; [reflexivity|left; eauto].
  - destruct (is_zero l); injection H as <-; (split; [reflexivity|auto]).
Qed.
Lemma okr_agg s e : okr s e -> forall z, num_aggregate Debug e = Ok z -> num_aggregate Strict e = Ok z /\ okr s z.
Proof.
  intros X z E. destruct X as [p T|p q T T'|p T|n F].
  - destruct (ok_agg s _ _ T _ E) as [S Xz]. split; [exact S|apply r_A; exact Xz].
  - unfold e_div in *. rewrite agg_mk2 in * by reflexivity. do 2 inv_bind E.
    destruct (ok_agg s _ _ T' _ Hb) as [S1 Tr], (ok_agg s _ _ T _ Hb0) as [S2 Tl]. rewrite S1. cbn [bind]. rewrite S2. cbn [bind].
    destruct (okr_div_rule s _ _ _ (r_A s _ Tl) (r_A s _ Tr) E) as [S C]. split; [exact S|].
    destruct C as [(n & F & ->)|[-> | ->]]; [apply r_num; exact F|apply r_A, A_zero|apply r_div; assumption].
  - unfold e_ln in *. rewrite agg_mk1 in * by reflexivity. inv_bind E.
    destruct (ok_agg s _ _ T _ Hb) as [S Ta]. rewrite S. cbn [bind]. split; [exact E|].
    apply rule1_ar in E; [|reflexivity]. inversion E; subst.
    + apply r_A, A_one.
    + apply r_A, A_zero.
    + apply r_A. refine (ok_exp_inv s _ _ Ta _ _ _ eq_refl _). assumption.
    + apply r_ln. exact Ta.
  - injection E as <-. split; [reflexivity|apply r_num; exact F].
Qed.
Lemma okr_deriv s x e : okr s e -> forall d, deriv Debug x e = Ok d -> deriv Strict x e = Ok d /\ okr s d.
Proof.
  intros X d E. destruct X as [p T|p q T T'|p T|n F].
  - destruct (ok_deriv s x _ _ T _ E) as [S Xz]. split; [exact S|apply r_A; exact Xz].
  - unfold e_div in *. rewrite deriv_mk2 in * by reflexivity. do 2 inv_bind E.
    match goal with H : deriv Debug x q = Ok ?a |- _ => rename H into Hq; rename a into dq end.
    match goal with H : deriv Debug x p = Ok ?a |- _ => rename H into Hp; rename a into dp end.
    destruct (ok_deriv s x _ _ T _ Hp) as [S1 Tp], (ok_deriv s x _ _ T' _ Hq) as [S2 Tq]. rewrite S1, S2. cbn [bind].
    apply okr_agg; [|exact E]. cbn [raw2]. apply r_div; [apply o_sub; apply o_mul; assumption|apply o_mul; assumption].
  - unfold e_ln in *. rewrite deriv_mk1 in * by reflexivity. inv_bind E.
    destruct (ok_deriv s x _ _ T _ Hb) as [S1 Tp]. rewrite S1. cbn [bind].
    apply okr_agg; [|exact E]. cbn [raw1]. apply r_div; assumption.
  - injection E as <-. split; [reflexivity|apply r_A, A_zero].
Qed.
Lemma okr_subst s x v a e : eval s v = Some a -> ok s KA v -> okr (upd s x a) e -> okr s (subst x v e).
Proof.
  intros V Xv X. destruct X as [p Tp|p q Tp Tq|p Tp|n F].
  - apply r_A, (ok_subst s x v a); assumption.
  - unfold e_div. rewrite subst_mk2. apply r_div; apply (ok_subst s x v a); assumption.
  - unfold e_ln. rewrite subst_mk1. apply r_ln, (ok_subst s x v a); assumption.
  - apply r_num. exact F.
Qed.
Lemma pow_loop_DS s x at_ a : eval s at_ = Some a -> ok s KA at_ -> forall n k f r c p,
  0 <= k -> k + Z.of_nat n <= 1000 -> intnum f -> okr (upd s x a) r ->
  taylor_loop Debug x at_ n k f r c = Ok p -> taylor_loop Strict x at_ n k f r c = Ok p.
Proof.
  intros V Ta. induction n; intros k f r c p K0 K If Tr H; cbn [taylor_loop] in *; [exact H|].
  do 5 inv_bind H.
  assert (in_i64 (Z.max k 1) = true) as I. { apply in_i64_iff. unfold two63. lia. }
  unfold sn_of_u64, val_of_u64, cast_i64 in *. rewrite I in *. cbn [bind] in *. injection Hb as <-.
  assert (intnum (sn_of_val (Integer (Z.max k 1)))) as Ik. { exists (Z.max k 1). auto. }
  destruct (sn_op_DS OMul _ _ _ If Ik ltac:(discriminate) ltac:(auto) Hb0) as [E0 I0]. cbn [sn_op] in E0. rewrite E0. cbn [bind].
  destruct (okr_agg s _ (okr_subst s x at_ a r V Ta Tr) _ Hb1) as [E1 W1]. rewrite E1. cbn [bind].
  match goal with H : num_aggregate Debug (e_div ?u (e_num ?w)) = Ok ?z |- _ =>
    assert (num_aggregate Strict (e_div u (e_num w)) = Ok z) as E2 end.
  { unfold e_div in *. rewrite agg_mk2 in * by reflexivity. cbn [num_aggregate e_num bind] in *.
    inv_bind Hb2. destruct (okr_agg s _ W1 _ Hb) as [S2 W2]. rewrite S2. cbn [bind].
    exact (proj1 (okr_div_rule s _ _ _ W2 (r_num s _ (int_frac _ I0)) Hb2)). }
  rewrite E2. cbn [bind]. destruct (okr_deriv _ x r Tr _ Hb3) as [E3 R3]. rewrite E3. cbn [bind].
  apply IHn; [lia|lia|exact I0|exact R3|exact H].
Qed.

(** ** from the class of the statement *)
Lemma ef_sub s e a : exponents_fine s e -> subterm a e -> exponents_fine s a.
Proof. intros N S u Su. apply N. exact (subterm_trans _ _ _ Su S). Qed.
Lemma bf_sub s e a : bases_fine s e -> subterm a e -> bases_fine s a.
Proof. intros N S u b Su. apply (N u b). exact (subterm_trans _ _ _ Su S). Qed.
Lemma ok_of s e : pow_poly e -> exponents_fine s e -> bases_fine s e -> ok s KA e.
Proof.
  induction 1; intros N B;
    try (constructor; try assumption;
    try (match goal with IH : _ -> _ -> ok s KA ?a |- ok s KA ?a => apply IH end;
         first [apply (ef_sub s _ _ N)|apply (bf_sub s _ _ B)]; unfold e_neg, e_sin, e_cos, e_exp, e_add, e_sub, e_mul; first [apply sub_mk1|apply sub_mk2_l|apply sub_mk2_r]); fail).
  - apply o_exp; [|apply N, sub_refl]. apply IHpow_poly; [apply (ef_sub s _ _ N)|apply (bf_sub s _ _ B)]; apply sub_mk1.
  - apply o_H. destruct (B _ _ (sub_refl _)) as (v & V & N0 & N1). apply h_pow; try assumption.
    + apply IHpow_poly; [apply (ef_sub s _ _ N)|apply (bf_sub s _ _ B)]; apply sub_mk2_l.
    + rewrite V. congruence.
    + rewrite V. congruence.
Qed.
Lemma pq_okr s e : pow_quotient e -> exponents_fine s e -> bases_fine s e -> okr s e.
Proof.
  destruct 1; intros N B; constructor; (apply ok_of; [assumption|apply (ef_sub s _ _ N)|apply (bf_sub s _ _ B)]);
    try apply sub_refl; unfold e_div, e_ln; first [apply sub_mk1|apply sub_mk2_l|apply sub_mk2_r].
Qed.
Lemma pow_taylor_strict s e x at_ a n t : pow_quotient e -> exp_poly at_ -> eval s at_ = Some a ->
  exponents_fine (upd s x a) e -> bases_fine (upd s x a) e -> exponents_fine s at_ ->
  taylor_expansion Debug e (e_var x) at_ (Z.of_nat n) = Ok (ROk t) ->
  taylor_expansion Strict e (e_var x) at_ (Z.of_nat n) = Ok (ROk t).
Proof.
  intros T Ta V N B Na H. assert (n <= 20)%nat as Hn.
  { destruct (Nat.le_gt_cases n 20) as [L|L]; [exact L|]. exfalso.
    exact (proj1 (c34_debug_never_returns e (e_var x) at_ (Z.of_nat n) t ltac:(lia)) H). }
  assert (ok s KA at_) as Ka.
  { apply ok_of; [|exact Na|].
    - clear -Ta. induction Ta; constructor; assumption.
    - intros u b S. apply (xp_subterm _ Ta), xp_root in S. cbn in S. intuition discriminate. }
  unfold taylor_expansion in *. cbn [to_variable root e_var] in *. inv_bind H. unfold taylor_var in *. inv_bind Hb.
  rewrite (pow_loop_DS s x at_ a V Ka (Z.to_nat (Z.of_nat n + 1)) 0 (sn_of_i64 1) e [] a1); [|lia|lia| |exact (pq_okr _ e T N B)|exact Hb0].
  - cbn [bind] in *. rewrite Hb. exact H.
  - exists 1%Z. auto.
Qed.

(** ** regularity *)
Lemma pp_subterm e : pow_poly e -> forall u, subterm u e -> pow_poly u.
Proof.
  induction 1; intros u Hs; inversion Hs; subst; try (constructor; assumption); cbn in *;
    repeat match goal with
      | H : False |- _ => destruct H
      | H : _ \/ _ |- _ => destruct H; subst
      end; auto.
  match goal with S : subterm u (e_of_i64 _) |- _ => inversion S; subst; [constructor; assumption|contradiction] end.
Qed.
Lemma pp_root op c : pow_poly (Expr (Operator op) c) -> In (descriptor op) [ONeg; OSin; OCos; OExp; OAdd; OSub; OMul; OPow].
Proof. intros H. inversion H; subst; cbn; tauto. Qed.
Lemma pp_wf e : pow_poly e -> wf e.
Proof.
  induction 1; try (apply wf_mk2; [reflexivity|assumption..]); try (apply wf_mk1; [reflexivity|assumption]).
  - apply wf_num', sn_of_i64_ok. assumption.
  - apply wf_var.
  - apply wf_mk2; [reflexivity|assumption|]. apply wf_num', sn_of_i64_ok. assumption.
Qed.
Lemma pp_no_pi e : pow_poly e -> ~ has_pi e.
Proof.
  intros X (n & c & P & S). apply (pp_subterm e X) in S. inversion S; subst.
  destruct (intnum_not_pi (sn_of_i64 z)) as [Q _]; [exists z; auto|congruence].
Qed.
Lemma pp_no_ln e : pow_poly e -> ~ has_op OLn e.
Proof.
  intros X (op & c & D & S). apply (pp_subterm e X), pp_root in S. rewrite D in S. cbn in S. intuition discriminate.
Qed.
Lemma pq_wf e : pow_quotient e -> wf e.
Proof.
  destruct 1; try (apply wf_mk2; [reflexivity| |]); try (apply wf_mk1; [reflexivity|]); apply pp_wf; assumption.
Qed.
Lemma pq_sub e u : pow_quotient e -> subterm u e -> u = e \/ pow_poly u.
Proof.
  intros Q S. destruct Q as [p T|p q T T'|p T].
  - right. exact (pp_subterm p T u S).
  - inversion S as [|? ? ? c I' S']; subst; [left; reflexivity|right]. destruct I' as [<-|[<-|[]]]; [exact (pp_subterm p T u S')|exact (pp_subterm q T' u S')].
  - inversion S as [|? ? ? c I' S']; subst; [left; reflexivity|right]. destruct I' as [<-|[]]. exact (pp_subterm p T u S').
Qed.
Lemma pq_pow e u b : pow_quotient e -> subterm (e_pow u b) e -> pow_poly u /\ exists z, b = e_of_i64 z.
Proof.
  intros Q S. assert (pow_poly (e_pow u b)) as X.
  { destruct (pq_sub e _ Q S) as [<-|X]; [|exact X]. inversion Q as [p T E|p q T T' E|p T E]. exact T. }
  inversion X; subst. eauto.
Qed.
Lemma pq_no_pi e u : pow_quotient e -> subterm (e_sin u) e \/ subterm (e_cos u) e -> ~ has_pi u.
Proof.
  intros Q S.
  assert (pow_poly u) as X; [|exact (pp_no_pi u X)].
  destruct S as [S|S]; (destruct (pq_sub e _ Q S) as [<-|X]; [inversion Q as [p T E|p q T T' E|p T E]; subst|]);
    try (exact (pp_subterm _ T u (sub_mk1 _ u))); exact (pp_subterm _ X u (sub_mk1 _ u)).
Qed.
Lemma int_no_var x z : ~ occurs x (e_of_i64 z).
Proof. apply occurs_num. Qed.
Lemma pq_regular rho x e : pow_quotient e -> bases_fine rho e -> regular rho x e.
Proof.
  intros Q B. split; [|exact (fun u => pq_no_pi e u Q)].
  intros u b S. destruct (B u b S) as (v & V & N0 & N1). destruct (pq_pow e u b Q S) as (X & z & ->).
  exists v. refine (conj V (conj N0 (conj _ _))); [right; apply int_no_var|right; split; [apply pp_no_ln, X|exact N1]].
Qed.
Lemma pq_taylor_regular rho x at_ a e : pow_quotient e -> exp_poly at_ -> bases_fine (upd rho x a) e ->
  taylor_regular rho x at_ a e.
Proof.
  intros Q Ta B. refine (conj _ (conj _ (conj _ (conj _ _)))).
  - intros u b S. destruct (B u b S) as (v & V & N0 & N1). destruct (pq_pow e u b Q S) as (X & z & ->).
    exists v. refine (conj V (conj N0 (conj _ _))); [right; apply int_no_var|right; split; [apply pp_no_ln, X|exact N1]].
  - exact (fun u => pq_no_pi e u Q).
  - apply xp_ops; [exact Ta|cbn; auto].
  - apply xp_no_pi. exact Ta.
  - apply xq_regular, xq_poly, Ta.
Qed.

(** ** C100 *)
(** [s] is any one valuation (it may be [rho]); the conclusion holds at every valuation [rho] at which no
    power base is 0 or 1. *)
Theorem c100_taylor rho s x at_ a b e n t : pow_quotient e -> exp_poly at_ ->
  eval s at_ = Some b -> exponents_fine (upd s x b) e -> bases_fine (upd s x b) e -> exponents_fine s at_ ->
  eval rho at_ = Some a -> defined (upd rho x a) e -> bases_fine (upd rho x a) e ->
  taylor_expansion Debug e (e_var x) at_ (Z.of_nat n) = Ok (ROk t) ->
  forall k, (k <= n)%nat -> exists ck, nth_error (ex_coef t) k = Some ck /\
     eval rho ck = Some (Derive_n (evalx rho x e) k a / INR (fact k))%R /\ ex_derive_n (evalx rho x e) k a.
Proof.
  intros Q Ta V N B Na Ha D B' H. apply (pow_taylor_strict s e x at_ b n t Q Ta V N B Na) in H.
  exact (c32_coefficients rho x at_ a e n t (pq_wf e Q) (xp_wf at_ Ta) Ha (pq_taylor_regular rho x at_ a e Q Ta B') D H).
Qed.
Print Assumptions c100_taylor.

Theorem c100_remainder rho s x at_ a b e n t y : pow_quotient e -> exp_poly at_ ->
  eval s at_ = Some b -> exponents_fine (upd s x b) e -> bases_fine (upd s x b) e -> exponents_fine s at_ ->
  eval rho at_ = Some a ->
  (forall u, (Rmin a y <= u <= Rmax a y)%R -> defined (upd rho x u) e /\ bases_fine (upd rho x u) e) ->
  taylor_expansion Debug e (e_var x) at_ (Z.of_nat n) = Ok (ROk t) -> y <> a ->
  exists z, (Rmin a y < z < Rmax a y)%R /\ defined (upd rho x z) (ex_residual t) /\
    eval (upd rho x y) e = Some (
      sum_f_R0 (fun k => value rho (nth k (ex_coef t) e_zero) * (y - a) ^ k) n
      + value (upd rho x z) (ex_residual t) * (y - a) ^ (S n) / INR (fact (S n)))%R.
Proof.
  intros Q Ta V N B Na Ha D H Ny. apply (pow_taylor_strict s e x at_ b n t Q Ta V N B Na) in H.
  refine (c33_lagrange rho x at_ a e n t y (pq_wf e Q) (xp_wf at_ Ta) Ha (pq_taylor_regular rho x at_ a e Q Ta _) _ H Ny).
  - apply D. split; [apply Rmin_l|apply Rmax_l].
  - intros u Hu. destruct (D u Hu) as [D1 D2]. split; [apply pq_regular; assumption|exact D1].
Qed.
Print Assumptions c100_remainder.

Theorem c100_derivative rho s x t0 e d v : pow_quotient e -> exponents_fine s e -> bases_fine s e ->
  bases_fine (upd rho x t0) e ->
  derivative Debug e (e_var x) = Ok (ROk d) -> eval (upd rho x t0) e = Some v ->
  exists v', eval (upd rho x t0) d = Some v' /\
    (exists eps, (0 < eps)%R /\ forall t, (Rabs (t - t0) < eps)%R -> defined (upd rho x t) e) /\
    derivable_pt_lim (evalx rho x e) t0 v'.
Proof.
  intros Q N B B' H V. refine (c29_derivative_correct rho x t0 e d v (pq_wf e Q) (pq_regular _ x e Q B') V _).
  unfold derivative in *. cbn [to_variable root e_var] in *. inv_bind H.
  rewrite (proj1 (okr_deriv s x e (pq_okr s e Q N B) _ Hb)). exact H.
Qed.
Print Assumptions c100_derivative.

Lemma okr_deriv_n s x k : forall e, okr s e -> forall d, deriv_n Debug x k e = Ok d -> deriv_n Strict x k e = Ok d.
Proof.
  induction k; intros e K d E; cbn [deriv_n] in *; [exact E|].
  inv_bind E. destruct (okr_deriv s x e K _ Hb) as [S J]. rewrite S. cbn [bind]. exact (IHk _ J _ E).
Qed.
Theorem c100_nth_derivative rho s x t0 e k d : pow_quotient e -> exponents_fine s e -> bases_fine s e ->
  bases_fine (upd rho x t0) e -> defined (upd rho x t0) e -> deriv_n Debug x k e = Ok d ->
  eval (upd rho x t0) d = Some (Derive_n (evalx rho x e) k t0) /\ ex_derive_n (evalx rho x e) k t0.
Proof.
  intros Q N B B' D E. apply (okr_deriv_n s x k e (pq_okr s e Q N B)) in E.
  refine (proj2 (deriv_n_correct (fun _ => True) rho x e (pq_wf e Q) k d E t0 _)).
  split; [apply regular_rgen, pq_regular; assumption|exact D].
Qed.
Print Assumptions c100_nth_derivative.

Lemma pq_avoids s e : pow_quotient e -> exponents_fine s e -> bases_fine s e -> avoids_bad_rules e.
Proof.
  intros Q N B.
  assert (forall u, pow_poly u -> subterm u e -> avoids_bad_rules u) as G.
  { intros u P S. exact (ok_avoids s _ KA u (le_n _) (ok_of s u P (ef_sub s e u N S) (bf_sub s e u B S))). }
  split.
  - intros u b u' S E. destruct (pq_pow e u b Q S) as (P & z & ->).
    assert (pow_poly (e_pow u (e_of_i64 z))) as P2.
    { destruct (pq_sub e _ Q S) as [<-|X]; [|exact X]. inversion Q. assumption. }
    exact (proj1 (G _ P2 S) u _ u' (sub_refl _) E).
  - intros u u' S E.
    assert (pow_poly (e_cos u)) as P2.
    { destruct (pq_sub e _ Q S) as [<-|X]; [|exact X]. inversion Q. assumption. }
    exact (proj2 (G _ P2 S) u u' (sub_refl _) E).
Qed.
Theorem c100_simplify rho s e z v : pow_quotient e -> exponents_fine s e -> bases_fine s e ->
  num_aggregate Debug e = Ok z -> eval rho e = Some v -> eval rho z = Some v.
Proof.
  intros Q N B H V.
  exact (agg_sound rho e (pq_wf e Q) (pq_avoids s e Q N B) z v (proj1 (okr_agg s e (pq_okr s e Q N B) z H)) V).
Qed.
Print Assumptions c100_simplify.

(** ** powers of the variable *)
Lemma powR_nat t m : t <> 0%R -> powR t (IZR (Z.of_nat m)) = Some (t ^ m)%R.
Proof.
  intros N. unfold powR. destruct (Rlt_dec 0 t) as [L|L].
  - rewrite <- INR_IZR_INZ, Rpower_pow by exact L. reflexivity.
  - destruct (Req_EM_T t 0); [contradiction|].
    assert (Int_part (IZR (Z.of_nat m)) = Z.of_nat m) as ->.
    { symmetry. unfold Int_part. rewrite <- (tech_up (IZR (Z.of_nat m)) (Z.of_nat m + 1)); [lia|..]; rewrite plus_IZR; lra. }
    destruct (Req_EM_T _ _); [|congruence]. rewrite <- pow_powerRZ. reflexivity.
Qed.
Theorem c100_monomial rho x z m n t : in_i64 z = true -> z <> 0 -> z <> 1 -> in_i64 (Z.of_nat m) = true ->
  taylor_expansion Debug (e_pow (e_var x) (e_of_i64 (Z.of_nat m))) (e_var x) (e_of_i64 z) (Z.of_nat n) = Ok (ROk t) ->
  forall k, (k <= n)%nat -> exists ck, nth_error (ex_coef t) k = Some ck /\
    eval rho ck = Some (if Nat.leb k m then Binomial.C m k * IZR z ^ (m - k) else 0)%R.
Proof.
  intros Iz Z0 Z1 Im H k Hk. set (e := e_pow _ _) in *.
  assert (forall r, pow_quotient e /\ exp_poly (e_of_i64 z) /\ eval r (e_of_i64 z) = Some (IZR z)) as P.
  { intros r. split; [apply pq_poly, pp_pow; [apply pp_var|exact Im]|]. split; [apply xp_num; exact Iz|].
    unfold e_of_i64, e_num. rewrite eval_num, num_R_int. reflexivity. }
  assert (IZR z <> 0 /\ IZR z <> 1)%R as [R0 R1] by (split; intros E; [apply eq_IZR in E|apply eq_IZR in E]; auto).
  assert (forall r, exponents_fine r e) as NE.
  { intros r u S. exfalso. inversion S as [|? ? ? c I' S']; subst. destruct I' as [<-|[<-|[]]];
    inversion S' as [|? ? ? c I' S'']; subst; destruct I'. }
  assert (forall r y, y <> 0 -> y <> 1 -> bases_fine (upd r x y) e)%R as BF.
  { intros r y N0 N1 u b S. inversion S as [|? ? ? c I' S']; subst.
    - exists y. rewrite eval_at. auto.
    - exfalso. destruct I' as [<-|[<-|[]]]; inversion S' as [|? ? ? c I' S'']; subst; destruct I'. }
  assert (forall r y, y <> 0 -> eval (upd r x y) e = Some (y ^ m))%R as EV.
  { intros r y N0. unfold e, e_pow. rewrite eval_mk2, eval_at. unfold e_of_i64, e_num. rewrite eval_num, num_R_int.
    cbn [obind ev2]. apply powR_nat, N0. }
  destruct (P rho) as (Q & Ta & V).
  destruct (c100_taylor rho rho x (e_of_i64 z) (IZR z) (IZR z) e n t Q Ta V (NE _) (BF _ _ R0 R1)
    ltac:(intros u S; inversion S as [|? ? ? c I' S']; subst; destruct I') V
    ltac:(eexists; apply EV; exact R0) (BF _ _ R0 R1) H k Hk) as (ck & Nk & Vk & _).
  exists ck. split; [exact Nk|]. rewrite Vk. f_equal.
  assert (Derive_n (evalx rho x e) k (IZR z) = Derive_n (fun y => y ^ m) k (IZR z))%R as ->.
  { apply Derive_n_ext_loc.
    assert (locally (IZR z) (fun y => y <> 0)%R) as L.
    { apply (open_neq 0%R). exact R0. }
    revert L. apply filter_imp. intros y Hy. unfold evalx. rewrite (EV rho y Hy). reflexivity. }
  destruct (Nat.leb_spec k m) as [L|L].
  - rewrite Derive_n_pow_smalli by exact L. unfold Binomial.C. field.
    split; apply INR_fact_neq_0.
  - rewrite Derive_n_pow_bigi by exact L. unfold Rdiv. apply Rmult_0_l.
Qed.
Print Assumptions c100_monomial.

(** the condition on bases is needed: the constant coefficient of x^2 at 1 is 2 *)
Theorem c100_base_one_refuted : exists t c, pow_quotient (e_pow (e_var "x") (e_of_i64 2)) /\
  taylor_expansion Debug (e_pow (e_var "x") (e_of_i64 2)) (e_var "x") (e_of_i64 1) 1 = Ok (ROk t) /\
  nth_error (ex_coef t) 0 = Some c /\ eval (fun _ => 0%R) c = Some 2%R /\
  evalx (fun _ => 0%R) "x" (e_pow (e_var "x") (e_of_i64 2)) 1 = 1%R.
Proof.
  do 2 eexists. split; [apply pq_poly, pp_pow; [apply pp_var|reflexivity]|].
  split; [vm_compute; reflexivity|]. split; [reflexivity|].
  split; [transitivity (Some (Q2R (2 # 1))); [reflexivity|f_equal; unfold Q2R; cbn; lra]|].
  unfold evalx, e_pow. rewrite eval_mk2, eval_at. unfold e_of_i64, e_num. rewrite eval_num, num_R_int. cbn [obind ev2].
  change 2%Z with (Z.of_nat 2). rewrite powR_nat by lra. lra.
Qed.
Print Assumptions c100_base_one_refuted.

(** ** the hypotheses are met, and a debug build does return: x^5 at -2, (x^2+y)^(-3)*exp(x) at y, x^3/(1+x^2) at 2 *)
Example c100_witness :
  (exists t, taylor_expansion Debug (e_pow (e_var "x") (e_of_i64 5)) (e_var "x") (e_of_i64 (-2)) 6 = Ok (ROk t)) /\
  (exists t, taylor_expansion Debug (e_mul (e_pow (e_add (e_pow (e_var "x") (e_of_i64 2)) (e_var "y")) (e_of_i64 (-3))) (e_exp (e_var "x")))
     (e_var "x") (e_var "y") 3 = Ok (ROk t)) /\
  (exists t, taylor_expansion Debug (e_div (e_pow (e_var "x") (e_of_i64 3)) (e_add (e_of_i64 1) (e_pow (e_var "x") (e_of_i64 2))))
     (e_var "x") (e_of_i64 2) 3 = Ok (ROk t)) /\
  (forall s, s "y" = 2%R -> bases_fine (upd s "x" 2%R) (e_pow (e_add (e_pow (e_var "x") (e_of_i64 2)) (e_var "y")) (e_of_i64 (-3)))).
Proof.
  split; [eexists; vm_compute; reflexivity|]. split; [eexists; vm_compute; reflexivity|]. split; [eexists; vm_compute; reflexivity|].
  intros s Sy.
  assert (eval (upd s "x" 2%R) (e_pow (e_var "x") (e_of_i64 2)) = Some 4%R) as E4.
  { unfold e_pow. rewrite eval_mk2, eval_at. unfold e_of_i64, e_num. rewrite eval_num, num_R_int. cbn [obind ev2].
    change 2%Z with (Z.of_nat 2). rewrite powR_nat by (cbn; lra). f_equal. cbn. lra. }
  intros u b S. inversion S as [|? ? ? c I S']; subst.
  - exists 6%R. split; [|lra]. unfold e_add. rewrite eval_mk2, E4. cbn [eval e_var upd]. cbn [obind]. change (upd s "x" 2%R "y") with (s "y").
    rewrite Sy. cbn [obind ev2]. f_equal. lra.
  - destruct I as [<-|[<-|[]]]; [|inversion S' as [|? ? ? c I S'']; subst; destruct I].
    inversion S' as [|? ? ? c I S'']; subst. destruct I as [<-|[<-|[]]].
    + inversion S'' as [|? ? ? c I S3]; subst; [exists 2%R; rewrite eval_at; split; [reflexivity|lra]|].
      destruct I as [<-|[<-|[]]]; inversion S3 as [|? ? ? c I S4]; subst; destruct I.
    + inversion S'' as [|? ? ? c I S3]; subst; destruct I.
Qed.
