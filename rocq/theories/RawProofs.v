(** * RawProofs: the operations commute with [prune] (C71) *)
From Coq Require Import List String ZArith Bool Lia.
From Verif Require Import Base Float Rational SmartNum Ast Compute Limit Display Spec SpecTree SpecRaw.
From Verif Require Import BaseProofs TreeProofs TreeProofs2.
Import ListNotations.
Open Scope res_scope.
Open Scope list_scope.

Lemma list_cases {A} (c : list A) : c = [] \/ (exists a, c = [a]) \/ exists pre a b, c = pre ++ [a; b].
Proof.
  destruct (rev c) as [|b [|a pre]] eqn:E; apply (f_equal (@rev A)) in E; rewrite rev_involutive in E.
  - left. exact E.
  - right; left. exists b. exact E.
  - right; right. exists (rev pre), a, b. rewrite E. cbn [rev]. now rewrite <- app_assoc.
Qed.
Lemma lastn1 {A} pre (a : A) : lastn 1 (pre ++ [a]) = [a].
Proof.
  unfold lastn. rewrite app_length. cbn [List.length].
  replace (List.length pre + 1 - 1)%nat with (List.length pre) by lia.
  rewrite skipn_app, skipn_all, Nat.sub_diag. reflexivity.
Qed.
Lemma lastn2 {A} pre (a b : A) : lastn 2 (pre ++ [a; b]) = [a; b].
Proof.
  unfold lastn. rewrite app_length. cbn [List.length].
  replace (List.length pre + 2 - 2)%nat with (List.length pre) by lia.
  rewrite skipn_app, skipn_all, Nat.sub_diag. reflexivity.
Qed.
Lemma snoc2 {A} pre (a b : A) : pre ++ [a; b] = (pre ++ [a]) ++ [b].
Proof. now rewrite <- app_assoc. Qed.
Lemma popu_snoc {A} pre (a : A) : pop_unwrap (pre ++ [a]) = Ok (a, pre).
Proof. unfold pop_unwrap. now rewrite pop_snoc. Qed.

Lemma arity12 t : arity t = 1%nat \/ arity t = 2%nat.
Proof. destruct t; auto. Qed.

(** pruned shapes *)
Lemma prune_un op pre a : arity (descriptor op) = 1%nat ->
  prune (Expr (Operator op) (pre ++ [a])) = mk1 (descriptor op) (prune a).
Proof. intros E. cbn [prune]. rewrite E, map_app. cbn [map]. now rewrite lastn1. Qed.
Lemma prune_bin op pre a b : arity (descriptor op) = 2%nat ->
  prune (Expr (Operator op) (pre ++ [a; b])) = mk2 (descriptor op) (prune a) (prune b).
Proof. intros E. cbn [prune]. rewrite E, map_app. cbn [map]. now rewrite lastn2. Qed.
Lemma prune_mk1 t a : arity t = 1%nat -> prune (mk1 t a) = mk1 t (prune a).
Proof. intros E. destruct t; try discriminate E; reflexivity. Qed.
Lemma prune_mk2 t a b : arity t = 2%nat -> prune (mk2 t a b) = mk2 t (prune a) (prune b).
Proof. intros E. destruct t; try discriminate E; reflexivity. Qed.

Lemma lift_prune p e : lift_od p (prune e) = lift_od p e.
Proof. destruct e as [[op|o] c]; reflexivity. Qed.
Lemma tsn_prune e : to_smart_num (prune e) = to_smart_num e.
Proof. destruct e as [[op|o] c]; reflexivity. Qed.
Lemma tov_prune e : to_variable (prune e) = to_variable e.
Proof. destruct e as [[op|[n|v]] c]; reflexivity. Qed.

Lemma on_ok_bind {A B} (f : B -> B) (r : res A) k :
  on_ok f (bind r k) = bind r (fun x => on_ok f (k x)).
Proof. destruct r; reflexivity. Qed.
Lemma bind_on_ok {A B C} (g : A -> B) (r : res A) (k : B -> res C) :
  bind (on_ok g r) k = bind r (fun x => k (g x)).
Proof. destruct r; reflexivity. Qed.
Lemma bind_ext {A B} (r : res A) (k k' : A -> res B) : (forall x, r = Ok x -> k x = k' x) ->
  bind r k = bind r k'.
Proof. destruct r; intros H; auto. apply H; reflexivity. Qed.

(** popping the only operand of a unary operator *)
Lemma pop_child_prune op c : arity (descriptor op) = 1%nat ->
  bind (pop_unwrap (child (prune (Expr (Operator op) c)))) (fun p => let (x, _) := p in Ok x)
  = on_ok prune (bind (pop_unwrap c) (fun p => let (x, _) := p in Ok x)).
Proof.
  intros E. destruct c as [|x c'] using rev_ind.
  - cbn [prune map]. rewrite E. reflexivity.
  - clear IHc'. rewrite prune_un by exact E. rewrite popu_snoc. reflexivity.
Qed.

Ltac rt sub := destruct sub as [[[?s ?p ?d]|[?n|?v]] ?c].

Lemma rule_un m t r : arity t = 1%nat ->
  eval_rule m t [on_ok prune r] = on_ok prune (eval_rule m t [r]).
Proof.
  intros At. destruct r as [sub| | |]; try (destruct t; try discriminate At; reflexivity).
  destruct t; try discriminate At; cbn [eval_rule]; unfold neg_eval_rule, sin_eval_rule, cos_eval_rule,
    exp_eval_rule, ln_eval_rule, pop_unwrap; cbn [pop bind on_ok].
  - unfold is_num, to_smart_num_unwrap. rewrite lift_prune, tsn_prune. rt sub.
    + destruct d; try reflexivity. cbn [root prune lift_od descriptor gen_op].
      exact (pop_child_prune (mkOp s p ONeg) c eq_refl).
    + cbn [lift_od root od_is_num to_smart_num bind]. destruct (sn_neg m n); reflexivity.
    + reflexivity.
  - rt sub; try reflexivity. cbn [prune root]. destruct (od_is_zero (Num n) || od_is_pi (Num n)); reflexivity.
  - rt sub; try reflexivity. cbn [prune root]. destruct (od_is_zero (Num n) || od_is_pi (Num n)); reflexivity.
  - rt sub.
    + destruct d; try reflexivity. exact (pop_child_prune (mkOp s p OLn) c eq_refl).
    + cbn [prune root]. destruct (sn_is_zero n); [reflexivity|]. destruct (sn_is_one n); reflexivity.
    + reflexivity.
  - rt sub.
    + destruct d; try reflexivity. exact (pop_child_prune (mkOp s p OExp) c eq_refl).
    + cbn [prune root]. destruct (sn_is_e n); [reflexivity|]. destruct (sn_is_one n); reflexivity.
    + reflexivity.
Qed.

Lemma rule_bin m t a b : arity t = 2%nat ->
  eval_rule m t [on_ok prune a; on_ok prune b] = on_ok prune (eval_rule m t [a; b]).
Proof.
  intros At. destruct b as [r| | |]; try (destruct t; try discriminate At; reflexivity).
  destruct a as [l| | |]; try (destruct t; try discriminate At; reflexivity).
  destruct t; try discriminate At; cbn [eval_rule]; unfold add_eval_rule, sub_eval_rule, mul_eval_rule,
    div_eval_rule, pow_eval_rule, eval2, pop_unwrap; cbn [pop bind on_ok];
    unfold is_num, is_zero, is_one, to_smart_num_unwrap; rewrite ?lift_prune, ?tsn_prune.
  1-4: destruct (lift_od od_is_num l && lift_od od_is_num r);
    [destruct (to_smart_num l); [|reflexivity]; destruct (to_smart_num r); [|reflexivity]; cbn [bind];
     match goal with |- bind ?z _ = _ => destruct z; reflexivity end|].
  - destruct (lift_od od_is_zero l); [reflexivity|]. destruct (lift_od od_is_zero r); reflexivity.
  - destruct (lift_od od_is_zero l); [reflexivity|]. destruct (lift_od od_is_zero r); reflexivity.
  - destruct (lift_od od_is_zero l || lift_od od_is_zero r); [reflexivity|].
    destruct (lift_od od_is_one l); [reflexivity|]. destruct (lift_od od_is_one r); reflexivity.
  - destruct (lift_od od_is_zero l); reflexivity.
  - rt l.
    + destruct d; try reflexivity. exact (pop_child_prune (mkOp s p OLn) c eq_refl).
    + cbn [prune root]. destruct (sn_is_zero n); [reflexivity|]. destruct (sn_is_one n); reflexivity.
    + reflexivity.
Qed.

(** the rules only see the last children *)
Lemma rule_last1 m t pre a : arity t = 1%nat -> eval_rule m t (pre ++ [a]) = eval_rule m t [a].
Proof.
  intros At. destruct t; try discriminate At; cbn [eval_rule]; unfold neg_eval_rule, sin_eval_rule, cos_eval_rule,
    exp_eval_rule, ln_eval_rule; rewrite popu_snoc; reflexivity.
Qed.
Lemma eval2_last pre a b : eval2 (pre ++ [a; b]) = eval2 [a; b].
Proof. unfold eval2. rewrite snoc2, popu_snoc. cbn [bind]. rewrite popu_snoc. reflexivity. Qed.
Lemma rule_last2 m t pre a b : arity t = 2%nat -> eval_rule m t (pre ++ [a; b]) = eval_rule m t [a; b].
Proof.
  intros At. destruct t; try discriminate At; cbn [eval_rule]; unfold add_eval_rule, sub_eval_rule, mul_eval_rule,
    div_eval_rule, pow_eval_rule; rewrite eval2_last; reflexivity.
Qed.
Lemma rule_nil m t : eval_rule m t [] = Panic.
Proof. destruct t; reflexivity. Qed.
Lemma rule_short m t a : arity t = 2%nat -> eval_rule m t [a] = bind a (fun _ => Panic).
Proof. intros At. destruct t; try discriminate At; cbn [eval_rule]; unfold add_eval_rule, sub_eval_rule, mul_eval_rule,
    div_eval_rule, pow_eval_rule, eval2, pop_unwrap; cbn [pop bind]; destruct a; reflexivity. Qed.

Lemma agg_node m op c : num_aggregate m (Expr (Operator op) c)
  = eval_rule m (descriptor op) (map (num_aggregate m) c).
Proof. reflexivity. Qed.
Lemma agg_mk m t c : num_aggregate m (Expr (Operator (gen_op t)) c)
  = eval_rule m t (map (num_aggregate m) c).
Proof. destruct t; reflexivity. Qed.

Lemma agg_prune m e : num_aggregate m (prune e) = on_ok prune (num_aggregate m e).
Proof.
  induction e as [r c IH] using expr_ind'. destruct r as [op|o]; [|reflexivity].
  rewrite agg_node. cbn [prune]. rewrite agg_mk.
  destruct (arity12 (descriptor op)) as [At|At]; rewrite At.
  - destruct c as [|a c'] using rev_ind; [cbn [map lastn skipn List.length Nat.sub]; now rewrite !rule_nil|]. clear IHc'.
    rewrite !map_app. cbn [map]. rewrite lastn1. cbn [map]. rewrite (rule_last1 m _ _ _ At).
    apply Forall_app in IH as [_ IH]. inversion IH; subst. rewrite H1. now apply rule_un.
  - destruct (list_cases c) as [-> | [(a & ->) | (pre & a & b & ->)]].
    + cbn [map lastn skipn List.length Nat.sub]. now rewrite !rule_nil.
    + cbn [map]. unfold lastn. cbn [List.length Nat.sub skipn map]. inversion IH; subst.
      rewrite !(rule_short m _ _ At), H1. destruct (num_aggregate m a); reflexivity.
    + rewrite !map_app. cbn [map]. rewrite lastn2. cbn [map]. rewrite (rule_last2 m _ _ _ _ At).
      apply Forall_app in IH as [_ IH]. inversion IH as [|? ? Ha IH2]; subst. inversion IH2 as [|? ? Hb _]; subst.
      rewrite Ha, Hb. now apply rule_bin.
Qed.

Lemma subst_prune u v e : subst u (prune v) (prune e) = prune (subst u v e).
Proof.
  induction e as [r c IH] using expr_ind'. destruct r as [op|[n|w]]; [|reflexivity|].
  - cbn [prune subst]. f_equal. unfold lastn. rewrite <- skipn_map, !map_length, !map_map. f_equal.
    apply map_ext_in. intros a Ha. rewrite Forall_forall in IH. now apply IH.
  - cbn [prune subst]. destruct (String.eqb w u); reflexivity.
Qed.

(** derivative rules *)
Definition dpr (d : dchild) : dchild := (prune (fst d), on_ok prune (snd d)).

Lemma drule_un t d : arity t = 1%nat ->
  derivative_rule t [dpr d] = on_ok prune (derivative_rule t [d]).
Proof. intros At. destruct d as [u du], t; try discriminate At; destruct du; reflexivity. Qed.
Lemma drule_bin t d d' : arity t = 2%nat ->
  derivative_rule t [dpr d; dpr d'] = on_ok prune (derivative_rule t [d; d']).
Proof. intros At. destruct d as [u du], d' as [v dv], t; try discriminate At; destruct dv, du; reflexivity. Qed.
Lemma drule_last1 t pre a : arity t = 1%nat -> derivative_rule t (pre ++ [a]) = derivative_rule t [a].
Proof.
  intros At. destruct t; try discriminate At; cbn [derivative_rule]; unfold neg_derivative_rule,
    sin_derivative_rule, cos_derivative_rule, exp_derivative_rule, ln_derivative_rule;
    rewrite popu_snoc; reflexivity.
Qed.
Lemma drule_last2 t pre a b : arity t = 2%nat -> derivative_rule t (pre ++ [a; b]) = derivative_rule t [a; b].
Proof.
  intros At. destruct t; try discriminate At; cbn [derivative_rule]; unfold add_derivative_rule,
    sub_derivative_rule, mul_derivative_rule, div_derivative_rule, pow_derivative_rule, pop2;
    rewrite snoc2, popu_snoc; destruct a as [a da], b as [b db]; cbn [bind];
    try (rewrite popu_snoc; reflexivity); destruct db; try reflexivity; cbn [bind];
    rewrite popu_snoc; reflexivity.
Qed.
Lemma drule_nil t : derivative_rule t [] = Panic.
Proof. destruct t; reflexivity. Qed.
Lemma drule_short t d : arity t = 2%nat ->
  derivative_rule t [dpr d] = on_ok prune (derivative_rule t [d]).
Proof. intros At. destruct d as [u du], t; try discriminate At; destruct du; reflexivity. Qed.

Lemma deriv_node m x op c : deriv m x (Expr (Operator op) c)
  = bind (derivative_rule (descriptor op) (map (fun ch => (ch, deriv m x ch)) c)) (num_aggregate m).
Proof. reflexivity. Qed.
Lemma deriv_gen m x t c : deriv m x (Expr (Operator (gen_op t)) c)
  = bind (derivative_rule t (map (fun ch => (ch, deriv m x ch)) c)) (num_aggregate m).
Proof. destruct t; reflexivity. Qed.

Lemma deriv_prune m x e : deriv m x (prune e) = on_ok prune (deriv m x e).
Proof.
  induction e as [r c IH] using expr_ind'. destruct r as [op|[n|y]]; [|reflexivity|].
  2:{ cbn [prune deriv]. destruct (String.eqb x y); reflexivity. }
  rewrite deriv_node. cbn [prune]. rewrite deriv_gen, on_ok_bind.
  match goal with |- bind ?A _ = bind ?B _ => assert (A = on_ok prune B) as -> end.
  2:{ rewrite bind_on_ok. apply bind_ext. intros z _. apply agg_prune. }
  destruct (arity12 (descriptor op)) as [At|At]; rewrite At.
  - destruct c as [|a c'] using rev_ind; [cbn [map lastn skipn List.length Nat.sub]; now rewrite !drule_nil|]. clear IHc'.
    rewrite !map_app. cbn [map]. rewrite lastn1. cbn [map]. rewrite (drule_last1 _ _ _ At).
    apply Forall_app in IH as [_ IH]. inversion IH; subst. rewrite H1.
    exact (drule_un _ (a, deriv m x a) At).
  - destruct (list_cases c) as [-> | [(a & ->) | (pre & a & b & ->)]].
    + cbn [map lastn skipn List.length Nat.sub]. now rewrite !drule_nil.
    + cbn [map]. unfold lastn. cbn [List.length Nat.sub skipn map]. inversion IH; subst.
      rewrite H1. exact (drule_short _ (a, deriv m x a) At).
    + rewrite !map_app. cbn [map]. rewrite lastn2. cbn [map]. rewrite (drule_last2 _ _ _ _ At).
      apply Forall_app in IH as [_ IH]. inversion IH as [|? ? Ha IH2]; subst. inversion IH2 as [|? ? Hb _]; subst.
      rewrite Ha, Hb. exact (drule_bin _ (a, deriv m x a) (b, deriv m x b) At).
Qed.

(** Taylor *)
Lemma taylor_loop_prune m x at_ n : forall k f r cs,
  taylor_loop m x (prune at_) n k f (prune r) (map prune cs)
  = on_ok (fun p => (map prune (fst p), prune (snd p))) (taylor_loop m x at_ n k f r cs).
Proof.
  induction n as [|n IH]; intros; [reflexivity|]. cbn [taylor_loop].
  destruct (sn_of_u64 m (Z.max k 1)); try reflexivity. cbn [bind].
  destruct (sn_mul m f a) as [f'| | |]; try reflexivity. cbn [bind].
  rewrite subst_prune, agg_prune, bind_on_ok. destruct (num_aggregate m (subst x at_ r)) as [s| | |]; try reflexivity.
  cbn [bind]. assert (e_div (prune s) (e_num f') = prune (e_div s (e_num f'))) as -> by reflexivity.
  rewrite agg_prune, bind_on_ok. destruct (num_aggregate m (e_div s (e_num f'))) as [c| | |]; try reflexivity.
  cbn [bind]. rewrite deriv_prune, bind_on_ok. destruct (deriv m x r) as [r'| | |]; try reflexivity.
  cbn [bind]. rewrite <- IH. f_equal. now rewrite map_app.
Qed.

(** limits *)
Lemma lneg_panics e : neg_limit_expr_rule e = Panic.
Proof.
  induction e as [r c IH] using expr_ind'. cbn [neg_limit_expr_rule].
  destruct c as [|a c'] using rev_ind; [reflexivity|]. clear IHc'. rewrite map_app. cbn [map].
  rewrite popu_snoc. cbn [bind]. apply Forall_app in IH as [_ IH]. inversion IH; subst. now rewrite H1.
Qed.
Lemma ladd_prune a b : l_add (lprune a) (lprune b) = rprune (l_add a b).
Proof. destruct a, b; reflexivity. Qed.
Lemma lmul_prune a b : l_mul (lprune a) (lprune b) = rprune (l_mul a b).
Proof. destruct a, b; reflexivity. Qed.
Lemma ldiv_prune a b : l_div (lprune a) (lprune b) = rprune (l_div a b).
Proof.
  destruct a as [| | |a], b as [| | |b]; try reflexivity; cbn [lprune l_div]; unfold is_zero; rewrite lift_prune;
    match goal with |- context [lift_od ?p ?e] => destruct (lift_od p e); reflexivity end.
Qed.
Lemma lzero_prune a : lim_is_zero (lprune a) = lim_is_zero a.
Proof. destruct a; try reflexivity. apply lift_prune. Qed.

Definition lsim (f g : expr -> res lres) := forall e, g (prune e) = on_ok rprune (f e).

(** two popped operands *)
Lemma pop2_prune {B} op c (k k' : expr -> expr -> res B) (F : B -> B) : arity (descriptor op) = 2%nat ->
  (forall r l, k' (prune r) (prune l) = on_ok F (k r l)) ->
  bind (pop_unwrap (child (prune (Expr (Operator op) c)))) (fun p => let (r, rest) := p in
    bind (pop_unwrap rest) (fun q => let (l, _) := q in k' r l))
  = on_ok F (bind (pop_unwrap c) (fun p => let (r, rest) := p in
    bind (pop_unwrap rest) (fun q => let (l, _) := q in k r l))).
Proof.
  intros At H. destruct (list_cases c) as [-> | [(a & ->) | (pre & a & b & ->)]].
  - cbn [prune map]. rewrite At. reflexivity.
  - cbn [prune map]. rewrite At. reflexivity.
  - rewrite prune_bin by exact At. rewrite snoc2, popu_snoc. cbn [bind]. rewrite popu_snoc. cbn [bind].
    cbn. apply H.
Qed.

Lemma qbind_sim (x y : res lres) (k k' : lexpr -> res lres) : y = on_ok rprune x ->
  (forall z, k' (lprune z) = on_ok rprune (k z)) -> qbind y k' = on_ok rprune (qbind x k).
Proof. intros -> H. unfold qbind. destruct x as [[z|z]| | |]; try reflexivity. cbn. apply H. Qed.

Lemma add_lim_prune f g op c : arity (descriptor op) = 2%nat -> lsim f g ->
  add_limit_expr_rule g (prune (Expr (Operator op) c)) = on_ok rprune (add_limit_expr_rule f (Expr (Operator op) c)).
Proof.
  intros At H. unfold add_limit_expr_rule. refine (pop2_prune op c _ _ rprune At _). intros r l.
  apply qbind_sim; [apply H|]. intros a. apply qbind_sim; [apply H|]. intros b.
  rewrite ladd_prune. destruct (l_add b a); cbn [rprune]; [reflexivity|].
  exact (H (e_div (e_add (e_div l r) e_one) (e_div e_one r))).
Qed.
Lemma sub_lim_prune f g op c : arity (descriptor op) = 2%nat -> lsim f g ->
  sub_limit_expr_rule g (prune (Expr (Operator op) c)) = on_ok rprune (sub_limit_expr_rule f (Expr (Operator op) c)).
Proof.
  intros At H. unfold sub_limit_expr_rule. refine (pop2_prune op c _ _ rprune At _). intros r l.
  exact (H (e_add l (e_neg r))).
Qed.
Lemma mul_lim_prune f g op c : arity (descriptor op) = 2%nat -> lsim f g ->
  mul_limit_expr_rule g (prune (Expr (Operator op) c)) = on_ok rprune (mul_limit_expr_rule f (Expr (Operator op) c)).
Proof.
  intros At H. unfold mul_limit_expr_rule. refine (pop2_prune op c _ _ rprune At _). intros r l.
  apply qbind_sim; [apply H|]. intros a. apply qbind_sim; [apply H|]. intros b.
  rewrite lmul_prune, lzero_prune. destruct (l_mul b a); cbn [rprune]; [reflexivity|].
  destruct (lim_is_zero a); [exact (H (e_div r (e_div e_one l)))|exact (H (e_div l (e_div e_one r)))].
Qed.
Lemma div_loop_prune m x f g n : lsim f g -> forall l r,
  div_loop m x g n (prune l) (prune r) = on_ok rprune (div_loop m x f n l r).
Proof.
  intros H. induction n as [|n IH]; intros l r; [reflexivity|]. cbn [div_loop].
  apply qbind_sim; [apply H|]. intros a. apply qbind_sim; [apply H|]. intros b.
  rewrite ldiv_prune. destruct (l_div a b); cbn [rprune]; [reflexivity|].
  rewrite !deriv_prune. destruct (deriv m x l) as [l'| | |]; try reflexivity. cbn [bind on_ok].
  destruct (deriv m x r) as [r'| | |]; try reflexivity. cbn [bind on_ok]. apply IH.
Qed.
Lemma div_lim_prune m x o f g op c : arity (descriptor op) = 2%nat -> lsim f g ->
  div_limit_expr_rule m x o g (prune (Expr (Operator op) c))
  = on_ok rprune (div_limit_expr_rule m x o f (Expr (Operator op) c)).
Proof.
  intros At H. unfold div_limit_expr_rule. refine (pop2_prune op c _ _ rprune At _). intros r l.
  now apply div_loop_prune.
Qed.
Lemma subst_lim_prune m x to e : subst_limit m x (prune to) (prune e) = on_ok rprune (subst_limit m x to e).
Proof.
  unfold subst_limit. rewrite subst_prune, agg_prune, bind_on_ok, on_ok_bind. apply bind_ext. intros z _.
  unfold is_zero. rewrite lift_prune. cbn [on_ok rprune]. destruct (lift_od od_is_zero z); reflexivity.
Qed.

Lemma root_prune_op op c : root (prune (Expr (Operator op) c)) = Operator (gen_op (descriptor op)).
Proof. reflexivity. Qed.

Lemma limit_prune fuel m x to o : lsim (limit_var fuel m x to o) (limit_var fuel m x (prune to) o).
Proof.
  induction fuel as [|fuel IH]; intros e; [reflexivity|]. cbn [limit_var].
  apply qbind_sim.
  - unfold limit_rule. destruct e as [[op|[n|v]] c]; [|reflexivity|].
    + rewrite root_prune_op. cbn [root].
      assert (descriptor (gen_op (descriptor op)) = descriptor op) as -> by (destruct (descriptor op); reflexivity).
      destruct (descriptor op) eqn:D.
      * now rewrite !lneg_panics.
      * apply add_lim_prune; [now rewrite D|exact IH].
      * apply sub_lim_prune; [now rewrite D|exact IH].
      * apply mul_lim_prune; [now rewrite D|exact IH].
      * apply div_lim_prune; [now rewrite D|exact IH].
      * unfold sin_limit_expr_rule, is_zero. rewrite lift_prune. destruct (lift_od od_is_zero to); [reflexivity|].
        apply subst_lim_prune.
      * apply subst_lim_prune.
      * reflexivity.
      * reflexivity.
      * reflexivity.
    + cbn [prune root]. unfold is_zero. rewrite lift_prune.
      destruct (String.eqb v x); [destruct (lift_od od_is_zero to)|]; reflexivity.
  - intros z. destruct z; try reflexivity. cbn [lprune]. rewrite agg_prune, bind_on_ok, on_ok_bind. reflexivity.
Qed.

(** enough children *)
Lemma wf_prune e : nums_ok e -> enough e -> wf (prune e).
Proof.
  intros N H. revert N. induction H as [o c|op pre a At Ha IH|op pre a b At Ha IHa Hb IHb]; intros N.
  - destruct o as [n|v]; cbn [prune]; [|apply wf_var]. apply wf_num. apply (N n c). constructor.
  - rewrite prune_un by exact At. apply wf_mk1; [exact At|]. apply IH. intros n c S. apply (N n c).
    apply (sub_child _ _ _ a); [|exact S]. apply in_or_app. right. now left.
  - rewrite prune_bin by exact At. apply wf_mk2; [exact At| |].
    + apply IHa. intros n c S. apply (N n c). apply (sub_child _ _ _ a); [|exact S]. apply in_or_app. right. now left.
    + apply IHb. intros n c S. apply (N n c). apply (sub_child _ _ _ b); [|exact S]. apply in_or_app. right. right. now left.
Qed.

Lemma agg_enough m e z : num_aggregate m e = Ok z -> enough e.
Proof.
  revert z. induction e as [r c IH] using expr_ind'. intros z H. destruct r as [op|o]; [|constructor].
  rewrite agg_node in H. destruct (arity12 (descriptor op)) as [At|At].
  - destruct c as [|a c'] using rev_ind; [rewrite rule_nil in H; discriminate|]. clear IHc'.
    apply Forall_app in IH as [_ IH]. inversion IH; subst. apply en_unary; [exact At|].
    rewrite map_app in H. cbn [map] in H. rewrite (rule_last1 m _ _ _ At) in H.
    destruct (num_aggregate m a) as [za| | |] eqn:Ea.
    + exact (H2 _ eq_refl).
    + destruct (descriptor op); try discriminate At; discriminate H.
    + destruct (descriptor op); try discriminate At; discriminate H.
    + destruct (descriptor op); try discriminate At; discriminate H.
  - destruct (list_cases c) as [-> | [(a & ->) | (pre & a & b & ->)]].
    + rewrite rule_nil in H. discriminate.
    + cbn [map] in H. rewrite (rule_short m _ _ At) in H. destruct (num_aggregate m a); discriminate.
    + apply Forall_app in IH as [_ IH]. inversion IH as [|? ? Ha IH2]; subst. inversion IH2 as [|? ? Hb _]; subst.
      rewrite map_app in H. cbn [map] in H. rewrite (rule_last2 m _ _ _ _ At) in H.
      apply en_binary; [exact At| |].
      * destruct (num_aggregate m a) as [za| | |] eqn:Ea; [exact (Ha _ eq_refl)| | |];
          destruct (num_aggregate m b); destruct (descriptor op); try discriminate At; discriminate H.
      * destruct (num_aggregate m b) as [zb| | |] eqn:Eb; [exact (Hb _ eq_refl)| | |];
          destruct (descriptor op); try discriminate At; discriminate H.
Qed.
