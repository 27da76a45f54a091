(** * ShapeProofs: renaming, size and depth *)
From Coq Require Import ZArith List String Bool Lia.
From Verif Require Import Base Float Rational SmartNum Ast Compute Limit Spec SpecTree SpecShape.
From Verif Require Import BaseProofs TreeProofs TreeProofs2 TreeProofs3.
Import ListNotations.
Open Scope res_scope.

(** ** renaming *)
Lemma on_ok_bind {A B C} (f : B -> C) (r : res A) (k : A -> res B) :
  on_ok f (let* x := r in k x) = let* x := r in on_ok f (k x).
Proof. destruct r; reflexivity. Qed.
Lemma bind_on_ok {A B C} (f : A -> B) (r : res A) (k : B -> res C) :
  (let* x := on_ok f r in k x) = let* x := r in k (f x).
Proof. destruct r; reflexivity. Qed.
Lemma bind_ext {A B} (r : res A) (k k' : A -> res B) : (forall x, k x = k' x) -> bind r k = bind r k'.
Proof. intros H. destruct r; cbn; auto. Qed.

Lemma pop_map_eq {A B} (f : A -> B) (l : list A) :
  pop (map f l) = option_map (fun p => (f (fst p), map f (snd p))) (pop l).
Proof.
  destruct (pop l) as [[a rest]|] eqn:E.
  - apply pop_Some in E as ->. rewrite map_app. cbn [map]. rewrite pop_snoc. reflexivity.
  - destruct l as [|a l]; [reflexivity|]. exfalso.
    destruct (exists_last (l := a :: l) ltac:(discriminate)) as (l' & b & K). rewrite K, pop_snoc in E. discriminate.
Qed.
Lemma pop_unwrap_map_eq {A B} (f : A -> B) (l : list A) :
  pop_unwrap (map f l) = on_ok (fun p => (f (fst p), map f (snd p))) (pop_unwrap l).
Proof. unfold pop_unwrap. rewrite pop_map_eq. destruct (pop l) as [[a r]|]; reflexivity. Qed.

Section R.
Context (s : string -> string).
Local Notation ren := (rename s).
Local Notation ok := (on_ok ren).

Lemma ren_num n : ren (e_num n) = e_num n. Proof. reflexivity. Qed.
Lemma ren_is_num e : is_num (ren e) = is_num e. Proof. destruct e as [[op|[n|y]] c]; reflexivity. Qed.
Lemma ren_is_zero e : is_zero (ren e) = is_zero e. Proof. destruct e as [[op|[n|y]] c]; reflexivity. Qed.
Lemma ren_is_one e : is_one (ren e) = is_one e. Proof. destruct e as [[op|[n|y]] c]; reflexivity. Qed.
Lemma ren_snu e : to_smart_num_unwrap (ren e) = to_smart_num_unwrap e.
Proof. destruct e as [[op|[n|y]] c]; reflexivity. Qed.

Lemma eval2_ren rs : eval2 (map ok rs) = on_ok (fun p => (ren (fst p), ren (snd p))) (eval2 rs).
Proof.
  unfold eval2. rewrite pop_unwrap_map_eq, bind_on_ok, on_ok_bind. apply bind_ext. intros [r0 rest]. cbn [fst snd].
  rewrite bind_on_ok, on_ok_bind. apply bind_ext. intros r.
  rewrite pop_unwrap_map_eq, bind_on_ok, on_ok_bind. apply bind_ext. intros [l0 k]. cbn [fst snd].
  rewrite bind_on_ok, on_ok_bind. apply bind_ext. intros l. reflexivity.
Qed.

Ltac bx := repeat first [rewrite bind_on_ok | rewrite on_ok_bind];
  first [apply bind_ext; let x := fresh "x" in intros x | reflexivity].

Lemma eval_rule_ren m t rs : eval_rule m t (map ok rs) = ok (eval_rule m t rs).
Proof.
  destruct t; cbn [eval_rule].
  - unfold neg_eval_rule. rewrite pop_unwrap_map_eq. bx. destruct x as [r0 rest]. cbn [fst snd]. bx.
    rewrite ren_is_num, ren_snu. destruct (is_num x).
    + bx. bx. reflexivity.
    + destruct x as [[op|[n|y]] c]; cbn [rename root child]; try reflexivity.
      destruct (descriptor op); try reflexivity. rewrite pop_unwrap_map_eq. bx. destruct x as [e k]. reflexivity.
  - unfold add_eval_rule. rewrite eval2_ren. bx. destruct x as [l r]. cbn [fst snd].
    rewrite !ren_is_num, !ren_is_zero, !ren_snu. destruct (is_num l && is_num r); [do 3 bx; reflexivity|].
    destruct (is_zero l); [reflexivity|]. destruct (is_zero r); reflexivity.
  - unfold sub_eval_rule. rewrite eval2_ren. bx. destruct x as [l r]. cbn [fst snd].
    rewrite !ren_is_num, !ren_is_zero, !ren_snu. destruct (is_num l && is_num r); [do 3 bx; reflexivity|].
    destruct (is_zero l); [reflexivity|]. destruct (is_zero r); reflexivity.
  - unfold mul_eval_rule. rewrite eval2_ren. bx. destruct x as [l r]. cbn [fst snd].
    rewrite !ren_is_num, !ren_is_zero, !ren_is_one, !ren_snu. destruct (is_num l && is_num r); [do 3 bx; reflexivity|].
    destruct (is_zero l || is_zero r); [reflexivity|]. destruct (is_one l); [reflexivity|]. destruct (is_one r); reflexivity.
  - unfold div_eval_rule. rewrite eval2_ren. bx. destruct x as [l r]. cbn [fst snd].
    rewrite !ren_is_num, !ren_is_zero, !ren_snu. destruct (is_num l && is_num r); [do 3 bx; reflexivity|].
    destruct (is_zero l); reflexivity.
  - unfold sin_eval_rule. rewrite pop_unwrap_map_eq. bx. destruct x as [r0 rest]. cbn [fst snd]. bx.
    destruct x as [[op|[n|y]] c]; cbn [rename root child]; try reflexivity.
    destruct (od_is_zero (Num n) || od_is_pi (Num n)); reflexivity.
  - unfold cos_eval_rule. rewrite pop_unwrap_map_eq. bx. destruct x as [r0 rest]. cbn [fst snd]. bx.
    destruct x as [[op|[n|y]] c]; cbn [rename root child]; try reflexivity.
    destruct (od_is_zero (Num n) || od_is_pi (Num n)); reflexivity.
  - unfold exp_eval_rule. rewrite pop_unwrap_map_eq. bx. destruct x as [r0 rest]. cbn [fst snd]. bx.
    destruct x as [[op|[n|y]] c]; cbn [rename root child]; try reflexivity.
    + destruct (descriptor op); try reflexivity. rewrite pop_unwrap_map_eq. bx. destruct x as [e k]. reflexivity.
    + destruct (sn_is_zero n); [reflexivity|]. destruct (sn_is_one n); reflexivity.
  - unfold ln_eval_rule. rewrite pop_unwrap_map_eq. bx. destruct x as [r0 rest]. cbn [fst snd]. bx.
    destruct x as [[op|[n|y]] c]; cbn [rename root child]; try reflexivity.
    + destruct (descriptor op); try reflexivity. rewrite pop_unwrap_map_eq. bx. destruct x as [e k]. reflexivity.
    + destruct (sn_is_e n); [reflexivity|]. destruct (sn_is_one n); reflexivity.
  - unfold pow_eval_rule. rewrite eval2_ren. bx. destruct x as [l r]. cbn [fst snd].
    destruct l as [[op|[n|y]] c]; cbn [rename root child]; try reflexivity.
    + destruct (descriptor op); try reflexivity. rewrite pop_unwrap_map_eq. bx. destruct x as [e k]. reflexivity.
    + destruct (sn_is_zero n); [reflexivity|]. destruct (sn_is_one n); reflexivity.
Qed.

Lemma agg_ren m e : num_aggregate m (ren e) = ok (num_aggregate m e).
Proof.
  induction e as [r c IH] using expr_ind'. destruct r as [op|[n|y]]; [|reflexivity|reflexivity].
  cbn [rename num_aggregate]. rewrite <- eval_rule_ren. f_equal. rewrite !map_map.
  apply map_ext_Forall. exact IH.
Qed.

Lemma to_variable_ren e : to_variable (ren e) = option_map s (to_variable e).
Proof. destruct e as [[op|[n|y]] c]; reflexivity. Qed.

Context (Hs : injective s).
Lemma eqb_ren y z : String.eqb (s y) (s z) = String.eqb y z.
Proof.
  destruct (String.eqb_spec y z) as [->|N]; [apply String.eqb_refl|].
  apply String.eqb_neq. intros K. apply N, Hs, K.
Qed.
Lemma subst_ren x v e : subst (s x) (ren v) (ren e) = ren (subst x v e).
Proof.
  induction e as [r c IH] using expr_ind'. destruct r as [op|[n|y]].
  - cbn [rename subst]. f_equal. rewrite !map_map. apply map_ext_Forall. exact IH.
  - reflexivity.
  - cbn [rename subst]. rewrite eqb_ren. destruct (String.eqb y x); reflexivity.
Qed.

Local Notation okd := (fun d : dchild => (ren (fst d), ok (snd d))).
Lemma pop2_ren (cs : list dchild) : pop2 (map okd cs) = on_ok (fun p => (okd (fst p), okd (snd p))) (pop2 cs).
Proof.
  unfold pop2. rewrite pop_unwrap_map_eq, bind_on_ok, on_ok_bind. apply bind_ext. intros [r0 rest]. cbn [fst snd].
  rewrite pop_unwrap_map_eq, bind_on_ok, on_ok_bind. apply bind_ext. intros [l0 k]. reflexivity.
Qed.
Lemma derivative_rule_ren t cs : derivative_rule t (map okd cs) = ok (derivative_rule t cs).
Proof.
  destruct t; cbn [derivative_rule].
  - unfold neg_derivative_rule. rewrite pop_unwrap_map_eq. bx. destruct x as [[a da] k]. cbn [fst snd]. bx. reflexivity.
  - unfold add_derivative_rule. rewrite pop_unwrap_map_eq. bx. destruct x as [[a da] k]. cbn [fst snd]. bx.
    rewrite pop_unwrap_map_eq. bx. destruct x0 as [[b db] k']. cbn [fst snd]. bx. reflexivity.
  - unfold sub_derivative_rule. rewrite pop_unwrap_map_eq. bx. destruct x as [[a da] k]. cbn [fst snd]. bx.
    rewrite pop_unwrap_map_eq. bx. destruct x0 as [[b db] k']. cbn [fst snd]. bx. reflexivity.
  - unfold mul_derivative_rule. rewrite pop2_ren. bx. destruct x as [[a da] [b db]]. cbn [fst snd]. bx. bx. reflexivity.
  - unfold div_derivative_rule. rewrite pop2_ren. bx. destruct x as [[a da] [b db]]. cbn [fst snd]. bx. bx. reflexivity.
  - unfold sin_derivative_rule. rewrite pop_unwrap_map_eq. bx. destruct x as [[a da] k]. cbn [fst snd]. bx. reflexivity.
  - unfold cos_derivative_rule. rewrite pop_unwrap_map_eq. bx. destruct x as [[a da] k]. cbn [fst snd]. bx. reflexivity.
  - unfold exp_derivative_rule. rewrite pop_unwrap_map_eq. bx. destruct x as [[a da] k]. cbn [fst snd]. bx. reflexivity.
  - unfold ln_derivative_rule. rewrite pop_unwrap_map_eq. bx. destruct x as [[a da] k]. cbn [fst snd]. bx. reflexivity.
  - unfold pow_derivative_rule. rewrite pop2_ren. bx. destruct x as [[a da] [b db]]. cbn [fst snd]. bx. bx. reflexivity.
Qed.

Lemma deriv_ren m x e : deriv m (s x) (ren e) = ok (deriv m x e).
Proof.
  induction e as [r c IH] using expr_ind'. destruct r as [op|[n|y]].
  - cbn [rename deriv]. rewrite on_ok_bind.
    replace (map (fun ch => (ch, deriv m (s x) ch)) (map ren c)) with (map okd (map (fun ch => (ch, deriv m x ch)) c)).
    + rewrite derivative_rule_ren, bind_on_ok. apply bind_ext. intros raw. apply agg_ren.
    + rewrite !map_map. apply map_ext_Forall. eapply Forall_impl; [|exact IH]. intros a H. cbn [fst snd]. rewrite H. reflexivity.
  - reflexivity.
  - cbn [rename deriv]. rewrite eqb_ren. destruct (String.eqb x y); reflexivity.
Qed.

Lemma taylor_loop_ren m x at_ : forall n k f r coef,
  taylor_loop m (s x) (ren at_) n k f (ren r) (map ren coef) =
  on_ok (fun p => (map ren (fst p), ren (snd p))) (taylor_loop m x at_ n k f r coef).
Proof.
  induction n as [|n IH]; intros k f r coef; [reflexivity|]. cbn [taylor_loop].
  bx. bx. rewrite subst_ren, agg_ren. bx.
  change (e_div (ren x2) (e_num x1)) with (ren (e_div x2 (e_num x1))). rewrite agg_ren. bx.
  rewrite deriv_ren. bx. rewrite <- IH. f_equal. rewrite map_app. reflexivity.
Qed.

(** ** limit *)
Local Notation okl := (on_ok (on_result (rename_limit s) (fun e : no_limit => e))).
Lemma l_neg_ren a : l_neg (rename_limit s a) = rename_limit s (l_neg a).
Proof. destruct a; reflexivity. Qed.
Lemma l_add_ren a b : l_add (rename_limit s a) (rename_limit s b) = on_result (rename_limit s) (fun e => e) (l_add a b).
Proof. destruct a, b; reflexivity. Qed.
Lemma l_mul_ren a b : l_mul (rename_limit s a) (rename_limit s b) = on_result (rename_limit s) (fun e => e) (l_mul a b).
Proof. destruct a, b; reflexivity. Qed.
Lemma l_div_ren a b : l_div (rename_limit s a) (rename_limit s b) = on_result (rename_limit s) (fun e => e) (l_div a b).
Proof.
  destruct a, b; cbn [l_div rename_limit]; rewrite ?ren_is_zero; try reflexivity.
  all: match goal with |- context [is_zero ?e] => destruct (is_zero e); reflexivity end.
Qed.
Lemma lim_is_zero_ren a : lim_is_zero (rename_limit s a) = lim_is_zero a.
Proof. destruct a; try reflexivity. apply ren_is_zero. Qed.

Lemma neg_limit_ren e : neg_limit_expr_rule (ren e) = on_ok (rename_limit s) (neg_limit_expr_rule e).
Proof.
  induction e as [r c IH] using expr_ind'. cbn [rename neg_limit_expr_rule].
  replace (map neg_limit_expr_rule (map ren c)) with (map (on_ok (rename_limit s)) (map neg_limit_expr_rule c)).
  - rewrite pop_unwrap_map_eq. bx. destruct x as [r0 k]. cbn [fst snd]. bx. rewrite l_neg_ren. reflexivity.
  - rewrite !map_map. apply map_ext_Forall. eapply Forall_impl; [|exact IH]. intros a H. cbn beta. rewrite H. reflexivity.
Qed.

Lemma qbind_ren (r : res lres) (f g : lexpr -> res lres) :
  (forall z, f (rename_limit s z) = okl (g z)) -> (let? z := okl r in f z) = okl (let? z := r in g z).
Proof. intros H. unfold qbind. destruct r as [[z|e]| | |]; cbn [on_ok bind on_result]; auto. Qed.

Section L.
Context (m : mode) (x : string) (to : expr) (ord : Z) (lim lim' : expr -> res lres).
Context (HL : forall e, lim' (ren e) = okl (lim e)).
Lemma add_limit_ren e : add_limit_expr_rule lim' (ren e) = okl (add_limit_expr_rule lim e).
Proof.
  unfold add_limit_expr_rule. destruct e as [r c]. cbn [rename child].
  rewrite pop_unwrap_map_eq. bx. destruct x0 as [b k]. cbn [fst snd].
  rewrite pop_unwrap_map_eq. bx. destruct x0 as [a k']. cbn [fst snd].
  rewrite HL. apply qbind_ren. intros lb. rewrite HL. apply qbind_ren. intros la.
  rewrite l_add_ren. destruct (l_add la lb) as [z|[]]; [reflexivity|]. cbn [on_result]. rewrite <- HL. reflexivity.
Qed.
Lemma sub_limit_ren e : sub_limit_expr_rule lim' (ren e) = okl (sub_limit_expr_rule lim e).
Proof.
  unfold sub_limit_expr_rule. destruct e as [r c]. cbn [rename child].
  rewrite pop_unwrap_map_eq. bx. destruct x0 as [b k]. cbn [fst snd].
  rewrite pop_unwrap_map_eq. bx. destruct x0 as [a k']. cbn [fst snd]. rewrite <- HL. reflexivity.
Qed.
Lemma mul_limit_ren e : mul_limit_expr_rule lim' (ren e) = okl (mul_limit_expr_rule lim e).
Proof.
  unfold mul_limit_expr_rule. destruct e as [r c]. cbn [rename child].
  rewrite pop_unwrap_map_eq. bx. destruct x0 as [b k]. cbn [fst snd].
  rewrite pop_unwrap_map_eq. bx. destruct x0 as [a k']. cbn [fst snd].
  rewrite HL. apply qbind_ren. intros lb. rewrite HL. apply qbind_ren. intros la.
  rewrite l_mul_ren, lim_is_zero_ren. destruct (l_mul la lb) as [z|[]]; [reflexivity|]. cbn [on_result].
  destruct (lim_is_zero lb); rewrite <- HL; reflexivity.
Qed.
Lemma div_loop_ren : forall n l r, div_loop m (s x) lim' n (ren l) (ren r) = okl (div_loop m x lim n l r).
Proof.
  induction n as [|n IH]; intros l r; [reflexivity|]. cbn [div_loop].
  rewrite HL. apply qbind_ren. intros la. rewrite HL. apply qbind_ren. intros lb.
  rewrite l_div_ren. destruct (l_div la lb) as [z|[]]; [reflexivity|]. cbn [on_result].
  rewrite !deriv_ren. bx. rewrite ?deriv_ren. bx. apply IH.
Qed.
Lemma div_limit_ren e : div_limit_expr_rule m (s x) ord lim' (ren e) = okl (div_limit_expr_rule m x ord lim e).
Proof.
  unfold div_limit_expr_rule. destruct e as [r c]. cbn [rename child].
  rewrite pop_unwrap_map_eq. bx. destruct x0 as [b k]. cbn [fst snd].
  rewrite pop_unwrap_map_eq. bx. destruct x0 as [a k']. cbn [fst snd]. apply div_loop_ren.
Qed.
Lemma subst_limit_ren e : subst_limit m (s x) (ren to) (ren e) = okl (subst_limit m x to e).
Proof.
  unfold subst_limit. rewrite subst_ren, agg_ren. bx. rewrite ren_is_zero. cbn [on_ok on_result].
  destruct (is_zero x0); reflexivity.
Qed.
Lemma sin_limit_ren e : sin_limit_expr_rule m (s x) (ren to) (ren e) = okl (sin_limit_expr_rule m x to e).
Proof. unfold sin_limit_expr_rule. rewrite ren_is_zero. destruct (is_zero to); [reflexivity|apply subst_limit_ren]. Qed.
Lemma limit_rule_ren e : limit_rule m (s x) (ren to) ord lim' (ren e) = okl (limit_rule m x to ord lim e).
Proof.
  unfold limit_rule. destruct e as [[op|[n|y]] c]; cbn [rename root].
  - change (Expr (Operator op) (map ren c)) with (ren (Expr (Operator op) c)).
    destruct (descriptor op).
    + rewrite neg_limit_ren. bx. reflexivity.
    + apply add_limit_ren.
    + apply sub_limit_ren.
    + apply mul_limit_ren.
    + apply div_limit_ren.
    + apply sin_limit_ren.
    + apply subst_limit_ren.
    + reflexivity.
    + reflexivity.
    + reflexivity.
  - reflexivity.
  - rewrite eqb_ren, ren_is_zero. destruct (String.eqb y x); [destruct (is_zero to)|]; reflexivity.
Qed.
End L.
Lemma limit_var_ren m x to ord : forall fuel e,
  limit_var fuel m (s x) (ren to) ord (ren e) = okl (limit_var fuel m x to ord e).
Proof.
  induction fuel as [|f IH]; intros e; [reflexivity|]. cbn [limit_var].
  rewrite (limit_rule_ren m x to ord _ _ (IH) e). apply qbind_ren. intros [| | |z]; try reflexivity.
  cbn [rename_limit]. rewrite agg_ren. bx. reflexivity.
Qed.
End R.

(** ** size and depth *)
Open Scope nat_scope.
Lemma size_mk1 t a : size (mk1 t a) = S (size a).
Proof. cbn. lia. Qed.
Lemma size_mk2 t a b : size (mk2 t a b) = S (size a + size b).
Proof. cbn. lia. Qed.
Lemma size_1 e : 1 <= size e. Proof. destruct e. cbn. lia. Qed.
Lemma depth_mk1 t a : depth (mk1 t a) = S (depth a).
Proof. cbn. lia. Qed.
Lemma depth_mk2 t a b : depth (mk2 t a b) = S (Nat.max (depth a) (depth b)).
Proof. cbn. lia. Qed.
Lemma depth_1 e : 1 <= depth e. Proof. destruct e. cbn. lia. Qed.
Lemma list_max_snoc l a : list_max (l ++ [a]) = Nat.max (list_max l) a.
Proof. rewrite list_max_app. cbn. lia. Qed.
Lemma depth_last op r c : depth c < depth (Expr op (r ++ [c])).
Proof. cbn [depth]. rewrite map_app. cbn [map]. rewrite list_max_snoc. lia. Qed.
Lemma depth_num n c : 1 <= depth (Expr (Operand (Num n)) c).
Proof. apply depth_1. Qed.

Lemma ar1_depth m t a z : ar1 m t a z -> depth z <= S (depth a).
Proof.
  intros H. inversion H; subst;
    repeat match goal with |- context [Expr ?o (?r ++ [z])] => pose proof (depth_last o r z); clear H end;
    try (unfold e_neg, e_sin, e_cos, e_exp, e_ln; rewrite depth_mk1; lia);
    try (cbn; lia); lia.
Qed.
Lemma ar2_depth m t a b z : ar2 m t a b z -> depth z <= S (Nat.max (depth a) (depth b)).
Proof.
  intros H. pose proof (depth_1 a). pose proof (depth_1 b). inversion H; subst;
    repeat match goal with |- context [Expr ?o (?r ++ [z])] => pose proof (depth_last o r z); clear H end;
    try (unfold e_neg, e_add, e_sub, e_mul, e_div, e_pow; rewrite ?depth_mk1, ?depth_mk2; lia);
    try (cbn; lia); lia.
Qed.
Lemma agg_depth m e : wf e -> forall z, num_aggregate m e = Ok z -> depth z <= depth e.
Proof.
  intros W. pattern e. revert e W. apply wf_ind1.
  - intros n _ z [= <-]. lia.
  - intros y z [= <-]. lia.
  - intros t a Ht Wa IH z H. apply agg_wf_inv in H as [[K _]|[(t' & a1 & a' & Ht' & E & _ & H & R)|(t' & a1 & b1 & l & r & Ht' & E & _)]];
      [discriminate| |destruct t, t'; discriminate|apply wf_mk1; assumption].
    injection E as Et <-. apply ar1_depth in R. apply IH in H. rewrite depth_mk1. lia.
  - intros t a b Ht Wa Wb IHa IHb z H. apply agg_wf_inv in H as [[K _]|[(t' & a1 & a' & Ht' & E & _)|(t' & a1 & b1 & l & r & Ht' & E & _ & _ & H1 & H2 & R)]];
      [discriminate|destruct t, t'; discriminate| |apply wf_mk2; assumption].
    injection E as Et <- <-. apply ar2_depth in R. apply IHa in H1. apply IHb in H2. rewrite depth_mk2. lia.
Qed.

Lemma deriv_size m x e : wf e -> forall d, deriv m x e = Ok d -> size d <= 2 * (size e * size e).
Proof.
  intros W. pattern e. revert e W. apply wf_ind1.
  - intros n _ d [= <-]. cbn. lia.
  - intros y d H. rewrite deriv_var in H. injection H as <-. destruct (String.eqb x y); cbn; lia.
  - intros t a Ht Wa IH d H. rewrite deriv_mk1 in H by exact Ht. inv_bind H. apply IH in Hb. apply agg_size in H.
    pose proof (size_1 a). rewrite size_mk1.
    assert (size (raw1 t a a0) <= size a0 + size a + 3).
    { destruct t; try discriminate; unfold raw1, e_neg, e_mul, e_cos, e_sin, e_exp, e_div; rewrite ?size_mk2, ?size_mk1; lia. }
    nia.
  - intros t a b Ht Wa Wb IHa IHb d H. rewrite deriv_mk2 in H by exact Ht. inv_bind H. inv_bind H.
    apply IHb in Hb. apply IHa in Hb0. apply agg_size in H.
    pose proof (size_1 a). pose proof (size_1 b). rewrite size_mk2.
    assert (size (raw2 t a b a1 a0) <= size a1 + size a0 + 3 * size a + 3 * size b + 7).
    { destruct t; try discriminate; unfold raw2, e_add, e_sub, e_mul, e_div, e_pow, e_ln; rewrite ?size_mk2, ?size_mk1; lia. }
    nia.
Qed.

Lemma deriv_depth m x e : wf e -> forall d, deriv m x e = Ok d -> depth d <= 4 * depth e.
Proof.
  intros W. pattern e. revert e W. apply wf_ind1.
  - intros n _ d [= <-]. cbn. lia.
  - intros y d H. rewrite deriv_var in H. injection H as <-. destruct (String.eqb x y); cbn; lia.
  - intros t a Ht Wa IH d H. rewrite deriv_mk1 in H by exact Ht. inv_bind H. pose proof (deriv_wf _ _ _ _ Wa Hb) as Wd.
    apply IH in Hb. apply agg_depth in H; [|apply raw1_wf; assumption].
    pose proof (depth_1 a). rewrite depth_mk1.
    assert (depth (raw1 t a a0) <= Nat.max (depth a0) (depth a) + 4).
    { destruct t; try discriminate; unfold raw1, e_neg, e_mul, e_cos, e_sin, e_exp, e_div; rewrite ?depth_mk2, ?depth_mk1; lia. }
    lia.
  - intros t a b Ht Wa Wb IHa IHb d H. rewrite deriv_mk2 in H by exact Ht. inv_bind H. inv_bind H.
    pose proof (deriv_wf _ _ _ _ Wb Hb) as Wdb. pose proof (deriv_wf _ _ _ _ Wa Hb0) as Wda.
    apply IHb in Hb. apply IHa in Hb0. apply agg_depth in H; [|apply raw2_wf; assumption].
    pose proof (depth_1 a). pose proof (depth_1 b). rewrite depth_mk2.
    assert (depth (raw2 t a b a1 a0) <= Nat.max (Nat.max (depth a1) (depth a0)) (Nat.max (depth a) (depth b)) + 4).
    { destruct t; try discriminate; unfold raw2, e_add, e_sub, e_mul, e_div, e_pow, e_ln; rewrite ?depth_mk2, ?depth_mk1; lia. }
    lia.
Qed.
