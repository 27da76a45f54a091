(** * PropsDepth: C97 -- how much call stack the recursive operations need *)
From Coq Require Import ZArith List String Bool Lia Arith.
From Verif Require Import Base Float Rational SmartNum Ast Compute Limit Direct Depth.
From Verif Require Import Spec SpecTree SpecShape.
From Verif Require Import BaseProofs TreeProofs TreeProofs2 ShapeProofs PropsDirect.
Import ListNotations.
Open Scope nat_scope.
Open Scope res_scope.

(** ** clone *)
Lemma depth_child r c x : In x c -> depth x < depth (Expr r c).
Proof.
  intros H. cbn [depth]. apply (in_map depth) in H.
  pose proof (proj1 (list_max_le (map depth c) _) (Nat.le_refl _)) as F.
  rewrite Forall_forall in F. specialize (F _ H). lia.
Qed.

Lemma clone_go f e : depth e <= f -> s_clone f e = Ok e.
Proof.
  revert e; induction f as [|f IH]; intros [r c] Hs; [cbn [depth] in Hs; lia|].
  cbn [s_clone root child].
  assert (L : forall cs, incl cs c -> s_clone_list (s_clone f) cs = Ok cs).
  { induction cs as [|x cs IHc]; intros Hi; [reflexivity|]. cbn [s_clone_list].
    rewrite IH by (pose proof (depth_child r c x (Hi x (or_introl eq_refl))); lia).
    cbn [bind]. rewrite IHc by (intros y Hy; apply Hi; right; exact Hy). reflexivity. }
  rewrite (L c (incl_refl c)). reflexivity.
Qed.

Lemma list_max_find n l : n < list_max l -> exists x, In x l /\ n < x.
Proof.
  induction l as [|a l IH]; cbn; [lia|]. intros H.
  destruct (Nat.lt_ge_cases n a) as [L|L]; [exists a; auto|].
  destruct IH as (x & Hx & Hn); [unfold list_max; lia|]. exists x; auto.
Qed.

Lemma deep_child r c f : S f < depth (Expr r c) -> exists x, In x c /\ f < depth x.
Proof.
  cbn [depth]. intros H. destruct (list_max_find f (map depth c)) as (n & Hn & L); [lia|].
  apply in_map_iff in Hn as (x & <- & Hx). eauto.
Qed.

Lemma clone_over f e : f < depth e -> s_clone f e = Fuel.
Proof.
  revert e; induction f as [|f IH]; intros [r c] Hs; [reflexivity|].
  destruct (deep_child r c f Hs) as (x & Hx & Lx). cbn [s_clone root child].
  assert (L : forall cs, In x cs -> s_clone_list (s_clone f) cs = Fuel).
  { induction cs as [|y cs IHc]; intros Hi; [destruct Hi|]. cbn [s_clone_list].
    destruct (Nat.lt_ge_cases f (depth y)) as [Hy|Hy]; [rewrite (IH y Hy); reflexivity|].
    rewrite (clone_go f y Hy). cbn [bind]. destruct Hi as [->|Hi]; [lia|].
    rewrite (IHc Hi). reflexivity. }
  rewrite (L c Hx). reflexivity.
Qed.

Theorem c97_clone e f : s_clone f e = (if depth e <=? f then Ok e else Fuel).
Proof.
  destruct (Nat.leb_spec (depth e) f); [apply clone_go; assumption|apply clone_over; assumption].
Qed.

(** ** substitute *)
Lemma subst_dgo f u v e : depth e <= f -> d_subst_var f e u v = Ok (ROk (subst u v e)).
Proof.
  revert e; induction f as [|f IH]; intros [r c] Hs; [cbn [depth] in Hs; lia|].
  assert (Hc : forall x, In x c -> d_subst_var f x u v = Ok (ROk (subst u v x))).
  { intros x Hx. apply IH. pose proof (depth_child r c x Hx). lia. }
  cbn [d_subst_var subst root child ok_or qbind bind].
  destruct r as [op|[n|w]]; [|reflexivity|destruct (String.eqb w u); reflexivity].
  assert (L : forall cs acc, incl cs c ->
    d_sub_loop (fun x => d_subst_var f x u v) cs acc = Ok (ROk (acc ++ map (subst u v) cs)%list)).
  { induction cs as [|x cs IHc]; intros acc Hin; cbn [d_sub_loop map].
    - rewrite app_nil_r. reflexivity.
    - rewrite (Hc x) by (apply Hin; left; reflexivity). unfold qbind at 1. cbn [bind].
      rewrite IHc by (intros y Hy; apply Hin; right; exact Hy).
      rewrite <- app_assoc. reflexivity. }
  rewrite (L c [] (incl_refl c)). reflexivity.
Qed.

Lemma wf_child op c x : wf (Expr (Operator op) c) -> In x c -> wf x.
Proof.
  intros W Hx. inversion W as [| |t c' _ Hc]; subst. rewrite Forall_forall in Hc. apply Hc; exact Hx.
Qed.
Lemma wf_leaf o c : wf (Expr (Operand o) c) -> c = [].
Proof. intros W; inversion W; reflexivity. Qed.

Lemma subst_over f u v e : wf e -> f < depth e -> d_subst_var f e u v = Fuel.
Proof.
  revert e; induction f as [|f IH]; intros [r c] W Hs; [reflexivity|].
  destruct r as [op|o]; [|rewrite (wf_leaf _ _ W) in Hs; cbn in Hs; lia].
  destruct (deep_child _ c f Hs) as (x & Hx & Lx).
  cbn [d_subst_var root child ok_or qbind bind].
  assert (L : forall cs acc, incl cs c -> In x cs -> d_sub_loop (fun x => d_subst_var f x u v) cs acc = Fuel).
  { induction cs as [|y cs IHc]; intros acc Hc Hi; [destruct Hi|]. cbn [d_sub_loop].
    pose proof (wf_child op c y W (Hc y (or_introl eq_refl))) as Wy.
    destruct (Nat.lt_ge_cases f (depth y)) as [Hy|Hy]; [rewrite (IH y Wy Hy); reflexivity|].
    rewrite (subst_dgo f u v y Hy). cbn [bind qbind]. destruct Hi as [->|Hi]; [lia|].
    apply IHc; [intros z Hz; apply Hc; right; exact Hz|exact Hi]. }
  rewrite (L c [] (incl_refl c) Hx). reflexivity.
Qed.

Theorem c97_substitute e u v f : wf e ->
  d_subst_var f e u v = (if depth e <=? f then Ok (ROk (subst u v e)) else Fuel).
Proof.
  intros W. destruct (Nat.leb_spec (depth e) f); [apply subst_dgo; assumption|apply subst_over; assumption].
Qed.

(** the tree that comes back is at most as deep as the two put end to end *)
Theorem c97_substitute_result x v e : S (depth (subst x v e)) <= depth e + depth v.
Proof.
  induction e as [r c IH] using expr_ind'. pose proof (depth_1 v) as D1.
  destruct r as [op|[n|y]]; cbn [subst].
  - cbn [depth].
    assert (list_max (map depth (map (subst x v) c)) <= list_max (map depth c) + depth v - 1).
    { apply list_max_le. rewrite map_map, Forall_map. rewrite Forall_forall in *. intros y Hy.
      specialize (IH y Hy).
      pose proof (proj1 (list_max_le (map depth c) _) (Nat.le_refl _)) as F.
      rewrite Forall_map, Forall_forall in F. specialize (F y Hy). lia. }
    lia.
  - cbn [depth]. lia.
  - destruct (String.eqb y x); cbn [depth]; lia.
Qed.

(** ** num_aggregate *)
Lemma agg_dgo m f e : depth e <= f -> d_aggregate f m e = num_aggregate m e.
Proof.
  revert e; induction f as [|f IH]; intros [r c] Hs; [cbn [depth] in Hs; lia|].
  assert (Hc : forall x, In x c -> d_aggregate f m x = num_aggregate m x).
  { intros x Hx. apply IH. pose proof (depth_child r c x Hx). lia. }
  cbn [d_aggregate num_aggregate root child].
  destruct r as [op|o]; [|reflexivity].
  destruct (descriptor op); cbn [eval_rule];
    unfold d_neg_eval, d_add_eval, d_sub_eval, d_mul_eval, d_div_eval, d_sin_eval, d_cos_eval,
      d_exp_eval, d_ln_eval, d_pow_eval,
      neg_eval_rule, add_eval_rule, sub_eval_rule, mul_eval_rule, div_eval_rule, sin_eval_rule,
      cos_eval_rule, exp_eval_rule, ln_eval_rule, pow_eval_rule, eval2, pop_unwrap;
    rewrite pop_map; destruct (pop c) as [[x c1]|] eqn:P; try reflexivity;
    destruct (pop_in c x c1 P) as [I1 I2]; cbn [bind]; rewrite (Hc x I1);
    destruct (num_aggregate m x) as [y| | |]; try reflexivity; cbn [bind];
    rewrite ?pop_map; try reflexivity;
    (destruct (pop c1) as [[x' c2]|] eqn:P'; try reflexivity;
     destruct (pop_in c1 x' c2 P') as [I3 I4]; cbn [bind]; rewrite (Hc x' (I2 _ I3));
     destruct (num_aggregate m x') as [y'| | |]; reflexivity).
Qed.

(** what a computation that cannot fit on the stack may do: overflow, or (in the checked builds
    only) hit an arithmetic error before it gets that deep *)
Definition over {A} (m : mode) (r : res A) : Prop :=
  match r with Ok _ => False | Panic => m = Debug | Trap => m = Strict | Fuel => True end.

Lemma over_bind {A B} m (r : res A) (f : A -> res B) : over m r -> over m (bind r f).
Proof. destruct r; cbn; tauto. Qed.
Lemma over_bind2 {A B} m (r : res A) (f : A -> res B) :
  safe m r -> (forall a, r = Ok a -> over m (f a)) -> over m (bind r f).
Proof. destruct r; cbn; intros H1 H2; auto; contradiction. Qed.
Lemma over_release {A} (r : res A) : over Release r -> r = Fuel.
Proof. destruct r; cbn; try tauto; discriminate. Qed.

Lemma wf_op_cases op c : wf (Expr (Operator op) c) ->
  (arity (descriptor op) = 1 /\ exists a, c = [a] /\ wf a) \/
  (arity (descriptor op) = 2 /\ exists a b, c = [a; b] /\ wf a /\ wf b).
Proof.
  intros W. destruct (wf_op_inv _ _ W) as (_ & [(Ha & a & -> & Wa)|(Ha & a & b & -> & Wa & Wb)]); eauto 10.
Qed.

Lemma agg_over m f e : wf e -> f < depth e -> over m (d_aggregate f m e).
Proof.
  revert e; induction f as [|f IH]; intros [r c] W Hs; [exact I|].
  destruct r as [op|o]; [|rewrite (wf_leaf _ _ W) in Hs; cbn in Hs; lia].
  cbn [d_aggregate root child].
  destruct (wf_op_cases op c W) as [(Ha & a & -> & Wa)|(Ha & a & b & -> & Wa & Wb)].
  - assert (Da : f < depth a) by (cbn [depth map list_max fold_right] in Hs; lia).
    destruct (descriptor op); try discriminate;
      unfold d_neg_eval, d_sin_eval, d_cos_eval, d_exp_eval, d_ln_eval, pop_unwrap; cbn [pop bind];
      apply over_bind; apply IH; assumption.
  - assert (Dab : f < depth b \/ (depth b <= f /\ f < depth a)) by (cbn [depth map list_max fold_right] in Hs; lia).
    destruct (descriptor op); try discriminate;
      unfold d_add_eval, d_sub_eval, d_mul_eval, d_div_eval, d_pow_eval, pop_unwrap; cbn [pop bind];
      (destruct Dab as [Db|[Db Da]];
       [apply over_bind; apply IH; assumption|
        apply over_bind2; [rewrite (agg_dgo m f b Db); apply agg_safe; assumption|];
        intros y _; cbn [bind]; apply over_bind; apply IH; assumption]).
Qed.

(** [num_aggregate] needs exactly [depth e] nested calls *)
Theorem c97_aggregate e f : wf e ->
  (depth e <= f -> forall m, d_aggregate f m e = num_aggregate m e) /\
  (f < depth e -> d_aggregate f Release e = Fuel /\
                  (d_aggregate f Debug e = Fuel \/ d_aggregate f Debug e = Panic)).
Proof.
  intros W. split.
  - intros H m. apply agg_dgo; assumption.
  - intros H. split; [apply over_release; apply agg_over; assumption|].
    pose proof (agg_over Debug f e W H) as O. destruct (d_aggregate f Debug e); cbn in O; auto; try contradiction; discriminate.
Qed.

(** ** a weighted depth: an operator [t] counts [w t] *)
Fixpoint wdepth (w : optype -> nat) (e : expr) : nat :=
  match e with
  | Expr (Operator op) c => w (descriptor op) + list_max (map (wdepth w) c)
  | Expr (Operand _) c => 1
  end.

Section W.
Variable w : optype -> nat.
Hypothesis wpos : forall t, 1 <= w t.
Hypothesis wneg : w ONeg <= w OSub.
Lemma wd_1 e : 1 <= wdepth w e.
Proof. clear wneg. destruct e as [[op|o] c]; cbn [wdepth]; [pose proof (wpos (descriptor op))|]; lia. Qed.
Lemma wd_mk1 t a : wdepth w (mk1 t a) = w t + wdepth w a.
Proof. clear wpos wneg. unfold mk1. cbn [wdepth map list_max fold_right]. rewrite descriptor_gen. lia. Qed.
Lemma wd_mk2 t a b : wdepth w (mk2 t a b) = w t + Nat.max (wdepth w a) (wdepth w b).
Proof. clear wpos wneg. unfold mk2. cbn [wdepth map list_max fold_right]. rewrite descriptor_gen. lia. Qed.
Lemma wd_last op r c : wdepth w c < wdepth w (Expr (Operator op) (r ++ [c])).
Proof.
  clear wneg. cbn [wdepth]. rewrite map_app. cbn [map]. rewrite list_max_snoc. pose proof (wpos (descriptor op)). lia.
Qed.

Ltac wmk := unfold e_neg, e_sin, e_cos, e_exp, e_ln, e_add, e_sub, e_mul, e_div, e_pow;
  rewrite ?wd_mk2, ?wd_mk1.
Lemma ar1_wd m t a z : ar1 m t a z -> wdepth w z <= w t + wdepth w a.
Proof.
  intros H. pose proof (wd_1 a). pose proof (wpos t). inversion H; subst;
    repeat match goal with |- context [Expr (Operator ?o) (?r ++ [z])] => pose proof (wd_last o r z); clear H end;
    try (wmk; lia); try (cbn [wdepth e_num e_zero e_one e_e e_of_i64]; lia); lia.
Qed.
Lemma ar2_wd m t a b z : ar2 m t a b z -> wdepth w z <= w t + Nat.max (wdepth w a) (wdepth w b).
Proof.
  intros H. pose proof (wd_1 a). pose proof (wd_1 b). pose proof (wpos t). inversion H; subst;
    repeat match goal with |- context [Expr (Operator ?o) (?r ++ [z])] => pose proof (wd_last o r z); clear H end;
    try (wmk; lia); try (cbn [wdepth e_num e_zero e_one e_e e_of_i64]; lia); lia.
Qed.
Lemma agg_wd m e : wf e -> forall z, num_aggregate m e = Ok z -> wdepth w z <= wdepth w e.
Proof.
  intros W. pattern e. revert e W. apply wf_ind1.
  - intros n _ z [= <-]. lia.
  - intros y z [= <-]. lia.
  - intros t a Ht Wa IH z H. apply agg_wf_inv in H as [[K _]|[(t' & a1 & a' & Ht' & E & _ & H & R)|(t' & a1 & b1 & l & r & Ht' & E & _)]];
      [discriminate| |destruct t, t'; discriminate|apply wf_mk1; assumption].
    injection E as Et <-. apply ar1_wd in R. apply IH in H. rewrite wd_mk1.
    apply (f_equal descriptor) in Et. rewrite !descriptor_gen in Et. subst t'. lia.
  - intros t a b Ht Wa Wb IHa IHb z H. apply agg_wf_inv in H as [[K _]|[(t' & a1 & a' & Ht' & E & _)|(t' & a1 & b1 & l & r & Ht' & E & _ & _ & H1 & H2 & R)]];
      [discriminate|destruct t, t'; discriminate| |apply wf_mk2; assumption].
    injection E as Et <- <-. apply ar2_wd in R. apply IHa in H1. apply IHb in H2. rewrite wd_mk2.
    apply (f_equal descriptor) in Et. rewrite !descriptor_gen in Et. subst t'. lia.
Qed.
End W.

(** the weights after one more derivative *)
Definition wnext (w : optype -> nat) (t : optype) : nat :=
  match t with
  | ONeg => w ONeg
  | OAdd => w OAdd
  | OSub => w OSub
  | OMul => w OAdd + w OMul
  | ODiv => w ODiv + (w OSub + w OMul)
  | OSin => w OMul + w OCos
  | OCos => w OMul + (w ONeg + w OSin)
  | OExp => w OMul + w OExp
  | OLn => w ODiv
  | OPow => w OMul + Nat.max (w OPow) (w OAdd + Nat.max (w OMul + w OLn) (w ODiv + w OMul))
  end.
Fixpoint wn (k : nat) : optype -> nat := match k with O => fun _ => 1 | S k' => wnext (wn k') end.

Lemma wn_vals k : wn k ONeg = 1 /\ wn k OAdd = 1 /\ wn k OSub = 1 /\ wn k OMul = S k.
Proof. induction k as [|k (I1 & I2 & I3 & I4)]; [cbn; auto|]. cbn [wn wnext]. lia. Qed.
Lemma wn_rest k : 1 <= wn k ODiv /\ wn k ODiv <= wn (S k) ODiv /\ wn k OLn <= wn k ODiv /\ wn k OLn <= wn (S k) OLn /\ 1 <= wn k OLn /\
  1 <= wn k OSin /\ 1 <= wn k OCos /\ 1 <= wn k OExp /\ 1 <= wn k OPow.
Proof.
  induction k as [|k IH]; [cbn; lia|]. destruct (wn_vals k) as (I1 & I2 & I3 & I4).
  destruct (wn_vals (S k)) as (J1 & J2 & J3 & J4).
  change (wn (S (S k))) with (wnext (wn (S k))). cbn [wnext]. rewrite ?J1, ?J2, ?J3, ?J4.
  change (wn (S k)) with (wnext (wn k)) in *. cbn [wnext] in *. lia.
Qed.
Lemma wn_pos k t : 1 <= wn k t.
Proof. pose proof (wn_rest k). pose proof (wn_vals k). destruct t; lia. Qed.
Lemma wn_mono k t : wn k t <= wn (S k) t.
Proof.
  pose proof (wn_rest k). destruct (wn_vals k) as (I1 & I2 & I3 & I4). revert t.
  assert (SC : wn k OSin <= wn (S k) OSin /\ wn k OCos <= wn (S k) OCos).
  { clear H I1 I2 I3 I4. induction k as [|k IH]; [cbn; lia|].
    destruct (wn_vals k) as (I1 & I2 & I3 & I4). destruct (wn_vals (S k)) as (J1 & J2 & J3 & J4).
    change (wn (S (S k))) with (wnext (wn (S k))). cbn [wnext]. rewrite J1, J4.
    change (wn (S k) OSin) with (wn k OMul + wn k OCos). change (wn (S k) OCos) with (wn k OMul + (wn k ONeg + wn k OSin)).
    change (wn (S k) OSin) with (wn k OMul + wn k OCos) in IH. change (wn (S k) OCos) with (wn k OMul + (wn k ONeg + wn k OSin)) in IH. lia. }
  intros t; destruct t; cbn [wn wnext] in *; lia.
Qed.
Lemma wdepth_mono k e : wdepth (wn k) e <= wdepth (wn (S k)) e.
Proof.
  induction e as [[op|o] c IH] using expr_ind'; [|cbn [wdepth]; lia].
  assert (L : list_max (map (wdepth (wn k)) c) <= list_max (map (wdepth (wn (S k))) c)).
  { clear -IH. induction IH as [|x c H _ IHc]; [cbn; lia|]. cbn [map list_max fold_right] in *.
    unfold list_max in IHc. lia. }
  cbn [wdepth]. pose proof (wn_mono k (descriptor op)). lia.
Qed.

Lemma raw1_wd k t a da : arity t = 1 -> wdepth (wn k) da <= wdepth (wn (S k)) a ->
  wdepth (wn k) (raw1 t a da) <= wdepth (wn (S k)) (mk1 t a).
Proof.
  intros Ht H. pose proof (wdepth_mono k a). rewrite wd_mk1.
  destruct (wn_vals k) as (I1 & I2 & I3 & I4).
  destruct t; try discriminate; unfold raw1, e_neg, e_mul, e_cos, e_sin, e_exp, e_div;
    rewrite ?wd_mk2, ?wd_mk1; cbn [wn wnext] in *; lia.
Qed.
Lemma raw2_wd k t a b da db : arity t = 2 -> wdepth (wn k) da <= wdepth (wn (S k)) a ->
  wdepth (wn k) db <= wdepth (wn (S k)) b ->
  wdepth (wn k) (raw2 t a b da db) <= wdepth (wn (S k)) (mk2 t a b).
Proof.
  intros Ht H H'. pose proof (wdepth_mono k a). pose proof (wdepth_mono k b). rewrite wd_mk2.
  pose proof (wn_rest k). destruct (wn_vals k) as (I1 & I2 & I3 & I4).
  destruct t; try discriminate; unfold raw2, e_add, e_sub, e_mul, e_div, e_pow, e_ln;
    rewrite ?wd_mk2, ?wd_mk1; cbn [wn wnext] in *; lia.
Qed.

Lemma deriv_wd m x k e : wf e -> forall d, deriv m x e = Ok d ->
  wdepth (wn k) d <= wdepth (wn (S k)) e.
Proof.
  intros W. pattern e. revert e W. apply wf_ind1.
  - intros n _ d [= <-]. reflexivity.
  - intros y d H. rewrite deriv_var in H. injection H as <-. destruct (String.eqb x y); reflexivity.
  - intros t a Ht Wa IH d H. rewrite deriv_mk1 in H by exact Ht. inv_bind H.
    pose proof (deriv_wf _ _ _ _ Wa Hb) as Wd. apply IH in Hb.
    apply (agg_wd (wn k) (wn_pos k)) in H; [|destruct (wn_vals k); lia|apply raw1_wf; assumption].
    pose proof (raw1_wd k t a a0 Ht Hb). lia.
  - intros t a b Ht Wa Wb IHa IHb d H. rewrite deriv_mk2 in H by exact Ht. inv_bind H. inv_bind H.
    pose proof (deriv_wf _ _ _ _ Wb Hb) as Wd0. pose proof (deriv_wf _ _ _ _ Wa Hb0) as Wd1.
    apply IHb in Hb. apply IHa in Hb0.
    apply (agg_wd (wn k) (wn_pos k)) in H; [|destruct (wn_vals k); lia|apply raw2_wf; assumption].
    pose proof (raw2_wd k t a b a1 a0 Ht Hb0 Hb). lia.
Qed.

Lemma wd_depth e : wf e -> wdepth (wn 0) e = depth e.
Proof.
  intros W. pattern e. revert e W. apply wf_ind1; intros; try reflexivity.
  - rewrite wd_mk1, depth_mk1, H1. reflexivity.
  - rewrite wd_mk2, depth_mk2, H2, H3. reflexivity.
Qed.

Lemma wn_bound k t : wn k t <= (k + 1) * (k + 1).
Proof.
  assert (B : 2 * wn k ODiv <= k * k + 3 * k + 2 /\ 2 * wn k OLn <= k * k + 3 * k + 2 /\
    wn k OSin <= (k + 1) * (k + 1) /\ wn k OCos <= (k + 1) * (k + 1) /\
    wn k OExp <= (k + 1) * (k + 1) /\ wn k OPow <= (k + 1) * (k + 1)).
  { induction k as [|k IH]; [cbn; lia|]. destruct (wn_vals k) as (I1 & I2 & I3 & I4).
    cbn [wn wnext]. rewrite I1, I2, I3, I4. nia. }
  destruct (wn_vals k) as (I1 & I2 & I3 & I4). destruct t; nia.
Qed.
Lemma wd_bound k e : wf e -> wdepth (wn k) e + (k + 1) * (k + 1) <= (k + 1) * (k + 1) * depth e + 1.
Proof.
  intros W. pattern e. revert e W. apply wf_ind1; intros.
  - cbn [wdepth depth map list_max fold_right]. lia.
  - cbn [wdepth depth map list_max fold_right]. lia.
  - rewrite wd_mk1, depth_mk1. pose proof (wn_bound k t). nia.
  - rewrite wd_mk2, depth_mk2. pose proof (wn_bound k t).
    destruct (Nat.max_spec (depth a) (depth b)) as [[? ->]|[? ->]];
      destruct (Nat.max_spec (wdepth (wn k) a) (wdepth (wn k) b)) as [[? ->]|[? ->]]; nia.
Qed.

Lemma deriv_n_wd m x k : forall e d, wf e -> deriv_n m x k e = Ok d ->
  wf d /\ forall j, wdepth (wn j) d <= wdepth (wn (j + k)) e.
Proof.
  induction k as [|k IH]; intros e d W H; cbn [deriv_n] in H.
  - injection H as <-. split; [exact W|]. intros j. rewrite Nat.add_0_r. lia.
  - inv_bind H. pose proof (deriv_wf _ _ _ _ W Hb) as Wa. destruct (IH a d Wa H) as [Wd Hd].
    split; [exact Wd|]. intros j. specialize (Hd j).
    pose proof (deriv_wd m x (j + k) e W a Hb) as D. replace (j + S k) with (S (j + k)) by lia. lia.
Qed.

(** the k-th derivative is at most (k+1)^2 times as deep as the expression *)
Theorem c97_derivative_result m x k e d : wf e -> deriv_n m x k e = Ok d ->
  depth d <= (k + 1) * (k + 1) * depth e.
Proof.
  intros W H. destruct (deriv_n_wd m x k e d W H) as [Wd Hd]. specialize (Hd 0).
  rewrite (wd_depth d Wd) in Hd. cbn [Nat.add] in Hd. pose proof (wd_bound k e W). pose proof (depth_1 e). nia.
Qed.

(** ** derivative *)
Lemma s_deriv_go m x f e : wf e -> wdepth (wn 1) e < f ->
  s_deriv f m e x = (let* d := deriv m x e in Ok (ROk d)).
Proof.
  revert e; induction f as [|f IH]; intros e W Hs; [lia|].
  pose proof (wd_1 (wn 1) (wn_pos 1)) as P1.
  revert W Hs. destruct e as [[op|[n|y]] c]; intros W Hs.
  2:{ cbn [s_deriv root ok_or qbind bind deriv]. rewrite agg_dgo by (cbn; rewrite (wf_leaf _ _ W) in Hs; cbn in Hs; lia). reflexivity. }
  2:{ cbn [s_deriv root ok_or qbind bind deriv].
      destruct (String.eqb x y); cbn [qbind bind]; (rewrite agg_dgo by (cbn; rewrite (wf_leaf _ _ W) in Hs; cbn in Hs; lia)); reflexivity. }
  destruct (wf_op_inv _ _ W) as (Hop & [(Ha & a & -> & Wa)|(Ha & a & b & -> & Wa & Wb)]).
  - set (t := descriptor op) in *. 
    assert (E : Expr (Operator op) [a] = mk1 t a) by (unfold mk1; rewrite <- Hop; reflexivity).
    rewrite E in *. pose proof Hs as Hs'. rewrite wd_mk1 in Hs'. pose proof (wn_pos 1 t).
    rewrite deriv_mk1 by exact Ha. unfold mk1 at 1. cbn [s_deriv root child ok_or qbind bind].
    rewrite descriptor_gen.
    assert (Hd : s_deriv f m a x = (let* d := deriv m x a in Ok (ROk d))) by (apply IH; [exact Wa|lia]).
    destruct (deriv m x a) as [da| | |] eqn:Ed;
      [|destruct t; try discriminate; unfold d_neg_deriv, d_sin_deriv, d_cos_deriv, d_exp_deriv, d_ln_deriv, pop_unwrap;
        cbn [pop bind]; rewrite Hd; reflexivity ..].
    pose proof (deriv_wf _ _ _ _ Wa Ed) as Wd.
    pose proof (raw1_wd 0 t a da Ha (deriv_wd m x 0 a Wa da Ed)) as R.
    rewrite (wd_depth _ (raw1_wf t a da Ha Wa Wd)) in R. cbn [bind].
    rewrite <- (agg_dgo m f (raw1 t a da)) by lia.
    destruct t; try discriminate; unfold d_neg_deriv, d_sin_deriv, d_cos_deriv, d_exp_deriv, d_ln_deriv, pop_unwrap;
        cbn [pop bind]; rewrite Hd; reflexivity.
  - set (t := descriptor op) in *. 
    assert (E : Expr (Operator op) [a; b] = mk2 t a b) by (unfold mk2; rewrite <- Hop; reflexivity).
    rewrite E in *. pose proof Hs as Hs'. rewrite wd_mk2 in Hs'. pose proof (wn_pos 1 t).
    rewrite deriv_mk2 by exact Ha. unfold mk2 at 1. cbn [s_deriv root child ok_or qbind bind].
    rewrite descriptor_gen.
    assert (Hb : s_deriv f m b x = (let* d := deriv m x b in Ok (ROk d))) by (apply IH; [exact Wb|lia]).
    assert (Hd : s_deriv f m a x = (let* d := deriv m x a in Ok (ROk d))) by (apply IH; [exact Wa|lia]).
    destruct (deriv m x b) as [db| | |] eqn:Eb;
      [|destruct t; try discriminate; unfold d_add_deriv, d_sub_deriv, d_mul_deriv, d_div_deriv, d_pow_deriv, pop_unwrap;
        cbn [pop bind]; rewrite Hb; reflexivity ..].
    destruct (deriv m x a) as [da| | |] eqn:Ed;
      [|destruct t; try discriminate; unfold d_add_deriv, d_sub_deriv, d_mul_deriv, d_div_deriv, d_pow_deriv, pop_unwrap;
        cbn [pop bind]; rewrite Hb; cbn [qbind bind pop]; rewrite Hd; reflexivity ..].
    pose proof (deriv_wf _ _ _ _ Wa Ed) as Wd. pose proof (deriv_wf _ _ _ _ Wb Eb) as Wd'.
    pose proof (raw2_wd 0 t a b da db Ha (deriv_wd m x 0 a Wa da Ed) (deriv_wd m x 0 b Wb db Eb)) as R.
    rewrite (wd_depth _ (raw2_wf t a b da db Ha Wa Wb Wd Wd')) in R. cbn [bind].
    rewrite <- (agg_dgo m f (raw2 t a b da db)) by lia.
    destruct t; try discriminate; unfold d_add_deriv, d_sub_deriv, d_mul_deriv, d_div_deriv, d_pow_deriv, pop_unwrap;
        cbn [pop bind]; rewrite Hb; cbn [qbind bind pop]; rewrite Hd; reflexivity.
Qed.

Lemma agg_dich m f e : wf e -> (exists z, d_aggregate f m e = Ok z /\ num_aggregate m e = Ok z) \/ over m (d_aggregate f m e).
Proof.
  intros W. destruct (Nat.le_gt_cases (depth e) f) as [L|L]; [|right; apply agg_over; assumption].
  rewrite (agg_dgo m f e L). pose proof (agg_safe m e W) as S.
  destruct (num_aggregate m e); cbn in *; eauto.
Qed.

Lemma s_deriv_dich m x f e : wf e ->
  (exists d, s_deriv f m e x = Ok (ROk d) /\ deriv m x e = Ok d /\ depth e < f) \/ over m (s_deriv f m e x).
Proof.
  revert e; induction f as [|f IH]; intros e W; [right; exact I|].
  destruct e as [[op|[n|y]] c].
  2:{ rewrite (wf_leaf _ _ W). destruct f as [|f]; [right; exact I|left].
      exists e_zero. repeat split; cbn; lia. }
  2:{ rewrite (wf_leaf _ _ W). destruct f as [|f]; [right|left].
      - cbn. destruct (String.eqb x y); exact I.
      - exists (if String.eqb x y then e_one else e_zero). cbn. destruct (String.eqb x y); repeat split; cbn; lia. }
  destruct (wf_op_inv _ _ W) as (Hop & [(Ha & a & -> & Wa)|(Ha & a & b & -> & Wa & Wb)]).
  - set (t := descriptor op) in *. 
    assert (E : Expr (Operator op) [a] = mk1 t a) by (unfold mk1; rewrite <- Hop; reflexivity).
    rewrite E in *. rewrite deriv_mk1 by exact Ha. unfold mk1 at 1 3. cbn [s_deriv root child ok_or qbind bind].
    rewrite descriptor_gen.
    destruct (IH a Wa) as [(da & Hd & Ed & Dd)|O].
    + pose proof (raw1_wf t a da Ha Wa (deriv_wf _ _ _ _ Wa Ed)) as Wr. rewrite Ed. cbn [bind].
      destruct (agg_dich m f (raw1 t a da) Wr) as [(z & Z1 & Z2)|O].
      * left. exists z. rewrite depth_mk1. split; [|split; [exact Z2|lia]].
        destruct t; try discriminate; unfold d_neg_deriv, d_sin_deriv, d_cos_deriv, d_exp_deriv, d_ln_deriv, pop_unwrap;
          cbn [pop bind]; rewrite Hd; cbn [qbind bind raw1] in *; rewrite Z1; reflexivity.
      * right. destruct t; try discriminate; unfold d_neg_deriv, d_sin_deriv, d_cos_deriv, d_exp_deriv, d_ln_deriv, pop_unwrap;
          cbn [pop bind]; rewrite Hd; cbn [qbind bind raw1] in *; apply over_bind; exact O.
    + right. destruct t; try discriminate; unfold d_neg_deriv, d_sin_deriv, d_cos_deriv, d_exp_deriv, d_ln_deriv, pop_unwrap;
        cbn [pop bind]; unfold qbind; apply over_bind, over_bind; exact O.
  - set (t := descriptor op) in *. 
    assert (E : Expr (Operator op) [a; b] = mk2 t a b) by (unfold mk2; rewrite <- Hop; reflexivity).
    rewrite E in *. rewrite deriv_mk2 by exact Ha. unfold mk2 at 1 3. cbn [s_deriv root child ok_or qbind bind].
    rewrite descriptor_gen.
    destruct (IH b Wb) as [(db & Hb & Eb & Db)|O].
    + destruct (IH a Wa) as [(da & Hd & Ed & Dd)|O].
      * pose proof (raw2_wf t a b da db Ha Wa Wb (deriv_wf _ _ _ _ Wa Ed) (deriv_wf _ _ _ _ Wb Eb)) as Wr. rewrite Eb, Ed. cbn [bind].
        destruct (agg_dich m f (raw2 t a b da db) Wr) as [(z & Z1 & Z2)|O].
        -- left. exists z. rewrite depth_mk2. split; [|split; [exact Z2|lia]].
           destruct t; try discriminate; unfold d_add_deriv, d_sub_deriv, d_mul_deriv, d_div_deriv, d_pow_deriv, pop_unwrap;
             cbn [pop bind]; rewrite Hb; cbn [qbind bind pop]; rewrite Hd; cbn [qbind bind raw2] in *; rewrite Z1; reflexivity.
        -- right. destruct t; try discriminate; unfold d_add_deriv, d_sub_deriv, d_mul_deriv, d_div_deriv, d_pow_deriv, pop_unwrap;
             cbn [pop bind]; rewrite Hb; cbn [qbind bind pop]; rewrite Hd; cbn [qbind bind raw2] in *; apply over_bind; exact O.
      * right. destruct t; try discriminate; unfold d_add_deriv, d_sub_deriv, d_mul_deriv, d_div_deriv, d_pow_deriv, pop_unwrap;
          cbn [pop bind]; rewrite Hb; cbn [qbind bind pop]; unfold qbind; apply over_bind, over_bind; exact O.
    + right. destruct t; try discriminate; unfold d_add_deriv, d_sub_deriv, d_mul_deriv, d_div_deriv, d_pow_deriv, pop_unwrap;
        cbn [pop bind]; unfold qbind; apply over_bind, over_bind; exact O.
Qed.

(** [derivative] fits in four times the depth of the expression, does not fit in the depth
    itself, and whenever it comes back at all the answer is the real one *)
Theorem c97_derivative e x f : wf e ->
  (4 * depth e <= f -> forall m, s_deriv f m e x = derivative m e (e_var x)) /\
  (f <= depth e -> s_deriv f Release e x = Fuel) /\
  (forall m r, s_deriv f m e x = Ok r -> derivative m e (e_var x) = Ok r).
Proof.
  intros W. split; [|split].
  - intros H m. change (derivative m e (e_var x)) with (let* d := deriv m x e in Ok (@ROk expr derivative_error d)).
    apply s_deriv_go; [exact W|]. pose proof (wd_bound 1 e W). lia.
  - intros H. destruct (s_deriv_dich Release x f e W) as [(d & _ & _ & L)|O]; [lia|].
    apply over_release. exact O.
  - intros m r H. change (derivative m e (e_var x)) with (let* d := deriv m x e in Ok (@ROk expr derivative_error d)).
    destruct (s_deriv_dich m x f e W) as [(d & E & -> & L)|O]; [rewrite <- H, E; reflexivity|].
    rewrite H in O. destruct O.
Qed.

(** ** taylor_expansion *)
Lemma s_taylor_go m x at_ err f e n0 : wf e -> wf at_ ->
  (n0 + 1) * (n0 + 1) * depth e + depth at_ <= f ->
  forall n j k fa r coef, wf r -> j + n = n0 ->
  (forall i, wdepth (wn i) r <= wdepth (wn (i + j)) e) ->
  s_taylor_loop f m x at_ err n k fa r coef = (let* t := taylor_loop m x at_ n k fa r coef in Ok (ROk t)).
Proof.
  intros We Wat Hf. induction n as [|n IH]; intros j k fa r coef Wr Hj Hw; [reflexivity|].
  assert (Dr : depth r <= (j + 1) * (j + 1) * depth e).
  { rewrite <- (wd_depth r Wr). specialize (Hw 0). cbn [Nat.add] in Hw. pose proof (wd_bound j e We). pose proof (depth_1 e). nia. }
  assert (Q : (j + 2) * (j + 2) * depth e <= (n0 + 1) * (n0 + 1) * depth e).
  { apply Nat.mul_le_mono_r. apply Nat.mul_le_mono; lia. }
  assert (Dr' : depth r + depth at_ <= f).
  { pose proof (depth_1 e). nia. }
  pose proof (c97_substitute_result x at_ r) as Ds.
  cbn [s_taylor_loop taylor_loop].
  destruct (sn_of_u64 m (Z.max k 1)) as [kn| | |]; cbn [bind]; try reflexivity.
  destruct (sn_mul m fa kn) as [fa'| | |]; cbn [bind]; try reflexivity.
  rewrite clone_go by lia. cbn [bind]. rewrite subst_dgo by lia. cbn [map_err qbind bind].
  rewrite agg_dgo by lia.
  pose proof (subst_wf x at_ r Wr Wat) as Wsub.
  destruct (num_aggregate m (subst x at_ r)) as [s| | |] eqn:Es; cbn [bind]; try reflexivity.
  pose proof (agg_depth m _ Wsub s Es) as Das.
  rewrite agg_dgo.
  2:{ unfold e_div. rewrite depth_mk2. change (depth (e_num fa')) with 1. pose proof (depth_1 s). lia. }
  destruct (num_aggregate m (e_div s (e_num fa'))) as [c| | |]; cbn [bind]; try reflexivity.
  rewrite s_deriv_go; [|exact Wr|].
  2:{ specialize (Hw 1). cbn [Nat.add] in Hw. pose proof (wd_bound (S j) e We) as B. pose proof (depth_1 e). nia. }
  destruct (deriv m x r) as [r'| | |] eqn:Er; cbn [bind map_err qbind]; try reflexivity.
  apply (IH (S j)); [exact (deriv_wf _ _ _ _ Wr Er)|lia|].
  intros i. pose proof (deriv_wd m x i r Wr r' Er) as D1. specialize (Hw (S i)).
  replace (i + S j) with (S i + j) by lia. lia.
Qed.

(** [taylor_expansion] of order n fits in (n+2)^2 times the depth of the expression plus the
    depth of the point, whatever the expression *)
Theorem c97_taylor e x at_ (n : nat) f : wf e -> wf at_ ->
  (n + 2) * (n + 2) * depth e + depth at_ <= f ->
  forall m, s_taylor f m e x at_ (Z.of_nat n) = taylor_expansion m e (e_var x) at_ (Z.of_nat n).
Proof.
  intros We Wat Hf m. unfold s_taylor. pose proof (depth_1 e).
  change (taylor_expansion m e (e_var x) at_ (Z.of_nat n)) with
    (let* t := taylor_var m e x at_ (Z.of_nat n) in Ok (@ROk expansion taylor_error t)).
  unfold taylor_var.
  rewrite clone_go by nia. cbn [bind].
  replace (Z.to_nat (Z.of_nat n + 1)) with (S n) by lia.
  rewrite (s_taylor_go m x at_ e f e (S n) We Wat) with (j := 0);
    [|replace (S n + 1) with (n + 2) by lia; exact Hf|exact We|lia|intros i; rewrite Nat.add_0_r; lia].
  destruct (taylor_loop m x at_ (S n) 0 (sn_of_i64 1) e []) as [[cs r]| | |]; cbn [bind qbind]; try reflexivity.
  rewrite clone_go by nia. reflexivity.
Qed.

(** ** the quadratic growth is real: all derivatives of exp(x * x), in closed form *)
Inductive sp := SE | SM (s : sp) | SA (a b : sp).
Definition vx : expr := e_var "x".
Definition e_m : expr := e_add vx vx.
Fixpoint tr (s : sp) : expr :=
  match s with
  | SE => e_exp (e_mul vx vx)
  | SM s => e_mul e_m (tr s)
  | SA a b => e_add (e_mul (e_of_i64 2) (tr a)) (tr b)
  end.
Fixpoint dn (s : sp) : sp :=
  match s with SE => SM SE | SM s => SA s (SM (dn s)) | SA a b => SA (dn a) (dn b) end.
(** number of [M *] and of [+] on the right spine *)
Fixpoint ms (s : sp) : nat := match s with SE => 0 | SM s => S (ms s) | SA _ b => ms b end.
Fixpoint plus_ (s : sp) : nat := match s with SE => 0 | SM s => plus_ s | SA _ b => S (plus_ b) end.

Lemma tr_op s : is_num (tr s) = false /\ is_zero (tr s) = false /\ is_one (tr s) = false.
Proof. destruct s; repeat split. Qed.

Lemma tr_wf s : wf (tr s).
Proof.
  assert (W2 : wf (e_of_i64 2)) by (apply wf_num; vm_compute; intuition discriminate).
  induction s; cbn [tr]; unfold e_exp, e_mul, e_add, e_m, e_add;
    repeat first [assumption | apply wf_mk1; [reflexivity|] | apply wf_mk2; [reflexivity| |] | apply wf_var].
Qed.

Lemma rule_mul_tr m l s : is_zero l = false -> is_one l = false ->
  eval_rule m OMul [Ok l; Ok (tr s)] = Ok (e_mul l (tr s)).
Proof.
  intros Z O. destruct (tr_op s) as (N1 & Z1 & O1). cbn [eval_rule]. unfold mul_eval_rule, eval2, pop_unwrap.
  cbn [pop bind]. rewrite N1, Z, Z1, O, O1, andb_false_r. reflexivity.
Qed.
Lemma rule_add_tr m l s : is_zero l = false ->
  eval_rule m OAdd [Ok l; Ok (tr s)] = Ok (e_add l (tr s)).
Proof.
  intros Z. destruct (tr_op s) as (N1 & Z1 & O1). cbn [eval_rule]. unfold add_eval_rule, eval2, pop_unwrap.
  cbn [pop bind]. rewrite N1, Z, Z1, andb_false_r. reflexivity.
Qed.

Lemma tr_agg m s : num_aggregate m (tr s) = Ok (tr s).
Proof.
  induction s; cbn [tr].
  - reflexivity.
  - unfold e_mul. rewrite agg_mk2, IHs by reflexivity. cbn [bind].
    change (num_aggregate m e_m) with (Ok e_m). cbn [bind]. apply rule_mul_tr; reflexivity.
  - unfold e_add, e_mul. rewrite agg_mk2, IHs2 by reflexivity. cbn [bind].
    rewrite agg_mk2, IHs1 by reflexivity. cbn [bind].
    change (num_aggregate m (e_of_i64 2)) with (Ok (e_of_i64 2)). cbn [bind].
    rewrite rule_mul_tr by reflexivity. cbn [bind]. apply rule_add_tr. reflexivity.
Qed.

Lemma agg_m m : num_aggregate m e_m = Ok e_m. Proof. reflexivity. Qed.
Lemma deriv_m m : deriv m "x" e_m = Ok (e_of_i64 2).
Proof. destruct m; vm_compute; reflexivity. Qed.

Lemma tr_deriv m s : deriv m "x" (tr s) = Ok (tr (dn s)).
Proof.
  induction s; cbn [tr dn].
  - destruct m; vm_compute; reflexivity.
  - unfold e_mul. rewrite deriv_mk2, IHs by reflexivity. cbn [bind]. rewrite deriv_m. cbn [bind raw2].
    unfold e_add, e_mul. rewrite agg_mk2 by reflexivity.
    rewrite (agg_mk2 m OMul e_m) by reflexivity. rewrite tr_agg. cbn [bind]. rewrite agg_m. cbn [bind].
    rewrite rule_mul_tr by reflexivity. cbn [bind].
    rewrite agg_mk2 by reflexivity. rewrite tr_agg. cbn [bind].
    change (num_aggregate m (e_of_i64 2)) with (Ok (e_of_i64 2)). cbn [bind].
    rewrite rule_mul_tr by reflexivity. cbn [bind].
    exact (rule_add_tr m (e_mul (e_of_i64 2) (tr s)) (SM (dn s)) eq_refl).
  - unfold e_add, e_mul. rewrite deriv_mk2, IHs2 by reflexivity. cbn [bind].
    rewrite deriv_mk2, IHs1 by reflexivity. cbn [bind].
    change (deriv m "x" (e_of_i64 2)) with (Ok e_zero). cbn [bind raw2].
    assert (E : num_aggregate m (e_add (e_mul e_zero (tr s1)) (e_mul (e_of_i64 2) (tr (dn s1)))) = Ok (e_mul (e_of_i64 2) (tr (dn s1)))).
    { unfold e_add, e_mul. rewrite agg_mk2 by reflexivity. rewrite agg_mk2 by reflexivity. rewrite tr_agg. cbn [bind].
      change (num_aggregate m (e_of_i64 2)) with (Ok (e_of_i64 2)). cbn [bind].
      rewrite rule_mul_tr by reflexivity. cbn [bind].
      rewrite agg_mk2 by reflexivity. rewrite tr_agg. cbn [bind].
      change (num_aggregate m e_zero) with (Ok e_zero). cbn [bind].
      destruct (tr_op s1) as (N1 & Z1 & O1). cbn [eval_rule]. unfold mul_eval_rule at 1, eval2, pop_unwrap. cbn [pop bind].
      rewrite N1. reflexivity. }
    rewrite E. cbn [bind]. unfold e_add. rewrite agg_mk2 by reflexivity. rewrite tr_agg. cbn [bind].
    unfold e_mul. rewrite agg_mk2 by reflexivity. rewrite tr_agg. cbn [bind].
    change (num_aggregate m (e_of_i64 2)) with (Ok (e_of_i64 2)). cbn [bind].
    rewrite rule_mul_tr by reflexivity. cbn [bind]. apply rule_add_tr. reflexivity.
Qed.

Fixpoint dns (k : nat) (s : sp) : sp := match k with O => s | S k' => dns k' (dn s) end.
Lemma tr_deriv_n m k : forall s, deriv_n m "x" k (tr s) = Ok (tr (dns k s)).
Proof. induction k as [|k IH]; intros s; [reflexivity|]. cbn [deriv_n dns]. rewrite tr_deriv. exact (IH (dn s)). Qed.
Lemma dn_ms s : ms (dn s) = S (ms s) /\ plus_ (dn s) = plus_ s + ms s.
Proof. induction s as [|s [I1 I2]|a _ b [I1 I2]]; cbn [dn ms plus_]; lia. Qed.
Lemma dns_ms k : forall s, ms (dns k s) = k + ms s /\ 2 * plus_ (dns k s) + k = 2 * plus_ s + 2 * k * ms s + k * k.
Proof.
  induction k as [|k IH]; intros s; cbn [dns]; [lia|]. destruct (IH (dn s)) as [I1 I2].
  destruct (dn_ms s) as [J1 J2]. rewrite J1, J2 in *. split; nia.
Qed.
Lemma tr_depth s : ms s + plus_ s + 3 <= depth (tr s).
Proof.
  induction s; cbn [tr ms plus_]; [cbn; lia| |]; unfold e_mul, e_add; rewrite depth_mk2; lia.
Qed.

(** the k-th derivative of exp(x * x) exists in every build and is at least 3 + k(k+1)/2 deep:
    no bound linear in k is true *)
Theorem c97_quadratic m k : exists d, deriv_n m "x" k (e_exp (e_mul (e_var "x") (e_var "x"))) = Ok d /\
  k * k + k + 6 <= 2 * depth d.
Proof.
  exists (tr (dns k SE)). split; [exact (tr_deriv_n m k SE)|].
  pose proof (tr_depth (dns k SE)). destruct (dns_ms k SE) as [I1 I2]. cbn [ms plus_] in *. nia.
Qed.

(** ** a non-trivial case of every hypothesis *)
Definition c97_tree : expr := e_pow (e_add (e_var "x") (e_of_i64 1)) (e_sin (e_var "x")).
Example c97_witness :
  wf c97_tree /\ depth c97_tree = 3 /\
  d_aggregate 2 Release c97_tree = Fuel /\ d_aggregate 3 Release c97_tree = Ok c97_tree /\
  s_deriv 3 Release c97_tree "x" = Fuel /\ s_deriv 12 Release c97_tree "x" = derivative Release c97_tree (e_var "x") /\
  s_taylor 10 Release c97_tree "x" (e_of_i64 0) 2 = Fuel /\
  (exists t, s_taylor 49 Release c97_tree "x" (e_of_i64 0) 2 = Ok (ROk t)).
Proof.
  split.
  { assert (W1 : wf (e_of_i64 1)) by (apply wf_num; vm_compute; intuition discriminate).
    unfold c97_tree, e_pow, e_add, e_sin.
    repeat first [assumption | apply wf_mk1; [reflexivity|] | apply wf_mk2; [reflexivity| |] | apply wf_var]. }
  repeat split; try (vm_compute; reflexivity). eexists. vm_compute. reflexivity.
Qed.

Print Assumptions c97_clone.
Print Assumptions c97_substitute.
Print Assumptions c97_substitute_result.
Print Assumptions c97_aggregate.
Print Assumptions c97_derivative_result.
Print Assumptions c97_derivative.
Print Assumptions c97_taylor.
Print Assumptions c97_quadratic.
