(** * PropsDirect: C94 -- the model and the literal transcription agree, every call form agrees *)
From Coq Require Import ZArith QArith List String Bool Lia.
From Verif Require Import Base Float Rational SmartNum Ast Compute Limit Main Display Direct Spec SpecDirect.
From Verif Require Import BaseProofs TreeProofs.
Import ListNotations.
Open Scope Z_scope.
Open Scope res_scope.

(** ** lists popped from the back *)
Lemma pop_map {A B} (f : A -> B) l :
  pop (map f l) = match pop l with Some (x, r) => Some (f x, map f r) | None => None end.
Proof.
  induction l as [|a l IH]; [reflexivity|].
  destruct l as [|b l]; [reflexivity|].
  change (map f (a :: b :: l)) with (f a :: map f (b :: l)).
  cbn [pop] in *. cbn [map] in *. rewrite IH.
  change (match l with [] => Some (b, []) | _ :: _ => match pop l with Some (y, l'') => Some (y, b :: l'') | None => None end end)
    with (pop (b :: l)).
  destruct (pop (b :: l)) as [[y r]|]; reflexivity.
Qed.

Lemma pop_in {A} (l : list A) x r : pop l = Some (x, r) -> In x l /\ incl r l.
Proof.
  revert x r; induction l as [|a l IH]; intros x r H; [discriminate|].
  destruct l as [|b l].
  - injection H as <- <-. split; [left; reflexivity|]. intros y [].
  - change (pop (a :: b :: l)) with
      (match pop (b :: l) with Some (y, l'') => Some (y, a :: l'') | None => None end) in H.
    destruct (pop (b :: l)) as [[y l']|]; [|discriminate].
    injection H as <- <-. destruct (IH y l' eq_refl) as [I1 I2].
    split; [right; exact I1|]. intros z [->|Hz]; [left; reflexivity|right; apply I2; exact Hz].
Qed.

Lemma list_sum_in x l : In x l -> (x <= list_sum l)%nat.
Proof. induction l as [|a l IH]; intros H; [destruct H|destruct H as [->|H]]; cbn [list_sum fold_right]; [lia|specialize (IH H); unfold list_sum in *; lia]. Qed.

Lemma size_child r c x : In x c -> (size x < size (Expr r c))%nat.
Proof.
  intros H. cbn [size]. apply (in_map size) in H. apply list_sum_in in H. lia.
Qed.

(** ** num_aggregate *)
Lemma agg_go m f e : (size e <= f)%nat -> d_aggregate f m e = num_aggregate m e.
Proof.
  revert e; induction f as [|f IH]; intros [r c] Hs; [cbn [size] in Hs; lia|].
  assert (Hc : forall x, In x c -> d_aggregate f m x = num_aggregate m x).
  { intros x Hx. apply IH. pose proof (size_child r c x Hx). lia. }
  cbn [d_aggregate num_aggregate root child].
  destruct r as [op|o]; [|reflexivity].
  destruct (descriptor op); cbn [eval_rule];
    unfold d_neg_eval, d_add_eval, d_sub_eval, d_mul_eval, d_div_eval, d_sin_eval, d_cos_eval,
      d_exp_eval, d_ln_eval, d_pow_eval,
      neg_eval_rule, add_eval_rule, sub_eval_rule, mul_eval_rule, div_eval_rule, sin_eval_rule,
      cos_eval_rule, exp_eval_rule, ln_eval_rule, pow_eval_rule, eval2, pop_unwrap;
    rewrite pop_map; destruct (pop c) as [[x c1]|] eqn:P; try reflexivity;
    destruct (pop_in c x c1 P) as [I1 I2]; cbn [bind]; rewrite (Hc x I1);
    destruct (num_aggregate m x) as [y| | |]; try reflexivity; cbn [bind];
    rewrite ?pop_map; try reflexivity;
    (destruct (pop c1) as [[x' c2]|] eqn:P'; try reflexivity;
     destruct (pop_in c1 x' c2 P') as [I3 I4]; cbn [bind]; rewrite (Hc x' (I2 _ I3));
     destruct (num_aggregate m x') as [y'| | |]; reflexivity).
Qed.

(** ** substitute *)
Lemma subst_go f u v e : (size e <= f)%nat -> d_subst_var f e u v = Ok (ROk (subst u v e)).
Proof.
  revert e; induction f as [|f IH]; intros [r c] Hs; [cbn [size] in Hs; lia|].
  assert (Hc : forall x, In x c -> d_subst_var f x u v = Ok (ROk (subst u v x))).
  { intros x Hx. apply IH. pose proof (size_child r c x Hx). lia. }
  cbn [d_subst_var subst root child ok_or qbind bind].
  destruct r as [op|[n|w]]; [|reflexivity|destruct (String.eqb w u); reflexivity].
  assert (L : forall cs acc, incl cs c ->
    d_sub_loop (fun x => d_subst_var f x u v) cs acc = Ok (ROk (acc ++ map (subst u v) cs)%list)).
  { induction cs as [|x cs IHc]; intros acc Hin; cbn [d_sub_loop map].
    - rewrite app_nil_r. reflexivity.
    - rewrite (Hc x) by (apply Hin; left; reflexivity). unfold qbind at 1. cbn [bind].
      rewrite IHc by (intros y Hy; apply Hin; right; exact Hy).
      rewrite <- app_assoc. reflexivity. }
  rewrite (L c [] (incl_refl c)). reflexivity.
Qed.

(** ** derivative *)
Lemma deriv_go m f x e : (size e <= f)%nat ->
  d_deriv_var f m e x = (let* d := deriv m x e in Ok (ROk d)).
Proof.
  revert e; induction f as [|f IH]; intros [r c] Hs; [cbn [size] in Hs; lia|].
  assert (Hc : forall y, In y c -> d_deriv_var f m y x = (let* d := deriv m x y in Ok (ROk d))).
  { intros y Hy. apply IH. pose proof (size_child r c y Hy). lia. }
  cbn [d_deriv_var deriv root child ok_or]. unfold qbind at 1. cbn [bind].
  destruct r as [op|[n|w]]; [|reflexivity|destruct (String.eqb x w); reflexivity].
  destruct (descriptor op); cbn [derivative_rule];
    unfold d_neg_deriv, d_add_deriv, d_sub_deriv, d_mul_deriv, d_div_deriv, d_sin_deriv, d_cos_deriv,
      d_exp_deriv, d_ln_deriv, d_pow_deriv,
      neg_derivative_rule, add_derivative_rule, sub_derivative_rule, mul_derivative_rule,
      div_derivative_rule, sin_derivative_rule, cos_derivative_rule, exp_derivative_rule,
      ln_derivative_rule, pow_derivative_rule, pop2, pop_unwrap;
    rewrite pop_map; destruct (pop c) as [[y c1]|] eqn:P; try reflexivity;
    destruct (pop_in c y c1 P) as [I1 I2]; cbn [bind].
  all: try (rewrite (Hc y I1); destruct (deriv m x y) as [d| | |]; reflexivity).
  all: try (rewrite (Hc y I1); destruct (deriv m x y) as [d| | |]; try reflexivity;
    unfold qbind; cbn [bind]; rewrite pop_map; destruct (pop c1) as [[z c2]|] eqn:P';
    [|reflexivity]; destruct (pop_in c1 z c2 P') as [I3 I4]; cbn [bind];
    rewrite (Hc z (I2 _ I3)); destruct (deriv m x z) as [d'| | |]; reflexivity).
  all: rewrite pop_map; destruct (pop c1) as [[z c2]|] eqn:P'; [|reflexivity];
    destruct (pop_in c1 z c2 P') as [I3 I4]; cbn [bind];
    rewrite (Hc y I1); destruct (deriv m x y) as [d| | |]; try reflexivity;
    unfold qbind; cbn [bind]; rewrite (Hc z (I2 _ I3)); destruct (deriv m x z) as [d'| | |]; reflexivity.
Qed.

(** ** taylor_expansion *)
Lemma taylor_go m x at_ err n : forall k fa res0 coef, exists B, forall f, (B <= f)%nat ->
  d_taylor_loop f m x at_ err n k fa res0 coef
  = (let* t := taylor_loop m x at_ n k fa res0 coef in Ok (ROk t)).
Proof.
  induction n as [|n IH]; intros k fa r coef; [exists 0%nat; intros; reflexivity|].
  cbn [d_taylor_loop taylor_loop].
  destruct (sn_of_u64 m (Z.max k 1)) as [kn| | |]; cbn [bind];
    try (exists 0%nat; intros; reflexivity).
  destruct (sn_mul m fa kn) as [fa'| | |]; cbn [bind]; try (exists 0%nat; intros; reflexivity).
  destruct (num_aggregate m (subst x at_ r)) as [s| | |] eqn:Es; cbn [bind];
    try (exists (size r); intros f Hf; rewrite (subst_go f x at_ r Hf);
         unfold map_err, qbind; cbn [bind]; rewrite Es; reflexivity).
  destruct (num_aggregate m (e_div s (e_num fa'))) as [c| | |] eqn:Ec; cbn [bind];
    try (exists (size r); intros f Hf; rewrite (subst_go f x at_ r Hf);
         unfold map_err, qbind; cbn [bind]; rewrite Es; cbn [bind]; rewrite Ec; reflexivity).
  destruct (deriv m x r) as [r'| | |] eqn:Er; cbn [bind];
    try (exists (size r); intros f Hf; rewrite (subst_go f x at_ r Hf), (deriv_go m f x r Hf);
         unfold map_err, qbind; cbn [bind]; rewrite Es; cbn [bind]; rewrite Ec; cbn [bind];
         rewrite Er; reflexivity).
  destruct (IH (k + 1) fa' r' (coef ++ [c])%list) as [B HB].
  exists (Nat.max B (size r)). intros f Hf.
  rewrite (subst_go f x at_ r) by lia. rewrite (deriv_go m f x r) by lia.
  unfold map_err at 1, qbind at 1. cbn [bind]. rewrite Es; cbn [bind]. rewrite Ec; cbn [bind].
  rewrite Er. unfold map_err at 1, qbind at 1. cbn [bind]. apply HB. lia.
Qed.

(** ** limit *)
Lemma div_loop_go m x (lim : expr -> res lres) (dlim : nat -> expr -> res lres) n :
  (forall e, exists B, forall f, (B <= f)%nat -> dlim f e = lim e) ->
  forall l r, exists B, forall f, (B <= f)%nat ->
  d_div_loop f m x (dlim f) n l r = div_loop m x lim n l r.
Proof.
  intros Hlim. induction n as [|n IH]; intros l r; [exists 0%nat; intros; reflexivity|].
  cbn [d_div_loop div_loop].
  destruct (Hlim l) as [B1 H1]. destruct (Hlim r) as [B2 H2].
  destruct (lim l) as [[a|ea]| | |] eqn:El;
    try (exists B1; intros f Hf; rewrite (H1 f Hf); reflexivity).
  destruct (lim r) as [[b|eb]| | |] eqn:Er;
    try (exists (Nat.max B1 B2); intros f Hf; rewrite (H1 f), (H2 f) by lia; reflexivity).
  destruct (l_div a b) as [z|ez] eqn:Ez;
    try (exists (Nat.max B1 B2); intros f Hf; rewrite (H1 f), (H2 f) by lia;
         unfold qbind; cbn [bind]; rewrite Ez; reflexivity).
  destruct (deriv m x l) as [l'| | |] eqn:Dl;
    try (exists (Nat.max (Nat.max B1 B2) (size l)); intros f Hf; rewrite (H1 f), (H2 f) by lia;
         rewrite (deriv_go m f x l) by lia; unfold map_err, qbind; cbn [bind]; rewrite Ez, Dl; reflexivity).
  destruct (deriv m x r) as [r'| | |] eqn:Dr;
    try (exists (Nat.max (Nat.max B1 B2) (Nat.max (size l) (size r))); intros f Hf;
         rewrite (H1 f), (H2 f) by lia;
         rewrite (deriv_go m f x l), (deriv_go m f x r) by lia; unfold map_err, qbind; cbn [bind];
         rewrite Ez, Dl; cbn [bind]; rewrite Dr; reflexivity).
  destruct (IH l' r') as [B HB].
  exists (Nat.max B (Nat.max (Nat.max B1 B2) (Nat.max (size l) (size r)))). intros f Hf.
  rewrite (H1 f), (H2 f) by lia. rewrite (deriv_go m f x l), (deriv_go m f x r) by lia.
  unfold map_err, qbind; cbn [bind]. rewrite Ez, Dl; cbn [bind]. rewrite Dr. apply HB. lia.
Qed.

Lemma subst_limit_go m x to e f : (size e <= f)%nat ->
  d_subst_limit f m x to e = subst_limit m x to e.
Proof. intros H. unfold d_subst_limit. rewrite (subst_go f x to e H). reflexivity. Qed.

Lemma limit_go m x to k d : forall e, exists B, forall f, (B <= f)%nat ->
  d_limit_var d f m x to k e = limit_var d m x to k e.
Proof.
  induction d as [|d IH]; intros e; [exists 0%nat; intros; reflexivity|].
  assert (R : exists B, forall f, (B <= f)%nat ->
    match root e with
    | Operand (Num n) => Ok (ROk (Normal (Expr (Operand (Num n)) [])))
    | Operand (Var v) =>
        if String.eqb v x then
          if is_zero to then Ok (ROk Infinitesimal) else Ok (ROk (Normal to))
        else Ok (ROk (Normal (e_var v)))
    | Operator op =>
        match descriptor op with
        | ONeg => let* l := neg_limit_expr_rule e in Ok (ROk l)
        | OAdd => add_limit_expr_rule (d_limit_var d f m x to k) e
        | OSub => sub_limit_expr_rule (d_limit_var d f m x to k) e
        | OMul => mul_limit_expr_rule (d_limit_var d f m x to k) e
        | ODiv => d_div_limit f m x k (d_limit_var d f m x to k) e
        | OSin => d_sin_limit f m x to e
        | OCos => d_cos_limit f m x to e
        | OExp | OLn | OPow => Panic
        end
    end = limit_rule m x to k (limit_var d m x to k) e).
  { unfold limit_rule. destruct (root e) as [op|[n|v]]; try (exists 0%nat; intros; reflexivity).
    destruct (descriptor op); try (exists 0%nat; intros; reflexivity).
    - unfold add_limit_expr_rule, pop_unwrap. destruct (pop (child e)) as [[r rest]|]; [|exists 0%nat; intros; reflexivity].
      cbn [bind]. destruct (pop rest) as [[l rest']|]; [|exists 0%nat; intros; reflexivity]. cbn [bind].
      destruct (IH r) as [B1 H1], (IH l) as [B2 H2],
        (IH (e_div (e_add (e_div l r) e_one) (e_div e_one r))) as [B3 H3].
      exists (Nat.max B1 (Nat.max B2 B3)). intros f Hf. rewrite (H1 f), (H2 f), (H3 f) by lia. reflexivity.
    - unfold sub_limit_expr_rule, pop_unwrap. destruct (pop (child e)) as [[r rest]|]; [|exists 0%nat; intros; reflexivity].
      cbn [bind]. destruct (pop rest) as [[l rest']|]; [|exists 0%nat; intros; reflexivity]. cbn [bind].
      apply IH.
    - unfold mul_limit_expr_rule, pop_unwrap. destruct (pop (child e)) as [[r rest]|]; [|exists 0%nat; intros; reflexivity].
      cbn [bind]. destruct (pop rest) as [[l rest']|]; [|exists 0%nat; intros; reflexivity]. cbn [bind].
      destruct (IH r) as [B1 H1], (IH l) as [B2 H2], (IH (e_div r (e_div e_one l))) as [B3 H3],
        (IH (e_div l (e_div e_one r))) as [B4 H4].
      exists (Nat.max B1 (Nat.max B2 (Nat.max B3 B4))). intros f Hf.
      rewrite (H1 f), (H2 f), (H3 f), (H4 f) by lia. reflexivity.
    - unfold d_div_limit, div_limit_expr_rule, pop_unwrap. destruct (pop (child e)) as [[r rest]|]; [|exists 0%nat; intros; reflexivity].
      cbn [bind]. destruct (pop rest) as [[l rest']|]; [|exists 0%nat; intros; reflexivity]. cbn [bind].
      apply (div_loop_go m x (limit_var d m x to k) (fun f => d_limit_var d f m x to k)). exact IH.
    - exists (size e). intros f Hf. unfold d_sin_limit, sin_limit_expr_rule.
      rewrite (subst_limit_go m x to e f Hf). reflexivity.
    - exists (size e). intros f Hf. apply subst_limit_go. exact Hf. }
  destruct R as [B HB]. exists B. intros f Hf.
  cbn [d_limit_var limit_var]. rewrite (HB f Hf).
  destruct (limit_rule m x to k (limit_var d m x to k) e) as [[z|ez]| | |]; try reflexivity.
  unfold qbind; cbn [bind]. destruct z; reflexivity.
Qed.

(** ** C94 *)

(** the literal transcription returns what the model returns, in every build, for every tree
    (well-formed or not), and never recurses deeper than the number of nodes *)
Theorem c94_aggregate : forall m e fuel, (size e <= fuel)%nat ->
  d_aggregate fuel m e = num_aggregate m e.
Proof. intros. apply agg_go. assumption. Qed.

(** the three call forms of [substitute]: with a variable never [Err]; by value and by reference
    the same, [Err] exactly when the first argument is not a variable *)
Theorem c94_substitute : forall e v fuel, (size e <= fuel)%nat ->
  (forall x, d_subst_var fuel e x v = Ok (ROk (subst x v e))) /\
  (forall u, d_subst_val fuel e u v = Ok (substitute e u v) /\
             d_subst_ref fuel e u v = Ok (substitute e u v)) /\
  (forall x, d_subst_val fuel e (e_var x) v = d_subst_var fuel e x v).
Proof.
  intros e v fuel H. split; [|split].
  - intros x. apply subst_go. exact H.
  - intros u. unfold d_subst_val, d_subst_ref, substitute.
    change (to_variable_val u) with (to_variable u). change (to_variable_ref u) with (to_variable u).
    destruct (to_variable u) as [y|]; cbn [ok_or];
      unfold qbind; cbn [bind]; [rewrite (subst_go fuel y v e H)|]; split; reflexivity.
  - intros x. reflexivity.
Qed.

(** the three call forms of [derivative] *)
Theorem c94_derivative : forall m e fuel, (size e <= fuel)%nat ->
  (forall x err, d_deriv_var fuel m e x <> Ok (RErr err)) /\
  (forall x, d_deriv_var fuel m e x = (let* d := deriv m x e in Ok (ROk d))) /\
  (forall to, d_deriv_val fuel m e to = derivative m e to /\
              d_deriv_ref fuel m e to = derivative m e to) /\
  (forall x, d_deriv_val fuel m e (e_var x) = d_deriv_var fuel m e x).
Proof.
  intros m e fuel H. split; [|split; [|split]].
  - intros x err. rewrite (deriv_go m fuel x e H). destruct (deriv m x e); discriminate.
  - intros x. apply deriv_go. exact H.
  - intros to. unfold d_deriv_val, d_deriv_ref, derivative. change (to_variable_ref to) with (to_variable to).
    destruct (to_variable to) as [x|]; cbn [ok_or]; unfold qbind; cbn [bind];
      [rewrite (deriv_go m fuel x e H)|]; split; reflexivity.
  - intros x. reflexivity.
Qed.

(** the two call forms of [taylor_expansion]; the arms "substitute failure" and "derivative
    failure" are never taken *)
Theorem c94_taylor : forall m e at_ order, 
  (forall x, exists depth, forall fuel, (depth <= fuel)%nat ->
     d_taylor_var fuel m e x at_ order = (let* t := taylor_var m e x at_ order in Ok (ROk t)) /\
     d_taylor_val fuel m e (e_var x) at_ order = d_taylor_var fuel m e x at_ order) /\
  (forall of_, exists depth, forall fuel, (depth <= fuel)%nat ->
     d_taylor_val fuel m e of_ at_ order = taylor_expansion m e of_ at_ order /\
     (forall err, d_taylor_val fuel m e of_ at_ order = Ok (RErr err) ->
        err = mkTaylorError of_ "not a variable")).
Proof.
  intros m e at_ order.
  assert (V : forall x, exists depth, forall fuel, (depth <= fuel)%nat ->
     d_taylor_var fuel m e x at_ order = (let* t := taylor_var m e x at_ order in Ok (ROk t))).
  { intros x. destruct (taylor_go m x at_ e (Z.to_nat (order + 1)) 0 (sn_of_i64 1) e []) as [B HB].
    exists B. intros f Hf. unfold d_taylor_var, taylor_var. rewrite (HB f Hf).
    destruct (taylor_loop m x at_ (Z.to_nat (order + 1)) 0 (sn_of_i64 1) e []) as [[c r]| | |]; reflexivity. }
  split.
  - intros x. destruct (V x) as [B HB]. exists B. intros f Hf. split; [apply HB; exact Hf|reflexivity].
  - intros of_. unfold d_taylor_val, taylor_expansion. change (to_variable_val of_) with (to_variable of_).
    destruct (to_variable of_) as [x|].
    + destruct (V x) as [B HB]. exists B. intros f Hf. rewrite (HB f Hf). split; [reflexivity|].
      intros err. destruct (taylor_var m e x at_ order); discriminate.
    + exists 0%nat. intros f _. split; [reflexivity|]. intros err H. injection H as <-. reflexivity.
Qed.

(** the two call forms of [limit], at every recursion depth *)
Theorem c94_limit : forall m e to k depth,
  (forall x, exists B, forall fuel, (B <= fuel)%nat ->
     d_limit_var depth fuel m x to k e = limit_var depth m x to k e /\
     d_limit_val depth fuel m e (e_var x) to k = d_limit_var depth fuel m x to k e) /\
  (forall of_, exists B, forall fuel, (B <= fuel)%nat ->
     d_limit_val depth fuel m e of_ to k = limit depth m e of_ to k).
Proof.
  intros m e to k depth. split.
  - intros x. destruct (limit_go m x to k depth e) as [B HB]. exists B. intros f Hf.
    split; [apply HB; exact Hf|reflexivity].
  - intros of_. unfold d_limit_val, limit. change (to_variable_val of_) with (to_variable of_).
    destruct (to_variable of_) as [x|]; cbn [bind].
    + destruct (limit_go m x to k depth e) as [B HB]. exists B. exact HB.
    + exists 0%nat. intros; reflexivity.
Qed.

(** a number made from any integer type has exactly that value in every build, except a [u64]
    of 2^63 or more, which becomes the negative number v - 2^64 *)
Theorem c94_integers : forall t v, in_type t v ->
  (v < 2 ^ 63 -> forall m, into_expression m (FromInt t v) = Ok (e_of_i64 v)) /\
  (2 ^ 63 <= v -> forall m, m <> Strict -> into_expression m (FromInt t v) = Ok (e_of_i64 (v - 2 ^ 64))) /\
  (forall m e, m <> Strict -> into_expression m (FromInt t v) = Ok e ->
     exists n, e = e_num n /\ (exact_Q n = Some (inject_Z v) <-> v < 2 ^ 63)).
Proof.
  intros t v H.
  assert (A : v < 2 ^ 63 -> forall m, into_expression m (FromInt t v) = Ok (e_of_i64 v)).
  { intros Hv m. destruct t; try reflexivity.
    cbn [in_type] in H. unfold into_expression, val_from_int, cast_i64.
    assert (E : in_i64 v = true).
    { unfold in_i64, two63. apply andb_true_iff. split; [apply Z.leb_le|apply Z.ltb_lt]; lia. }
    rewrite E. reflexivity. }
  assert (B : 2 ^ 63 <= v -> forall m, m <> Strict -> into_expression m (FromInt t v) = Ok (e_of_i64 (v - 2 ^ 64))).
  { intros Hv m Hm. destruct t; cbn [in_type] in H; try lia.
    unfold into_expression, val_from_int, cast_i64.
    assert (E : in_i64 v = false).
    { unfold in_i64, two63. apply andb_false_iff. right. apply Z.ltb_ge. lia. }
    assert (W : wrap_i64 v = v - 2 ^ 64).
    { unfold wrap_i64, two63, two64.
      replace (v + 9223372036854775808) with ((v - 9223372036854775808) + 1 * 18446744073709551616) by lia.
      rewrite Z.mod_add by lia. rewrite Z.mod_small by lia. lia. }
    rewrite E. destruct m; [| |congruence]; rewrite W; reflexivity. }
  split; [exact A|split; [exact B|]].
  intros m e Hm He.
  destruct (Z_lt_le_dec v (2 ^ 63)) as [L|L].
  - rewrite (A L m) in He. injection He as <-. exists (sn_of_i64 v). split; [reflexivity|].
    split; [intros _; exact L|]. intros _. unfold sn_of_i64, sn_of_val, val_of_i64, val_is_one, val_is_zero.
    unfold exact_Q. destruct (v =? 1) eqn:E1; [reflexivity|]. destruct (v =? 0) eqn:E0; reflexivity.
  - rewrite (B L m Hm) in He. injection He as <-. exists (sn_of_i64 (v - 2 ^ 64)). split; [reflexivity|].
    split; [|lia]. intros Q. exfalso.
    unfold sn_of_i64, sn_of_val, val_of_i64, val_is_one, val_is_zero in Q. unfold exact_Q in Q.
    assert (P : Some (inject_Z (v - 2 ^ 64)) = Some (inject_Z v)).
    { rewrite <- Q. destruct (v - 2 ^ 64 =? 1); [reflexivity|]. destruct (v - 2 ^ 64 =? 0); reflexivity. }
    injection P as P. lia.
Qed.

(** the functions [sin], [cos], [exp], [ln], [pow] build the same tree whatever the type of the
    argument and however it is passed *)
Theorem c94_functions : forall m x e, into_expression m x = Ok e ->
  sin_fn m x = Ok (e_sin e) /\ sin_val e = e_sin e /\ sin_ref e = e_sin e /\
  cos_fn m x = Ok (e_cos e) /\ cos_val e = e_cos e /\ cos_ref e = e_cos e /\
  exp_fn e = e_exp e /\ exp_val e = e_exp e /\ ln_fn e = e_ln e /\ ln_val e = e_ln e /\
  (forall b, pow_into m b x = Ok (e_pow b e)).
Proof.
  intros m x e H. unfold sin_fn, cos_fn, pow_into. rewrite H.
  repeat split.
Qed.

(** what each argument converts to; the conversion of a number keeps it (its tag included) and
    converting back gives it again, by value and by reference *)
Theorem c94_conversions : forall m,
  (forall e, into_expression m (FromExpr e) = Ok e) /\
  (forall x, into_expression m (FromVariable x) = Ok (e_var x) /\
             into_expression m (FromOperand (Var x)) = Ok (e_var x)) /\
  (forall n, into_expression m (FromNum n) = into_expression m (FromOperand (Num n)) /\
     exists e, into_expression m (FromNum n) = Ok e /\
       to_smart_num_val e = ROk n /\ to_smart_num_ref e = ROk n /\
       e_to_rational_val m e = sn_to_rational m n /\ e_to_rational_ref m e = sn_to_rational m n) /\
  (forall f, into_expression m (FromF64 f) = Ok (e_num (sn_of_f64 f))) /\
  (forall f, into_expression m (FromF32 f) = into_expression m (FromF64 (f_of_f32 f))) /\
  (forall x, m <> Strict -> exists e, into_expression m x = Ok e).
Proof.
  intros m. repeat split.
  - exists (e_num n). repeat split.
  - intros [t v|f|f|n|x|o|e] Hm; try (eexists; reflexivity).
    cbn [into_expression]. destruct t; try (eexists; reflexivity).
    cbn [val_from_int]. unfold cast_i64. destruct (in_i64 v); [eexists; reflexivity|].
    destruct m; [| |congruence]; eexists; reflexivity.
Qed.

(** by value and by reference: the conversions back to a number, negation and [is_close] *)
Theorem c94_references : forall m,
  (forall e, to_smart_num_val e = to_smart_num_r e /\ to_smart_num_ref e = to_smart_num_r e) /\
  (forall e, e_to_rational_val m e = e_to_rational m e /\ e_to_rational_ref m e = e_to_rational m e) /\
  (forall v, val_neg_val m v = val_neg m v /\ val_neg_ref m v = val_neg m v) /\
  (forall a b eps, sn_is_close_val m a b eps = sn_is_close m a b eps /\
                   sn_is_close_ref m a b eps = sn_is_close m a b eps) /\
  (forall e, to_variable_val e = to_variable e /\ to_variable_ref e = to_variable e).
Proof.
  intros m. repeat split; intros; try (destruct e as [[op|[n|x]] c]; reflexivity).
Qed.

(** the hypotheses are met: a tree with three children under a binary operator and one under a
    malformed leaf, and the three call forms on x * x *)
Definition c94_tree : expr :=
  Expr (Operator (gen_op OAdd)) [e_var "z"; e_mul (e_var "x") (e_var "x"); e_of_i64 2].
Example c94_witness :
  d_aggregate 7 Debug c94_tree = Ok (e_add (e_mul (e_var "x") (e_var "x")) (e_of_i64 2)) /\
  d_aggregate 2 Debug c94_tree = Fuel /\
  d_deriv_val 7 Debug c94_tree (e_var "x") = Ok (ROk (e_add (e_var "x") (e_var "x"))) /\
  d_deriv_ref 7 Debug c94_tree (e_of_i64 3) = Ok (RErr (DerivativeError (e_of_i64 3))) /\
  d_subst_ref 7 c94_tree (e_var "z") (e_of_i64 1) =
    Ok (ROk (Expr (Operator (gen_op OAdd)) [e_of_i64 1; e_mul (e_var "x") (e_var "x"); e_of_i64 2])) /\
  d_limit_val 9 9 Debug (e_div (e_sin (e_var "x")) (e_var "x")) (e_var "x") e_zero 3
    = Ok (ROk (Normal (e_of_i64 1))) /\
  into_expression Debug (FromInt TU64 (2 ^ 64 - 1)) = Ok (e_of_i64 (-1)) /\
  in_type TU64 (2 ^ 64 - 1) /\ in_type TI8 (-128) /\
  into_expression Release (FromInt TI8 (-128)) = Ok (e_of_i64 (-128)).
Proof. repeat split; try reflexivity; cbn [in_type]; lia. Qed.

Print Assumptions c94_aggregate.
Print Assumptions c94_substitute.
Print Assumptions c94_derivative.
Print Assumptions c94_taylor.
Print Assumptions c94_limit.
Print Assumptions c94_integers.
Print Assumptions c94_functions.
Print Assumptions c94_conversions.
Print Assumptions c94_references.
