(** * PropsDepth2: C97 -- printing and limits on a bounded stack; a small stack never changes an outcome *)
From Coq Require Import ZArith List String Bool Lia Arith.
From Verif Require Import Base Float Rational SmartNum Ast Compute Limit Display Direct Depth.
From Verif Require Import Spec SpecTree SpecShape.
From Verif Require Import BaseProofs TreeProofs TreeProofs2 TreeProofs5 ShapeProofs LimTerm PropsDirect PropsDepth PropsTerm.
Import ListNotations.
Open Scope nat_scope.
Open Scope res_scope.

(** ** Display *)
Lemma od_ok o : exists s, od_to_string o = Ok s.
Proof.
  destruct o as [n|v]; cbn [od_to_string]; [|eauto]. unfold sn_to_string.
  destruct (ntag n); cbn; eauto.
Qed.

Lemma str_go e : wf e -> forall f up, depth e <= f ->
  exists s, s_to_string_raw f up e = Ok s /\ to_string_raw up e = Ok s.
Proof.
  intros W. pattern e. revert e W. apply wf_ind1.
  - intros n _ [|f] up H; [cbn in H; lia|]. destruct (od_ok (Num n)) as [s Hs]. exists s. split; exact Hs.
  - intros y [|f] up H; [cbn in H; lia|]. exists y. split; reflexivity.
  - intros t a Ht Wa IH [|f] up H; rewrite depth_mk1 in H; [lia|].
    unfold mk1. cbn [s_to_string_raw to_string_raw root child map].
    destruct (IH f (priority (gen_op t)) ltac:(lia)) as (s & S1 & S2). rewrite S1, S2. cbn [bind].
    destruct (priority (gen_op t) <? up)%Z; eexists; split; reflexivity.
  - intros t a b Ht Wa Wb IHa IHb [|f] up H; rewrite depth_mk2 in H; [lia|].
    unfold mk2. cbn [s_to_string_raw to_string_raw root child map].
    destruct (IHa f (priority (gen_op t)) ltac:(lia)) as (s & S1 & S2).
    destruct (IHb f (priority (gen_op t)) ltac:(lia)) as (s' & S1' & S2'). rewrite S1, S2, S1', S2'. cbn [bind].
    destruct (priority (gen_op t) <? up)%Z; eexists; split; reflexivity.
Qed.

Lemma str_over e : wf e -> forall f up, f < depth e -> s_to_string_raw f up e = Fuel.
Proof.
  intros W. pattern e. revert e W. apply wf_ind1.
  - intros n _ [|f] up H; [reflexivity|cbn in H; lia].
  - intros y [|f] up H; [reflexivity|cbn in H; lia].
  - intros t a Ht Wa IH [|f] up H; rewrite depth_mk1 in H; [reflexivity|].
    unfold mk1. cbn [s_to_string_raw root child]. rewrite IH by lia. reflexivity.
  - intros t a b Ht Wa Wb IHa IHb [|f] up H; rewrite depth_mk2 in H; [reflexivity|].
    unfold mk2. cbn [s_to_string_raw root child].
    destruct (Nat.lt_ge_cases f (depth a)) as [L|L]; [rewrite IHa by exact L; reflexivity|].
    destruct (str_go a Wa f (priority (gen_op t)) L) as (s & -> & _). cbn [bind].
    rewrite IHb by lia. reflexivity.
Qed.

(** printing needs exactly as many nested calls as the expression is deep *)
Theorem c97_display e up f : wf e ->
  s_to_string_raw f up e = (if depth e <=? f then to_string_raw up e else Fuel).
Proof.
  intros W. destruct (Nat.leb_spec (depth e) f) as [L|L].
  - destruct (str_go e W f up L) as (s & -> & ->). reflexivity.
  - apply str_over; assumption.
Qed.

(** ** a small stack: overflow or the same outcome *)
Lemma agg_fle m f e : fle (d_aggregate f m e) (num_aggregate m e).
Proof.
  revert e; induction f as [|f IH]; intros [r c]; [left; reflexivity|].
  cbn [d_aggregate num_aggregate root child].
  destruct r as [op|o]; [|apply fle_refl].
  destruct (descriptor op); cbn [eval_rule];
    unfold d_neg_eval, d_add_eval, d_sub_eval, d_mul_eval, d_div_eval, d_sin_eval, d_cos_eval,
      d_exp_eval, d_ln_eval, d_pow_eval,
      neg_eval_rule, add_eval_rule, sub_eval_rule, mul_eval_rule, div_eval_rule, sin_eval_rule,
      cos_eval_rule, exp_eval_rule, ln_eval_rule, pow_eval_rule, eval2, pop_unwrap;
    rewrite pop_map; destruct (pop c) as [[x c1]|] eqn:P; try (right; reflexivity);
    cbn [bind]; (destruct (IH x) as [-> | ->]; [left; reflexivity|]);
    destruct (num_aggregate m x) as [y| | |]; try (right; reflexivity); cbn [bind];
    rewrite ?pop_map; try (right; reflexivity);
    (destruct (pop c1) as [[x' c2]|] eqn:P'; try (right; reflexivity);
     cbn [bind]; (destruct (IH x') as [-> | ->]; [left; reflexivity|]);
     destruct (num_aggregate m x') as [y'| | |]; right; reflexivity).
Qed.

Lemma subst_fle f u v e : fle (d_subst_var f e u v) (Ok (ROk (subst u v e))).
Proof.
  revert e; induction f as [|f IH]; intros [r c]; [left; reflexivity|].
  cbn [d_subst_var subst root child ok_or qbind bind].
  destruct r as [op|[n|w]]; [|apply fle_refl|destruct (String.eqb w u); apply fle_refl].
  assert (L : forall cs acc, 
    fle (d_sub_loop (fun x => d_subst_var f x u v) cs acc) (Ok (ROk (acc ++ map (subst u v) cs)%list))).
  { induction cs as [|x cs IHc]; intros acc; cbn [d_sub_loop map].
    - rewrite app_nil_r. apply fle_refl.
    - destruct (IH x) as [-> | ->]; [left; reflexivity|]. cbn [qbind bind].
      destruct (IHc (acc ++ [subst u v x])%list) as [-> | ->]; [left; reflexivity|].
      rewrite <- app_assoc. apply fle_refl. }
  destruct (L c []) as [-> | ->]; [left; reflexivity|]. apply fle_refl.
Qed.

Lemma clone_fle f e : fle (s_clone f e) (Ok e).
Proof. rewrite c97_clone. destruct (depth e <=? f); [right|left]; reflexivity. Qed.

Lemma deriv_fle m f x e : fle (s_deriv f m e x) (let* d := deriv m x e in Ok (ROk d)).
Proof.
  revert e; induction f as [|f IH]; intros [r c]; [left; reflexivity|].
  assert (F : forall z, fle (let* w := d_aggregate f m z in Ok (@ROk expr derivative_error w))
                            (let* w := num_aggregate m z in Ok (ROk w))).
  { intros z. apply fle_bind; [apply agg_fle|]. intros; apply fle_refl. }
  assert (Q : forall (z : expr), qbind (Ok (@ROk expr derivative_error z)) (fun r => let* w := d_aggregate f m r in Ok (@ROk expr derivative_error w))
     = (let* w := d_aggregate f m z in Ok (@ROk expr derivative_error w))) by reflexivity.
  cbn [s_deriv deriv root child ok_or]. unfold qbind at 1. cbn [bind].
  destruct r as [op|[n|w]].
  2:{ exact (F (e_of_i64 0)). }
  2:{ destruct (String.eqb x w); [exact (F (e_of_i64 1))|exact (F (e_of_i64 0))]. }
  destruct (descriptor op); cbn [derivative_rule];
    unfold d_neg_deriv, d_add_deriv, d_sub_deriv, d_mul_deriv, d_div_deriv, d_sin_deriv, d_cos_deriv,
      d_exp_deriv, d_ln_deriv, d_pow_deriv,
      neg_derivative_rule, add_derivative_rule, sub_derivative_rule, mul_derivative_rule,
      div_derivative_rule, sin_derivative_rule, cos_derivative_rule, exp_derivative_rule,
      ln_derivative_rule, pow_derivative_rule, pop2, pop_unwrap;
    rewrite pop_map; destruct (pop c) as [[y c1]|] eqn:P; try (right; reflexivity); cbn [bind].
  all: try ((destruct (IH y) as [-> | ->]; [left; reflexivity|]);
    destruct (deriv m x y) as [d| | |]; try (right; reflexivity); cbn [bind qbind];
    rewrite ?pop_map; try apply F;
    (destruct (pop c1) as [[z c2]|] eqn:P'; [|right; reflexivity]); cbn [bind];
    (destruct (IH z) as [-> | ->]; [left; reflexivity|]);
    destruct (deriv m x z) as [d'| | |]; try (right; reflexivity); apply F).
  all: rewrite pop_map; (destruct (pop c1) as [[z c2]|] eqn:P'; [|right; reflexivity]); cbn [bind];
    (destruct (IH y) as [-> | ->]; [left; reflexivity|]);
    destruct (deriv m x y) as [d| | |]; try (right; reflexivity); cbn [bind qbind];
    (destruct (IH z) as [-> | ->]; [left; reflexivity|]);
    destruct (deriv m x z) as [d'| | |]; try (right; reflexivity); apply F.
Qed.

Lemma taylor_fle m f x at_ err n : forall k fa r coef,
  fle (s_taylor_loop f m x at_ err n k fa r coef) (let* t := taylor_loop m x at_ n k fa r coef in Ok (ROk t)).
Proof.
  induction n as [|n IH]; intros k fa r coef; [apply fle_refl|]. cbn [s_taylor_loop taylor_loop].
  destruct (sn_of_u64 m (Z.max k 1)) as [kn| | |]; cbn [bind]; try apply fle_refl.
  destruct (sn_mul m fa kn) as [fa'| | |]; cbn [bind]; try apply fle_refl.
  destruct (clone_fle f r) as [-> | ->]; [left; reflexivity|]. cbn [bind].
  destruct (subst_fle f x at_ r) as [-> | ->]; [left; reflexivity|]. cbn [map_err qbind bind].
  destruct (agg_fle m f (subst x at_ r)) as [-> | ->]; [left; reflexivity|].
  destruct (num_aggregate m (subst x at_ r)) as [s| | |]; cbn [bind]; try apply fle_refl.
  destruct (agg_fle m f (e_div s (e_num fa'))) as [-> | ->]; [left; reflexivity|].
  destruct (num_aggregate m (e_div s (e_num fa'))) as [c| | |]; cbn [bind]; try apply fle_refl.
  destruct (deriv_fle m f x r) as [-> | ->]; [left; reflexivity|].
  destruct (deriv m x r) as [r'| | |]; cbn [bind map_err qbind]; try apply fle_refl. apply IH.
Qed.

Lemma neg_fle f : forall e, fle (s_neg_limit f e) (neg_limit_expr_rule e).
Proof.
  induction f as [|f IH]; intros [r c]; [left; reflexivity|]. cbn [s_neg_limit neg_limit_expr_rule child].
  unfold pop_unwrap. rewrite pop_map. destruct (pop c) as [[y c1]|]; [|apply fle_refl]. cbn [bind].
  apply fle_bind; [apply IH|]. intros; apply fle_refl.
Qed.

Section LimFle.
  Variables (f : nat) (m : mode) (x : string) (to : expr) (ord : Z) (lim1 lim2 : expr -> res lres).
  Hypothesis Hlim : forall e, fle (lim1 e) (lim2 e).
  Lemma copy_fle e : fle (s_lim_copy f to lim1 e) (lim2 e).
  Proof.
    unfold s_lim_copy. destruct (clone_fle f e) as [-> | ->]; [left; reflexivity|]. cbn [bind].
    destruct (clone_fle f to) as [-> | ->]; [left; reflexivity|]. apply Hlim.
  Qed.
  Lemma loop_fle n : forall l r, fle (s_div_loop f m x to lim1 n l r) (div_loop m x lim2 n l r).
  Proof.
    induction n as [|n IH]; intros l r; [apply fle_refl|]. cbn [s_div_loop div_loop].
    apply fle_qbind; [apply copy_fle|]. intros a. apply fle_qbind; [apply copy_fle|]. intros b.
    destruct (l_div a b); [apply fle_refl|].
    destruct (deriv_fle m f x l) as [-> | ->]; [left; reflexivity|].
    destruct (deriv m x l) as [l'| | |]; try apply fle_refl. cbn [bind map_err qbind].
    destruct (deriv_fle m f x r) as [-> | ->]; [left; reflexivity|].
    destruct (deriv m x r) as [r'| | |]; try apply fle_refl. apply IH.
  Qed.
  Lemma sl_fle e : fle (s_subst_limit f m x to e) (subst_limit m x to e).
  Proof.
    unfold s_subst_limit, subst_limit. destruct (subst_fle f x to e) as [-> | ->]; [left; reflexivity|].
    cbn [map_err qbind bind]. apply fle_bind; [apply agg_fle|]. intros; apply fle_refl.
  Qed.
End LimFle.

Lemma limit_fle m x to ord f : forall e, fle (s_limit f m x to ord e) (limit_var f m x to ord e).
Proof.
  induction f as [|f IH]; intros e; [left; reflexivity|]. cbn [s_limit limit_var]. apply fle_qbind.
  2:{ intros [| | |ex]; try apply fle_refl. apply fle_bind; [apply agg_fle|]. intros; apply fle_refl. }
  unfold limit_rule. destruct (root e) as [op|[n|v]]; [|apply fle_refl..].
  destruct (descriptor op); try apply fle_refl.
  - apply fle_bind; [apply neg_fle|]. intros; apply fle_refl.
  - unfold s_add_limit, add_limit_expr_rule. apply fle_bind; [apply fle_refl|]. intros [r rest].
    apply fle_bind; [apply fle_refl|]. intros [l rest'].
    apply fle_qbind; [apply copy_fle, IH|]. intros a. apply fle_qbind; [apply copy_fle, IH|]. intros b.
    destruct (l_add b a); [apply fle_refl|].
    destruct (clone_fle f r) as [-> | ->]; [left; reflexivity|]. apply IH.
  - unfold sub_limit_expr_rule. apply fle_bind; [apply fle_refl|]. intros [r rest].
    apply fle_bind; [apply fle_refl|]. intros [l rest']. apply IH.
  - unfold s_mul_limit, mul_limit_expr_rule. apply fle_bind; [apply fle_refl|]. intros [r rest].
    apply fle_bind; [apply fle_refl|]. intros [l rest'].
    apply fle_qbind; [apply copy_fle, IH|]. intros a. apply fle_qbind; [apply copy_fle, IH|]. intros b.
    destruct (l_mul b a); [apply fle_refl|]. destruct (lim_is_zero a); apply IH.
  - unfold s_div_limit, div_limit_expr_rule. apply fle_bind; [apply fle_refl|]. intros [r rest].
    apply fle_bind; [apply fle_refl|]. intros [l rest']. apply loop_fle, IH.
  - unfold sin_limit_expr_rule. destruct (is_zero to); [apply fle_refl|apply sl_fle].
  - apply sl_fle.
Qed.

(** Whatever the stack size, the expression (well-formed or not) and the build: each operation
    either overflows the stack or does exactly what it does without a limit - same value, same
    error, same panic. *)
Theorem c97_all_or_nothing f m e : 
  (d_aggregate f m e = Fuel \/ d_aggregate f m e = num_aggregate m e) /\
  (forall x v, d_subst_var f e x v = Fuel \/ d_subst_var f e x v = Ok (substitute e (e_var x) v)) /\
  (forall x, s_deriv f m e x = Fuel \/ s_deriv f m e x = derivative m e (e_var x)) /\
  (forall x at_ n, s_taylor f m e x at_ n = Fuel \/ s_taylor f m e x at_ n = taylor_expansion m e (e_var x) at_ n) /\
  (forall x to ord, s_limit f m x to ord e = Fuel \/
     forall depth, f <= depth -> s_limit f m x to ord e = limit depth m e (e_var x) to ord).
Proof.
  split; [apply agg_fle|]. split; [intros x v; exact (subst_fle f x v e)|]. split; [intros x; exact (deriv_fle m f x e)|].
  split.
  2:{ intros x to ord. destruct (limit_fle m x to ord f e) as [E|E]; [left; exact E|].
      destruct (s_limit f m x to ord e) as [r| | |] eqn:K; [right|right|right|left; reflexivity]; intros d Hd;
        (destruct (limit_var_fle m x to ord f d e Hd) as [E'|E']; [congruence|]); rewrite E, E'; reflexivity. }
  intros x at_ n. unfold s_taylor.
  destruct (clone_fle f e) as [-> | ->]; [left; reflexivity|]. cbn [bind].
  destruct (taylor_fle m f x at_ e (Z.to_nat (n + 1)) 0%Z (sn_of_i64 1) e []) as [-> | ->]; [left; reflexivity|].
  change (taylor_expansion m e (e_var x) at_ n) with
    (let* t := taylor_var m e x at_ n in Ok (@ROk expansion taylor_error t)). unfold taylor_var.
  destruct (taylor_loop m x at_ (Z.to_nat (n + 1)) 0 (sn_of_i64 1) e []) as [[cs r]| | |]; cbn [bind qbind]; try (right; reflexivity).
  destruct (clone_fle f at_) as [-> | ->]; [left; reflexivity|]. right; reflexivity.
Qed.

(** ** limits: some finite stack is always enough *)
Definition conv {A} (F : nat -> res A) (r : res A) : Prop := r <> Fuel -> exists B, forall f, B <= f -> F f = r.
Lemma conv_const {A} (r : res A) : conv (fun _ => r) r.
Proof. intros _. exists 0. reflexivity. Qed.
Lemma conv_bind {A B} (F : nat -> res A) (G : A -> nat -> res B) r g :
  conv F r -> (forall a, r = Ok a -> conv (G a) (g a)) -> conv (fun f => bind (F f) (fun a => G a f)) (bind r g).
Proof.
  intros HF HG N. destruct r as [a| | |].
  - destruct (HF ltac:(discriminate)) as [B1 H1]. destruct (HG a eq_refl N) as [B2 H2].
    exists (Nat.max B1 B2). intros f Hf. rewrite H1 by lia. cbn [bind]. apply H2. lia.
  - destruct (HF ltac:(discriminate)) as [B1 H1]. exists B1. intros f Hf. rewrite H1 by lia. reflexivity.
  - destruct (HF ltac:(discriminate)) as [B1 H1]. exists B1. intros f Hf. rewrite H1 by lia. reflexivity.
  - exfalso. apply N. reflexivity.
Qed.
Lemma conv_qbind {A B E} (F : nat -> res (result A E)) (G : A -> nat -> res (result B E)) r g :
  conv F r -> (forall a, r = Ok (ROk a) -> conv (G a) (g a)) -> conv (fun f => qbind (F f) (fun a => G a f)) (qbind r g).
Proof.
  intros HF HG. unfold qbind.
  apply (conv_bind F (fun x f => match x with ROk a => G a f | RErr e => Ok (RErr e) end)); [exact HF|].
  intros [a|e] Ha; [apply HG; exact Ha|apply conv_const].
Qed.
Lemma conv_S {A} (F : nat -> res A) r : conv (fun f => F (S f)) r -> conv F r.
Proof.
  intros H N. destruct (H N) as [B HB]. exists (S B). intros [|f] Hf; [lia|]. apply HB. lia.
Qed.
Lemma conv_agg m e : conv (fun f => d_aggregate f m e) (num_aggregate m e).
Proof. intros _. exists (depth e). intros f H. apply agg_dgo. exact H. Qed.
Lemma conv_clone e : conv (fun f => s_clone f e) (Ok e).
Proof. intros _. exists (depth e). intros f H. apply clone_go. exact H. Qed.
Lemma conv_subst x v e : conv (fun f => d_subst_var f e x v) (Ok (ROk (subst x v e))).
Proof. intros _. exists (depth e). intros f H. apply subst_dgo. exact H. Qed.
Lemma conv_deriv m x e : wf e -> conv (fun f => s_deriv f m e x) (let* d := deriv m x e in Ok (ROk d)).
Proof. intros W _. exists (4 * depth e). intros f H. exact (proj1 (c97_derivative e x f W) H m). Qed.

Lemma conv_neg e : conv (fun f => s_neg_limit f e) (neg_limit_expr_rule e).
Proof.
  induction e as [r c IH] using expr_ind'. apply conv_S. cbn [s_neg_limit neg_limit_expr_rule child].
  unfold pop_unwrap. rewrite pop_map. destruct (pop c) as [[y c1]|] eqn:P; [|apply conv_const].
  destruct (pop_in c y c1 P) as [Hy _]. rewrite Forall_forall in IH. specialize (IH y Hy). cbn [bind].
  apply (conv_bind (fun f => s_neg_limit f y) (fun l _ => Ok (l_neg l))); [exact IH|]. intros; apply conv_const.
Qed.

Section ConvLimit.
  Variables (m : mode) (x : string) (to : expr) (ord : Z).
  Variables (L : nat -> expr -> res lres) (lim : expr -> res lres).
  Hypothesis HL : forall e, wf e -> conv (fun f => L f e) (lim e).

  Lemma conv_copy e : wf e -> conv (fun f => s_lim_copy f to (L f) e) (lim e).
  Proof.
    intros W. unfold s_lim_copy. change (lim e) with (let* e' := Ok e in let* _ := Ok to in lim e').
    apply (conv_bind (fun f => s_clone f e) (fun e' f => let* _ := s_clone f to in L f e')); [apply conv_clone|].
    intros a [= <-].
    apply (conv_bind (fun f => s_clone f to) (fun _ f => L f e)); [apply conv_clone|]. intros. apply HL. exact W.
  Qed.

  Lemma conv_loop n : forall l r, wf l -> wf r -> conv (fun f => s_div_loop f m x to (L f) n l r) (div_loop m x lim n l r).
  Proof.
    induction n as [|n IH]; intros l r Wl Wr; [apply conv_const|]. cbn [s_div_loop div_loop].
    apply (conv_qbind (fun f => s_lim_copy f to (L f) l) (fun a f => qbind (s_lim_copy f to (L f) r) (fun b => match l_div a b with
      | ROk z => Ok (ROk z) | RErr _ => let? l' := map_err (fun _ => NoValidLimitFound) (s_deriv f m l x) in
          let? r' := map_err (fun _ => NoValidLimitFound) (s_deriv f m r x) in s_div_loop f m x to (L f) n l' r' end)));
      [apply conv_copy; exact Wl|]. intros a _.
    apply (conv_qbind (fun f => s_lim_copy f to (L f) r) (fun b f => match l_div a b with
      | ROk z => Ok (ROk z) | RErr _ => let? l' := map_err (fun _ => NoValidLimitFound) (s_deriv f m l x) in
          let? r' := map_err (fun _ => NoValidLimitFound) (s_deriv f m r x) in s_div_loop f m x to (L f) n l' r' end));
      [apply conv_copy; exact Wr|]. intros b _.
    destruct (l_div a b); [apply conv_const|]. intros N.
    destruct (conv_deriv m x l Wl) as [B1 H1]. { intros K. apply N. destruct (deriv m x l); try discriminate K. reflexivity. }
    destruct (deriv m x l) as [l'| | |] eqn:El; cbn [bind] in *;
      try (exists B1; intros f Hf; rewrite H1 by exact Hf; reflexivity).
    destruct (conv_deriv m x r Wr) as [B2 H2]. { intros K. apply N. destruct (deriv m x r); try discriminate K. reflexivity. }
    destruct (deriv m x r) as [r'| | |] eqn:Er; cbn [bind] in *;
      try (exists (Nat.max B1 B2); intros f Hf; rewrite H1, H2 by lia; reflexivity).
    destruct (IH l' r' (deriv_wf _ _ _ _ Wl El) (deriv_wf _ _ _ _ Wr Er) N) as [B3 H3].
    exists (Nat.max B1 (Nat.max B2 B3)). intros f Hf. rewrite H1, H2 by lia. cbn [map_err qbind bind]. apply H3. lia.
  Qed.

  Lemma conv_sl e : conv (fun f => s_subst_limit f m x to e) (subst_limit m x to e).
  Proof.
    intros _. exists (Nat.max (depth e) (depth (subst x to e))). intros f Hf. unfold s_subst_limit, subst_limit.
    rewrite subst_dgo by lia. cbn [map_err qbind bind]. rewrite agg_dgo by lia. reflexivity.
  Qed.
End ConvLimit.

Lemma conv_limit m x to ord : forall d e, wf e -> conv (fun f => s_limit f m x to ord e) (limit_var d m x to ord e).
Proof.
  induction d as [|d IH]; intros e W; [intros N; exfalso; apply N; reflexivity|].
  apply conv_S. cbn [s_limit limit_var].
  match goal with |- conv (fun f => qbind (@?F f) (@?G f)) (qbind ?r ?g) =>
    apply (conv_qbind F (fun z f => G f z) r g) end.
  2:{ intros [| | |ex] _; try apply conv_const.
      apply (conv_bind (fun f => d_aggregate f m ex) (fun ex' _ => Ok (ROk (Normal ex')))); [apply conv_agg|]. intros; apply conv_const. }
  unfold limit_rule. set (lim := limit_var d m x to ord) in *. set (L := fun f => s_limit f m x to ord).
  destruct e as [[op|[n|v]] c]; cbn [root]; [|apply conv_const..].
  destruct (wf_op_inv _ _ W) as (Hop & Hc).
  assert (D : Expr (Operator op) c = Expr (Operator (gen_op (descriptor op))) c) by congruence.
  destruct (descriptor op) eqn:Et; try apply conv_const.
  - apply (conv_bind (fun f => s_neg_limit f (Expr (Operator op) c)) (fun l _ => Ok (ROk l))); [apply conv_neg|]. intros; apply conv_const.
  - destruct Hc as [(Ha & _)|(_ & a & b & -> & Wa & Wb)]; [discriminate|].
    unfold s_add_limit, add_limit_expr_rule, pop_unwrap. cbn [child pop bind].
    apply (conv_qbind (fun f => s_lim_copy f to (L f) b) (fun r_limit f => let? l_limit := s_lim_copy f to (L f) a in
       match l_add l_limit r_limit with ROk z => Ok (ROk z)
       | RErr _ => let* r' := s_clone f b in L f (e_div (e_add (e_div a r') e_one) (e_div e_one b)) end));
      [apply conv_copy; [exact IH|exact Wb]|]. intros rl _.
    apply (conv_qbind (fun f => s_lim_copy f to (L f) a) (fun l_limit f => 
       match l_add l_limit rl with ROk z => Ok (ROk z)
       | RErr _ => let* r' := s_clone f b in L f (e_div (e_add (e_div a r') e_one) (e_div e_one b)) end));
      [apply conv_copy; [exact IH|exact Wa]|]. intros ll _.
    destruct (l_add ll rl); [apply conv_const|].
    apply (conv_bind (fun f => s_clone f b) (fun r' f => L f (e_div (e_add (e_div a r') e_one) (e_div e_one b))) (Ok b)
      (fun r' => lim (e_div (e_add (e_div a r') e_one) (e_div e_one b)))); [apply conv_clone|].
    intros r' [= <-]. apply IH. 
    repeat first [assumption | apply wf_mk2; [reflexivity| |] | apply wf_num; vm_compute; intuition discriminate].
  - destruct Hc as [(Ha & _)|(_ & a & b & -> & Wa & Wb)]; [discriminate|].
    unfold sub_limit_expr_rule, pop_unwrap. cbn [child pop bind]. apply IH.
    repeat first [assumption | apply wf_mk2; [reflexivity| |] | apply wf_mk1; [reflexivity|]].
  - destruct Hc as [(Ha & _)|(_ & a & b & -> & Wa & Wb)]; [discriminate|].
    unfold s_mul_limit, mul_limit_expr_rule, pop_unwrap. cbn [child pop bind].
    apply (conv_qbind (fun f => s_lim_copy f to (L f) b) (fun r_limit f => let? l_limit := s_lim_copy f to (L f) a in
       match l_mul l_limit r_limit with ROk z => Ok (ROk z)
       | RErr _ => if lim_is_zero r_limit then L f (e_div b (e_div e_one a)) else L f (e_div a (e_div e_one b)) end));
      [apply conv_copy; [exact IH|exact Wb]|]. intros rl _.
    apply (conv_qbind (fun f => s_lim_copy f to (L f) a) (fun l_limit f => 
       match l_mul l_limit rl with ROk z => Ok (ROk z)
       | RErr _ => if lim_is_zero rl then L f (e_div b (e_div e_one a)) else L f (e_div a (e_div e_one b)) end));
      [apply conv_copy; [exact IH|exact Wa]|]. intros ll _.
    destruct (l_mul ll rl); [apply conv_const|].
    destruct (lim_is_zero rl); apply IH;
      repeat first [assumption | apply wf_mk2; [reflexivity| |] | apply wf_num; vm_compute; intuition discriminate].
  - destruct Hc as [(Ha & _)|(_ & a & b & -> & Wa & Wb)]; [discriminate|].
    unfold s_div_limit, div_limit_expr_rule, pop_unwrap. cbn [child pop bind].
    apply (conv_loop m x to L lim IH); assumption.
  - unfold sin_limit_expr_rule. destruct (is_zero to); [apply conv_const|apply conv_sl].
  - apply conv_sl.
Qed.

(** [limit] on a well-formed expression: from some stack size on it does what it does without a
    limit on the stack; it never needs an unbounded stack *)
Theorem c97_limit m e x to ord : wf e ->
  exists r B, r <> Fuel /\ forall f, B <= f -> s_limit f m x to ord e = r /\ limit f m e (e_var x) to ord = r.
Proof.
  intros W. destruct (c53_limit_terminates m e (e_var x) to ord W) as (r & d & N & H).
  assert (E : limit_var d m x to ord e = r) by (exact (H d (Nat.le_refl d))).
  destruct (conv_limit m x to ord d e W) as [B HB]; [rewrite E; exact N|].
  exists r, (Nat.max B d). split; [exact N|]. intros f Hf. split; [rewrite HB by lia; exact E|apply H; lia].
Qed.

(** ** a non-trivial case *)
Definition c97_quot : expr := e_div (e_mul (e_sin (e_var "x")) (e_sin (e_var "x"))) (e_var "x").
Lemma c97_quot_wf : wf c97_quot.
Proof.
  unfold c97_quot, e_div, e_mul, e_sin.
  repeat first [assumption | apply wf_mk1; [reflexivity|] | apply wf_mk2; [reflexivity| |] | apply wf_var].
Qed.
Example c97_witness2 : wf c97_quot /\
  s_limit 3 Release "x" e_zero 1 c97_quot = Fuel /\
  s_limit 12 Release "x" e_zero 1 c97_quot = Ok (ROk Infinitesimal) /\
  s_to_string_raw 3 0 c97_quot = Fuel /\
  s_to_string_raw 4 0 c97_quot = to_string_raw 0 c97_quot.
Proof. split; [exact c97_quot_wf|]. repeat split; vm_compute; reflexivity. Qed.

Print Assumptions c97_display.
Print Assumptions c97_all_or_nothing.
Print Assumptions c97_limit.
