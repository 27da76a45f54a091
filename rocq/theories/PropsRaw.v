(** * PropsRaw: hand-built trees (C71) *)
From Coq Require Import List String ZArith Bool Lia.
From Verif Require Import Base Float Rational SmartNum Ast Compute Limit Display Spec SpecTree SpecRaw.
From Verif Require Import BaseProofs NumProofs NumProofs2 TreeProofs TreeProofs2 RawProofs.
Import ListNotations.
Open Scope list_scope.

(** ** C71: every computation sees only the last one or two children of an operator, and only
    its kind: the outcome on a hand-built tree is the outcome on its tidy version *)

Theorem c71_num_aggregate m e : num_aggregate m (prune e) = on_ok prune (num_aggregate m e).
Proof. exact (agg_prune m e). Qed.
Print Assumptions c71_num_aggregate.

Theorem c71_derivative m e x : derivative m (prune e) (prune x) = on_ok dprune (derivative m e x).
Proof.
  unfold derivative. rewrite tov_prune. destruct (to_variable x) as [v|]; [|reflexivity].
  rewrite deriv_prune. destruct (deriv m v e); reflexivity.
Qed.
Print Assumptions c71_derivative.

Theorem c71_substitute e u v : substitute (prune e) (prune u) (prune v) = sprune (substitute e u v).
Proof.
  unfold substitute. rewrite tov_prune. destruct (to_variable u) as [x|]; [|reflexivity].
  cbn [sprune]. now rewrite subst_prune.
Qed.
Print Assumptions c71_substitute.

Theorem c71_taylor m e x a n :
  taylor_expansion m (prune e) (prune x) (prune a) n = on_ok tprune (taylor_expansion m e x a n).
Proof.
  unfold taylor_expansion. rewrite tov_prune. destruct (to_variable x) as [v|] eqn:V; [|reflexivity].
  unfold taylor_var. rewrite (taylor_loop_prune m v a _ 0 (sn_of_i64 1) e []).
  destruct (taylor_loop m v a (Z.to_nat (n + 1)) 0 (sn_of_i64 1) e []) as [[cs r]| | |]; reflexivity.
Qed.
Print Assumptions c71_taylor.

Theorem c71_limit fuel m e x to n :
  limit fuel m (prune e) (prune x) (prune to) n = on_ok rprune (limit fuel m e x to n).
Proof.
  unfold limit. rewrite tov_prune. destruct (to_variable x) as [v|]; [|reflexivity].
  exact (limit_prune fuel m v to n e).
Qed.
Print Assumptions c71_limit.

(** the queries and conversions look at the root only *)
Theorem c71_queries e : is_num (prune e) = is_num e /\ is_zero (prune e) = is_zero e /\
  is_one (prune e) = is_one e /\ is_pi (prune e) = is_pi e /\ is_e (prune e) = is_e e /\
  is_operator (prune e) = is_operator e /\ is_operand (prune e) = is_operand e /\
  to_smart_num (prune e) = to_smart_num e /\ to_variable (prune e) = to_variable e.
Proof. destruct e as [[op|[n|v]] c]; repeat split; reflexivity. Qed.
Print Assumptions c71_queries.

(** surplus children never cause a panic; missing ones always do *)
Theorem c71_release_returns e : nums_ok e ->
  ((exists z, num_aggregate Release e = Ok z) <-> enough e).
Proof.
  intros N. split.
  - intros (z & H). exact (agg_enough _ _ _ H).
  - intros H. destruct (safe_release _ (agg_safe Release _ (wf_prune e N H))) as (z & E).
    rewrite agg_prune in E. destruct (num_aggregate Release e); try discriminate E. eauto.
Qed.
Print Assumptions c71_release_returns.

Theorem c71_derivative_release_returns e x : nums_ok e ->
  ((exists d, derivative Release e (e_var x) = Ok (ROk d)) <-> enough e).
Proof.
  intros N. unfold derivative. cbn [to_variable e_var root]. split.
  - intros (d & H). destruct (deriv Release x e) as [d'| | |] eqn:E; try discriminate H.
    clear H d N. revert d' E. induction e as [r c IH] using expr_ind'. intros d' E. destruct r as [op|o]; [|constructor].
    rewrite deriv_node in E.
    match type of E with bind ?r _ = _ => destruct r as [raw| | |] eqn:R; try discriminate E end. clear E.
    destruct (arity12 (descriptor op)) as [At|At].
    + destruct c as [|a c'] using rev_ind; [cbn [map] in R; rewrite drule_nil in R; discriminate|]. clear IHc'.
      apply Forall_app in IH as [_ IH]. inversion IH; subst. apply en_unary; [exact At|].
      rewrite map_app in R. cbn [map] in R. rewrite (drule_last1 _ _ _ At) in R.
      destruct (deriv Release x a) as [da| | |]; [eauto| | |]; destruct (descriptor op); discriminate.
    + destruct (list_cases c) as [-> | [(a & ->) | (pre & a & b & ->)]].
      * cbn [map] in R; rewrite drule_nil in R; discriminate.
      * exfalso. cbn [map] in R. destruct (deriv Release x a); destruct (descriptor op); discriminate.
      * apply Forall_app in IH as [_ IH]. inversion IH as [|? ? Ha IH2]; subst. inversion IH2 as [|? ? Hb _]; subst.
        rewrite map_app in R. cbn [map] in R. rewrite (drule_last2 _ _ _ _ At) in R.
        apply en_binary; [exact At| |].
        -- destruct (deriv Release x a) as [da| | |]; [eauto| | |]; destruct (deriv Release x b);
             destruct (descriptor op); discriminate.
        -- destruct (deriv Release x b) as [db| | |]; [eauto| | |]; destruct (descriptor op); discriminate.
  - intros H. destruct (safe_release _ (deriv_safe Release x _ (wf_prune e N H))) as (z & E).
    rewrite deriv_prune in E. destruct (deriv Release x e); try discriminate E. cbn [bind]. eauto.
Qed.
Print Assumptions c71_derivative_release_returns.

(** formatting is different: it needs one child, shows the first (or both of exactly two) *)
Theorem c71_to_string_returns e : (exists s, e_to_string e = Ok s) <-> printable e.
Proof.
  unfold e_to_string. generalize 0%Z as u.
  assert (forall n, exists s, sn_to_string n = Ok s) as Hn.
  { intros n. unfold sn_to_string. destruct (ntag n); cbn; eauto. }
  induction e as [r c IH] using expr_ind'. intros u. destruct r as [op|o].
  - cbn [to_string_raw]. destruct c as [|a c]; [|destruct c as [|b c]; [|destruct c as [|d c]]]; cbn [map].
    + split; [intros (s & H); discriminate H|intros H; inversion H].
    + inversion IH as [|? ? Ia _]; subst. specialize (Ia (priority op)). split.
      * intros (s & H). apply pr_first; [cbn; lia|]. apply Ia.
        destruct (to_string_raw (priority op) a); try discriminate H. eauto.
      * intros H. inversion H as [|? ? ? P1 P2|? ? ? L P]; subst. apply Ia in P as (s & ->). cbn [bind].
        destruct (priority op <? u)%Z; eauto.
    + inversion IH as [|? ? Ia IH']; subst. inversion IH' as [|? ? Ib _]; subst.
      specialize (Ia (priority op)). specialize (Ib (priority op)). split.
      * intros (s & H). apply pr_two; [apply Ia|apply Ib].
        -- destruct (to_string_raw (priority op) a); try discriminate H. eauto.
        -- destruct (to_string_raw (priority op) a); try discriminate H. cbn [bind] in H.
           destruct (to_string_raw (priority op) b); try discriminate H. eauto.
      * intros H. inversion H as [|? ? ? P1 P2|? ? ? L P]; subst; [|exfalso; now apply L].
        apply Ia in P1 as (s & ->). apply Ib in P2 as (s' & ->). cbn [bind].
        destruct (priority op <? u)%Z; eauto.
    + inversion IH as [|? ? Ia _]; subst. specialize (Ia (priority op)). split.
      * intros (s & H). apply pr_first; [cbn; lia|]. apply Ia.
        destruct (to_string_raw (priority op) a); try discriminate H. eauto.
      * intros H. inversion H as [|? ? ? P1 P2|? ? ? L P]; subst. apply Ia in P as (s & ->). cbn [bind].
        destruct (priority op <? u)%Z; eauto.
  - split; [constructor|]. intros _. cbn [to_string_raw]. destruct o as [n|v]; cbn [od_to_string]; eauto.
Qed.
Print Assumptions c71_to_string_returns.

(** trees from the builders are their own tidy version and can always be printed *)
Theorem c71_builders e : wf e -> prune e = e /\ enough e /\ printable e.
Proof.
  intros W. pattern e. revert e W. apply wf_ind1.
  - intros n _. repeat split; constructor.
  - intros x. repeat split; constructor.
  - intros t a At _ (P & E & Q). repeat split.
    + rewrite prune_mk1 by exact At. now rewrite P.
    + unfold mk1. apply (en_unary (gen_op t) []); [destruct t; exact At|exact E].
    + apply pr_first; [cbn; lia|exact Q].
  - intros t a b At _ _ (P & E & Q) (P' & E' & Q'). repeat split.
    + rewrite prune_mk2 by exact At. now rewrite P, P'.
    + unfold mk2. apply (en_binary (gen_op t) []); [destruct t; exact At|exact E|exact E'].
    + now apply pr_two.
Qed.
Print Assumptions c71_builders.

(** nothing is tidied on the way: simplification hands an operand back with whatever it
    carries, and substitution only replaces nodes that are the variable *)
Theorem c71_verbatim m o c : num_aggregate m (Expr (Operand o) c) = Ok (Expr (Operand o) c) /\
  (forall n x v, o = Num n -> substitute (Expr (Operand o) c) (e_var x) v = ROk (Expr (Operand o) c)) /\
  (forall w x v, o = Var w -> w <> x -> substitute (Expr (Operand o) c) (e_var x) v = ROk (Expr (Operand o) c)) /\
  (forall x v, o = Var x -> substitute (Expr (Operand o) c) (e_var x) v = ROk v) /\
  (forall op x v, exists c', substitute (Expr (Operator op) c) (e_var x) v = ROk (Expr (Operator op) c') /\
     Forall2 (fun a b => substitute a (e_var x) v = ROk b) c c').
Proof.
  refine (conj eq_refl (conj _ (conj _ (conj _ _)))).
  - intros n x v ->. reflexivity.
  - intros w x v -> N. cbn. now rewrite (proj2 (String.eqb_neq w x) N).
  - intros x v ->. cbn. now rewrite String.eqb_refl.
  - intros op x v. eexists. split; [reflexivity|]. induction c as [|a c IH]; constructor; [reflexivity|exact IH].
Qed.
Print Assumptions c71_verbatim.

(** a sum with three children, an odd symbol and priority: 5 "?" x "?" 1 *)
Definition odd_tree : expr :=
  Expr (Operator (mkOp "?" 77 OAdd)) [e_of_i64 5; e_var "x"; e_of_i64 1].
(** three operators with too few children: a sum of one child, a sine of none *)
Definition short_tree : expr := Expr (Operator (gen_op OAdd)) [e_var "x"].
Definition bare_tree : expr := Expr (Operator (gen_op OSin)) [].

Example c71_example :
  prune odd_tree = e_add (e_var "x") (e_of_i64 1) /\ nums_ok odd_tree /\ enough odd_tree /\
  num_aggregate Debug odd_tree = Ok (e_add (e_var "x") (e_of_i64 1)) /\
  derivative Release odd_tree (e_var "x") = Ok (ROk (e_of_i64 1)) /\
  e_to_string odd_tree = Ok "?5"%string /\
  ~ enough short_tree /\ num_aggregate Release short_tree = Panic /\ printable short_tree /\
  e_to_string short_tree = Ok "+x"%string /\ e_to_string bare_tree = Panic.
Proof.
  split; [reflexivity|]. split.
  { intros n c S. inversion S as [|? ? ? ? I S']; subst. cbn in I.
    destruct I as [<- | [<- | [<- | []]]]; inversion S' as [|? ? ? ? I' _]; subst; try destruct I';
      apply (api_number_ok Release); apply An_i64; reflexivity. }
  split. { apply (en_binary _ [e_of_i64 5]); [reflexivity|constructor|constructor]. }
  repeat (split; [vm_compute; reflexivity|]). split.
  { intros H. remember short_tree as t eqn:Et. unfold short_tree in Et.
    destruct H as [o c|op pre a At Ha|op pre a b At Ha Hb]; [discriminate Et| |]; injection Et as -> E;
      [discriminate At|].
    apply (f_equal (@List.length expr)) in E. rewrite app_length in E. cbn in E. lia. }
  split; [reflexivity|]. split; [apply pr_first; [cbn; lia|constructor]|]. split; reflexivity.
Qed.
