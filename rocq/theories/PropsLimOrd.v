(** * PropsLimOrd: C61 more L'Hopital attempts never change an answer *)
From Coq Require Import ZArith List String Bool Lia.
From Verif Require Import Base Float Rational SmartNum Ast Compute Limit Spec SpecTree.
From Verif Require Import BaseProofs NumProofs2 TreeProofs TreeProofs2.
Import ListNotations.
Open Scope Z_scope.
Open Scope string_scope.
Open Scope res_scope.

Definition ext_ok (f g : expr -> res lres) : Prop := forall e l, f e = Ok (ROk l) -> g e = Ok (ROk l).

Lemma qbind_ok {A B E} (r : res (result A E)) (f : A -> res (result B E)) z :
  qbind r f = Ok (ROk z) -> exists a, r = Ok (ROk a) /\ f a = Ok (ROk z).
Proof.
  unfold qbind. destruct r as [[a|]| | |]; cbn [bind]; intros H; try discriminate. eauto.
Qed.

Lemma div_loop_ext m x f g : ext_ok f g -> forall n k l r z, (n <= k)%nat ->
  div_loop m x f n l r = Ok (ROk z) -> div_loop m x g k l r = Ok (ROk z).
Proof.
  intros E. induction n as [|n IH]; intros k l r z Hk H; [discriminate|].
  destruct k as [|k]; [lia|]. cbn [div_loop] in *.
  apply qbind_ok in H as (a & Ha & H). apply qbind_ok in H as (b & Hb & H).
  rewrite (E _ _ Ha). unfold qbind at 1. cbn [bind]. rewrite (E _ _ Hb). unfold qbind. cbn [bind].
  destruct (l_div a b); [exact H|].
  apply bind_ok in H as (l' & Hl & H). apply bind_ok in H as (r' & Hr & H).
  rewrite Hl. cbn [bind]. rewrite Hr. cbn [bind]. apply IH; [lia|exact H].
Qed.

Lemma limit_rule_ext m x to n k f g : ext_ok f g -> (n <= k)%Z ->
  ext_ok (limit_rule m x to n f) (limit_rule m x to k g).
Proof.
  intros E Hk e l H. unfold limit_rule in *. destruct (root e) as [op|[v|v]]; try exact H.
  destruct (descriptor op); try exact H.
  - unfold add_limit_expr_rule in *. destruct (pop_unwrap (child e)) as [[r rest]| | |]; try discriminate.
    cbn [bind] in *. destruct (pop_unwrap rest) as [[l0 rest']| | |]; try discriminate. cbn [bind] in *.
    apply qbind_ok in H as (a & Ha & H). apply qbind_ok in H as (b & Hb & H).
    rewrite (E _ _ Ha). unfold qbind at 1. cbn [bind]. rewrite (E _ _ Hb). unfold qbind. cbn [bind].
    destruct (l_add b a); [exact H|]. apply E. exact H.
  - unfold sub_limit_expr_rule in *. destruct (pop_unwrap (child e)) as [[r rest]| | |]; try discriminate.
    cbn [bind] in *. destruct (pop_unwrap rest) as [[l0 rest']| | |]; try discriminate. cbn [bind] in *.
    apply E. exact H.
  - unfold mul_limit_expr_rule in *. destruct (pop_unwrap (child e)) as [[r rest]| | |]; try discriminate.
    cbn [bind] in *. destruct (pop_unwrap rest) as [[l0 rest']| | |]; try discriminate. cbn [bind] in *.
    apply qbind_ok in H as (a & Ha & H). apply qbind_ok in H as (b & Hb & H).
    rewrite (E _ _ Ha). unfold qbind at 1. cbn [bind]. rewrite (E _ _ Hb). unfold qbind. cbn [bind].
    destruct (l_mul b a); [exact H|]. destruct (lim_is_zero a); apply E; exact H.
  - unfold div_limit_expr_rule in *. destruct (pop_unwrap (child e)) as [[r rest]| | |]; try discriminate.
    cbn [bind] in *. destruct (pop_unwrap rest) as [[l0 rest']| | |]; try discriminate. cbn [bind] in *.
    revert H. apply div_loop_ext; [exact E|lia].
Qed.

Lemma limit_var_ext m x to n k : (n <= k)%Z -> forall f f', (f <= f')%nat ->
  ext_ok (limit_var f m x to n) (limit_var f' m x to k).
Proof.
  intros Hk. induction f as [|f IH]; intros f' Hf e l H; [discriminate|].
  destruct f' as [|f']; [lia|]. cbn [limit_var] in *.
  apply qbind_ok in H as (a & Ha & H).
  rewrite (limit_rule_ext m x to n k _ _ (IH f' ltac:(lia)) Hk e a Ha). exact H.
Qed.

(** a limit found with [n] attempts is the limit found with any larger number *)
Theorem c61_more_attempts m fuel e of_ to n k l : n <= k ->
  limit fuel m e of_ to n = Ok (ROk l) -> limit fuel m e of_ to k = Ok (ROk l).
Proof.
  unfold limit. intros Hk H. destruct (to_variable of_) as [x|]; [|discriminate].
  exact (limit_var_ext m x to n k Hk fuel fuel (le_n _) e l H).
Qed.
Print Assumptions c61_more_attempts.

(** two calls with different numbers of attempts that both find a limit find the same one *)
Theorem c61_unique m fuel fuel' e of_ to n k l l' :
  limit fuel m e of_ to n = Ok (ROk l) -> limit fuel' m e of_ to k = Ok (ROk l') -> l = l'.
Proof.
  unfold limit. intros H H'. destruct (to_variable of_) as [x|]; [|discriminate].
  pose proof (limit_var_ext m x to n (Z.max n k) ltac:(lia) fuel (Nat.max fuel fuel') ltac:(lia) e l H) as A.
  pose proof (limit_var_ext m x to k (Z.max n k) ltac:(lia) fuel' (Nat.max fuel fuel') ltac:(lia) e l' H') as B.
  congruence.
Qed.
Print Assumptions c61_unique.

(** "no limit found" is not final: (x*x)/(x*x) at 0 needs two differentiations *)
Example c61_example :
  let x := e_var "x" in let e := e_div (e_mul x x) (e_mul x x) in
  limit 20 Debug e x e_zero 1 = Ok (RErr NoValidLimitFound) /\
  (exists l, limit 20 Debug e x e_zero 2 = Ok (ROk l) /\ limit 20 Debug e x e_zero 1000 = Ok (ROk l)).
Proof.
  split; [vm_compute; reflexivity|].
  destruct (limit 20 Debug (e_div (e_mul (e_var "x") (e_var "x")) (e_mul (e_var "x") (e_var "x"))) (e_var "x") e_zero 2)
    as [[l|]| | |] eqn:E; try (vm_compute in E; discriminate).
  exists l. split; [reflexivity|]. exact (c61_more_attempts _ _ _ _ _ 2 1000 l ltac:(lia) E).
Qed.
