(** * PropsDepth3: C97, an explicit stack bound for [limit] on the expressions of C58 *)
From Coq Require Import ZArith List String Bool Lia Arith.
From Verif Require Import Base Float Rational SmartNum Ast Compute Limit Display Direct Depth.
From Verif Require Import Spec SpecTree SpecShape SpecLim2.
From Verif Require Import BaseProofs TreeProofs TreeProofs2 TreeProofs3 TreeProofs5 ShapeProofs LimTerm PropsTree PropsDirect PropsDepth PropsDepth2 PropsEntire.
Import ListNotations.
Open Scope nat_scope.
Open Scope res_scope.

Definition finD (D : nat) (l : lres) : Prop :=
  match l with ROk Infinitesimal => True | ROk (Normal z) => wf z /\ depth z <= D | _ => False end.
Definition outD (D : nat) (r : res lres) : Prop := r <> Fuel /\ forall l, r = Ok l -> finD D l.

Lemma outD_ok D l : finD D l -> outD D (Ok l).
Proof. intros H. split; [discriminate|]. intros l' [= <-]. exact H. Qed.
Lemma outD_bind {A} D (r : res A) k : r <> Fuel -> (forall a, r = Ok a -> outD D (k a)) -> outD D (bind r k).
Proof.
  intros S H. destruct r as [a| | |]; cbn [bind]; [apply H; reflexivity| | |congruence]; (split; [discriminate|discriminate]).
Qed.
Lemma outD_qbind D D' r (k : lexpr -> res lres) : outD D r -> (forall a, finD D (ROk a) -> outD D' (k a)) -> outD D' (qbind r k).
Proof.
  intros [S F] H. apply outD_bind; [exact S|]. intros [a|e] E; specialize (F _ E); [apply H; exact F|destruct F].
Qed.
Lemma finD_le D D' l : D <= D' -> finD D l -> finD D' l.
Proof. destruct l as [[| | |z]|]; cbn; auto. intros L [W H]. split; [exact W|lia]. Qed.
Lemma copy_ok f to lim e : depth e <= f -> depth to <= f -> s_lim_copy f to lim e = lim e.
Proof.
  intros He Ht. unfold s_lim_copy. rewrite !c97_clone.
  rewrite (proj2 (Nat.leb_le _ _) He), (proj2 (Nat.leb_le _ _) Ht). reflexivity.
Qed.

Lemma s_limit_entire m x to ord e : wf to -> (0 <= ord)%Z -> entire x e ->
  forall f, depth e + depth to < f -> outD (depth e + depth to) (s_limit f m x to ord e).
Proof.
  intros Wt Ho. pose proof (depth_1 to) as Lt.
  assert (post : forall g D z, D <= g -> finD D (ROk z) ->
    outD D match z with Normal ex => let* ex' := d_aggregate g m ex in Ok (ROk (Normal ex')) | _ => Ok (ROk z) end).
  { intros g D [| | |z] L F; try (apply outD_ok; exact F). destruct F as [W F].
    rewrite (proj1 (c97_aggregate z g W)) by lia. apply outD_bind; [apply nf_agg|]. intros z' E.
    apply outD_ok. split; [exact (agg_wf _ _ _ W E)|]. pose proof (agg_depth m z W z' E). lia. }
  assert (sub : forall g e, wf e -> depth e + depth to <= g ->
    outD (depth e + depth to) (s_subst_limit g m x to e)).
  { intros g e0 W L. unfold s_subst_limit. rewrite c97_substitute by exact W.
    rewrite (proj2 (Nat.leb_le _ _)) by lia. cbn [map_err qbind bind].
    assert (wf (subst x to e0)) as W' by (apply subst_wf; assumption).
    pose proof (c97_substitute_result x to e0) as Ls.
    rewrite (proj1 (c97_aggregate _ g W')) by lia. apply outD_bind; [apply nf_agg|]. intros z E.
    apply outD_ok. destruct (is_zero z); [exact I|]. split; [exact (agg_wf _ _ _ W' E)|].
    pose proof (agg_depth m _ W' z E). lia. }
  induction 1 as [n H|y|a b Ha IHa Hb IHb|a b Ha IHa Hb IHb|a Ha|a Ha|a n Ha IHa Hn Hz|a y Ha IHa Ny];
    intros f L; (destruct f as [|f]; [lia|]); cbn [s_limit];
    (eapply outD_qbind; [|intros z F; apply post; [lia|exact F]]).
  - apply outD_ok. cbn. split; [constructor; exact H|lia].
  - cbn [root e_var]. destruct (String.eqb y x); [destruct (is_zero to)|]; apply outD_ok; cbn; [exact I|split; [exact Wt|lia]|split; [constructor|lia]].
  - unfold e_add in *. rewrite depth_mk2 in *.
    cbn [root mk2 gen_op descriptor]. unfold s_add_limit. cbn [child mk2 pop_unwrap pop bind].
    rewrite !copy_ok by lia.
    apply (outD_qbind _ _ _ _ (IHb f ltac:(lia))). intros lb Fb. apply (outD_qbind _ _ _ _ (IHa f ltac:(lia))). intros la Fa.
    destruct la, lb; cbn [l_add finD] in *; try (destruct Fa; fail); try (destruct Fb; fail); apply outD_ok; cbn [finD]; try exact I;
      try (destruct Fa; split; [assumption|lia]); try (destruct Fb; split; [assumption|lia]).
    destruct Fa, Fb. split; [apply wf_mk2; [reflexivity|assumption|assumption]|]. unfold e_add. rewrite depth_mk2. lia.
  - unfold e_mul in *. rewrite depth_mk2 in *.
    cbn [root mk2 gen_op descriptor]. unfold s_mul_limit. cbn [child mk2 pop_unwrap pop bind].
    rewrite !copy_ok by lia.
    apply (outD_qbind _ _ _ _ (IHb f ltac:(lia))). intros lb Fb. apply (outD_qbind _ _ _ _ (IHa f ltac:(lia))). intros la Fa.
    destruct la, lb; cbn [l_mul finD] in *; try (destruct Fa; fail); try (destruct Fb; fail); apply outD_ok; cbn [finD]; try exact I.
    destruct Fa, Fb. split; [apply wf_mk2; [reflexivity|assumption|assumption]|]. unfold e_mul. rewrite depth_mk2. lia.
  - cbn [root e_sin mk1 gen_op descriptor]. destruct (is_zero to); [apply outD_ok; exact I|].
    apply sub; [apply wf_mk1; [reflexivity|exact Ha]|lia].
  - cbn [root e_cos mk1 gen_op descriptor]. apply sub; [apply wf_mk1; [reflexivity|exact Ha]|lia].
  - unfold e_div in *. rewrite depth_mk2 in *. pose proof (depth_1 a) as La. change (depth (e_num n)) with 1 in *.
    cbn [root mk2 gen_op descriptor]. unfold s_div_limit. cbn [child mk2 pop_unwrap pop bind].
    replace (Z.to_nat (ord + 1)) with (S (Z.to_nat ord)) by lia. cbn [s_div_loop].
    rewrite (copy_ok f to _ a), (copy_ok f to _ (e_num n)) by (change (depth (e_num n)) with 1; lia).
    apply (outD_qbind _ _ _ _ (IHa f ltac:(lia))). intros la Fa.
    destruct f as [|[|f]]; [lia|lia|].
    change (s_limit (S (S f)) m x to ord (e_num n)) with (@Ok lres (ROk (Normal (e_num n)))). cbn [qbind bind].
    assert (is_zero (e_num n) = false) as Z by exact Hz.
    destruct la; cbn [l_div finD] in *; try (destruct Fa; fail); rewrite ?Z; apply outD_ok; cbn [finD]; try exact I.
    destruct Fa. split; [apply wf_mk2; [reflexivity|assumption|constructor; exact Hn]|]. unfold e_div. rewrite depth_mk2. change (depth (e_num n)) with 1. lia.
  - unfold e_div in *. rewrite depth_mk2 in *. pose proof (depth_1 a) as La. change (depth (e_var y)) with 1 in *.
    cbn [root mk2 gen_op descriptor]. unfold s_div_limit. cbn [child mk2 pop_unwrap pop bind].
    replace (Z.to_nat (ord + 1)) with (S (Z.to_nat ord)) by lia. cbn [s_div_loop].
    rewrite (copy_ok f to _ a), (copy_ok f to _ (e_var y)) by (change (depth (e_var y)) with 1; lia).
    apply (outD_qbind _ _ _ _ (IHa f ltac:(lia))). intros la Fa.
    destruct f as [|[|f]]; [lia|lia|].
    assert (s_limit (S (S f)) m x to ord (e_var y) = Ok (ROk (Normal (e_var y)))) as ->.
    { cbn [s_limit root e_var]. apply String.eqb_neq in Ny. rewrite Ny. reflexivity. }
    cbn [qbind bind].
    destruct la; cbn [l_div finD] in *; try (destruct Fa; fail); cbn [is_zero lift_od root e_var od_is_zero]; apply outD_ok; cbn [finD]; try exact I.
    destruct Fa. split; [apply wf_mk2; [reflexivity|assumption|constructor]|]. unfold e_div. rewrite depth_mk2. change (depth (e_var y)) with 1. lia.
Qed.

(** C97: on sums, products and constant multiples of variables, sines and cosines, one call more
    than both trees are deep together is enough *)
Theorem c97_limit_entire m x e to ord f : entire x e -> wf to -> (0 <= ord)%Z -> depth e + depth to < f ->
  s_limit f m x to ord e = limit f m e (e_var x) to ord.
Proof.
  intros E Wt Ho L. destruct (s_limit_entire m x to ord e Wt Ho E f L) as [N _].
  destruct (c97_all_or_nothing f m e) as (_ & _ & _ & _ & A). destruct (A x to ord) as [F|F]; [congruence|].
  apply F. apply le_n.
Qed.
Print Assumptions c97_limit_entire.
(** the limit of 3*x*cos(exp(x)/y)/2 + x*x/y at y+1 with room for ten calls *)
Example c97_limit_entire_witness : entire "x" ex_ent /\ wf (e_add ex_y e_one) /\
  depth ex_ent + depth (e_add ex_y e_one) = 9 /\
  exists w, s_limit 10 Release "x" (e_add ex_y e_one) 0 ex_ent = Ok (ROk (Normal w)).
Proof.
  destruct c58_example as (E & W & _ & _). split; [exact E|]. split; [exact W|]. split; [reflexivity|].
  eexists. vm_compute. reflexivity.
Qed.
