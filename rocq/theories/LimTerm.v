(** * LimTerm: [limit] terminates *)
From Coq Require Import ZArith List String Bool Lia.
From Verif Require Import Base Float Rational SmartNum Ast Compute Limit Spec SpecTree.
From Verif Require Import BaseProofs RationalProofs NumProofs NumProofs2 TreeProofs TreeProofs2 TreeProofs3 TreeProofs4 TreeProofs5.
Import ListNotations.
Open Scope Z_scope.
Open Scope res_scope.

(** ** the simplifier and the derivative never run out of fuel (they use none) *)
Lemma nf_safe {A} m (r : res A) : safe m r -> r <> Fuel.
Proof. intros H ->. exact H. Qed.
Lemma nf_bind {A B} (r : res A) (f : A -> res B) : r <> Fuel -> (forall a, r = Ok a -> f a <> Fuel) -> bind r f <> Fuel.
Proof. intros H1 H2. destruct r; cbn [bind]; auto; discriminate. Qed.
Lemma nf_pop {A} (l : list A) : pop_unwrap l <> Fuel.
Proof. unfold pop_unwrap. destruct (pop l); discriminate. Qed.
Lemma nf_num e : to_smart_num_unwrap e <> Fuel.
Proof. unfold to_smart_num_unwrap. destruct (to_smart_num e); discriminate. Qed.
Lemma nf_pop_in {A} (l : list A) a r : pop_unwrap l = Ok (a, r) -> In a l /\ (forall b, In b r -> In b l).
Proof.
  unfold pop_unwrap. intros H. assert (exists pre, l = pre ++ [a] /\ r = pre) as (pre & -> & ->).
  { destruct (pop l) as [[b r']|] eqn:E; [|discriminate]. injection H as -> ->. exists r.
    revert a r E. induction l as [|c l IH]; intros a r E; [discriminate|].
    cbn [pop] in E. destruct l as [|c' l].
    - injection E as <- <-. auto.
    - destruct (pop (c' :: l)) as [[y l'']|]; [|discriminate]. injection E as -> <-.
      destruct (IH _ _ eq_refl) as [-> _]. auto. }
  split; [apply in_or_app; right; left; reflexivity|]. intros b Hb. apply in_or_app. left. exact Hb.
Qed.

Ltac nf_step := match goal with
  | |- Ok _ <> Fuel => discriminate
  | |- Panic <> Fuel => discriminate
  | |- bind (sn_neg _ _) _ <> Fuel => apply nf_bind; [eapply nf_safe, sn_neg_safe|intros ? _]
  | |- bind (sn_add _ _ _) _ <> Fuel => apply nf_bind; [eapply nf_safe, sn_add_safe|intros ? _]
  | |- bind (sn_sub _ _ _) _ <> Fuel => apply nf_bind; [eapply nf_safe, sn_sub_safe|intros ? _]
  | |- bind (sn_mul _ _ _) _ <> Fuel => apply nf_bind; [eapply nf_safe, sn_mul_safe|intros ? _]
  | |- bind (sn_div _ _ _) _ <> Fuel => apply nf_bind; [eapply nf_safe, sn_div_safe|intros ? _]
  | |- bind (to_smart_num_unwrap _) _ <> Fuel => apply nf_bind; [apply nf_num|intros ? _]
  | |- bind (pop_unwrap (child _)) _ <> Fuel => apply nf_bind; [apply nf_pop|intros [? ?] _]
  | |- (if ?c then _ else _) <> Fuel => destruct c
  | |- match ?x with _ => _ end <> Fuel => destruct x
  end.

Lemma nf_eval2 rs : Forall (fun r : res expr => r <> Fuel) rs -> eval2 rs <> Fuel.
Proof.
  intros H. unfold eval2. rewrite Forall_forall in H.
  apply nf_bind; [apply nf_pop|]. intros [r0 rest] E. destruct (nf_pop_in _ _ _ E) as [I1 I2].
  apply nf_bind; [auto|]. intros r _. apply nf_bind; [apply nf_pop|]. intros [l0 rest'] E'.
  destruct (nf_pop_in _ _ _ E') as [I3 _]. apply nf_bind; [auto|]. intros l _. discriminate.
Qed.
Lemma nf_pop1 {B} rs (f : expr -> list (res expr) -> res B) : Forall (fun r : res expr => r <> Fuel) rs ->
  (forall a r, f a r <> Fuel) -> (let* (r0, rest) := pop_unwrap rs in let* sub := r0 in f sub rest) <> Fuel.
Proof.
  intros H Hf. rewrite Forall_forall in H. apply nf_bind; [apply nf_pop|]. intros [r0 rest] E.
  destruct (nf_pop_in _ _ _ E) as [I1 I2]. apply nf_bind; auto.
Qed.
Lemma nf_rule m t rs : Forall (fun r : res expr => r <> Fuel) rs -> eval_rule m t rs <> Fuel.
Proof.
  intros H. destruct t; cbn [eval_rule].
  - apply nf_pop1; [assumption|]. intros a _. cbn zeta. repeat nf_step.
  - apply nf_bind; [apply nf_eval2; assumption|]. intros [l r] _. repeat nf_step.
  - apply nf_bind; [apply nf_eval2; assumption|]. intros [l r] _. repeat nf_step.
  - apply nf_bind; [apply nf_eval2; assumption|]. intros [l r] _. repeat nf_step.
  - apply nf_bind; [apply nf_eval2; assumption|]. intros [l r] _. repeat nf_step.
  - apply nf_pop1; [assumption|]. intros a _. repeat nf_step.
  - apply nf_pop1; [assumption|]. intros a _. repeat nf_step.
  - apply nf_pop1; [assumption|]. intros a _. repeat nf_step.
  - apply nf_pop1; [assumption|]. intros a _. repeat nf_step.
  - apply nf_bind; [apply nf_eval2; assumption|]. intros [l r] _. repeat nf_step.
Qed.
Lemma nf_agg m e : num_aggregate m e <> Fuel.
Proof.
  induction e as [r c IH] using expr_ind'. cbn [num_aggregate]. destruct r; [|discriminate].
  apply nf_rule. apply Forall_map. exact IH.
Qed.

Section LT.
Context (m : mode) (x : string) (to : expr) (ord : Z).
Local Notation lim f := (limit_var f m x to ord).
Local Notation agg := (num_aggregate m).
Local Notation D := (deriv m x).

(** the answer for every large enough fuel *)
Definition L (e : expr) (r : res lres) : Prop := r <> Fuel /\ exists f0, forall f, (f0 <= f)%nat -> lim f e = r.
Definition T (e : expr) : Prop := exists r, L e r.
Definition ok (e : expr) : Prop := exists z, L e (Ok (ROk z)).

Lemma L_of f e r : lim f e = r -> r <> Fuel -> L e r.
Proof.
  intros H N. split; [assumption|]. exists f. intros g Hg.
  destruct (limit_var_fle m x to ord f g e Hg) as [E|E]; congruence.
Qed.
Lemma L_det e r r' : L e r -> L e r' -> r = r'.
Proof.
  intros [_ [f H]] [_ [g H']]. rewrite <- (H (f + g)%nat), <- (H' (f + g)%nat) by lia. reflexivity.
Qed.
Lemma T_iff e : T e <-> exists f, lim f e <> Fuel.
Proof.
  split.
  - intros (r & N & f & H). exists f. rewrite H by lia. exact N.
  - intros (f & H). exists (lim f e). apply L_of with f; [reflexivity|assumption].
Qed.

Definition post (z : lexpr) : res lres :=
  match z with Normal ex => let* ex' := agg ex in Ok (ROk (Normal ex')) | _ => Ok (ROk z) end.
Lemma lim_S f e : lim (S f) e = qbind (limit_rule m x to ord (lim f) e) post.
Proof. reflexivity. Qed.
Lemma nf_post z : post z <> Fuel.
Proof. destruct z; cbn [post]; try discriminate. apply nf_bind; [apply nf_agg|discriminate]. Qed.
Lemma nf_qbind {A B E} (r : res (result A E)) (f : A -> res (result B E)) :
  r <> Fuel -> (forall a, r = Ok (ROk a) -> f a <> Fuel) -> qbind r f <> Fuel.
Proof.
  intros H1 H2. unfold qbind. apply nf_bind; [assumption|]. intros [a|er] Er; [auto|discriminate].
Qed.

(** eventually constant functions of the fuel *)
Definition ev (g : nat -> res lres) : Prop := exists r f0, r <> Fuel /\ forall f, (f0 <= f)%nat -> g f = r.
Lemma T_rule e : ev (fun f => limit_rule m x to ord (lim f) e) -> T e.
Proof.
  intros (r & f0 & N & H). apply T_iff. exists (S f0). rewrite lim_S, H by lia.
  apply nf_qbind; [assumption|]. intros; apply nf_post.
Qed.
Lemma ev_const r : r <> Fuel -> ev (fun _ => r).
Proof. intros N. exists r, O. auto. Qed.
Lemma ev_T e : T e -> ev (fun f => lim f e).
Proof. intros (r & N & f & H). exists r, f. auto. Qed.
Lemma ev_qbind e (k : nat -> lexpr -> res lres) : T e ->
  (forall z, L e (Ok (ROk z)) -> ev (fun f => k f z)) -> ev (fun f => qbind (lim f e) (k f)).
Proof.
  intros (r & N & f & H) Hk. assert (L e r) as HL by (split; [assumption|exists f; assumption]).
  destruct r as [[z|er]| | |].
  - destruct (Hk z HL) as (r' & f' & N' & H'). exists r', (f + f')%nat. split; [assumption|].
    intros g Hg. rewrite H by lia. apply H'. lia.
  - exists (Ok (RErr er)), f. split; [discriminate|]. intros g Hg. rewrite H by lia. reflexivity.
  - exists Panic, f. split; [discriminate|]. intros g Hg. rewrite H by lia. reflexivity.
  - exists Trap, f. split; [discriminate|]. intros g Hg. rewrite H by lia. reflexivity.
  - congruence.
Qed.
Lemma ev_ext g h : (forall f, g f = h f) -> ev h -> ev g.
Proof. intros E (r & f0 & N & H). exists r, f0. split; [assumption|]. intros f Hf. rewrite E. auto. Qed.

Lemma rule_add f a b : limit_rule m x to ord (lim f) (mk2 OAdd a b) =
  qbind (lim f b) (fun r => qbind (lim f a) (fun l =>
    match l_add l r with ROk z => Ok (ROk z)
    | RErr _ => lim f (e_div (e_add (e_div a b) e_one) (e_div e_one b)) end)).
Proof. reflexivity. Qed.
Lemma rule_mul f a b : limit_rule m x to ord (lim f) (mk2 OMul a b) =
  qbind (lim f b) (fun r => qbind (lim f a) (fun l =>
    match l_mul l r with ROk z => Ok (ROk z)
    | RErr _ => if lim_is_zero r then lim f (e_div b (e_div e_one a)) else lim f (e_div a (e_div e_one b)) end)).
Proof. reflexivity. Qed.
Lemma rule_div f a b : limit_rule m x to ord (lim f) (mk2 ODiv a b) =
  div_loop m x (lim f) (Z.to_nat (ord + 1)) a b.
Proof. reflexivity. Qed.

Lemma T_add a b : T a -> T b ->
  (forall za zb er, L a (Ok (ROk za)) -> L b (Ok (ROk zb)) -> l_add za zb = RErr er ->
     T (e_div (e_add (e_div a b) e_one) (e_div e_one b))) -> T (mk2 OAdd a b).
Proof.
  intros Ta Tb H. apply T_rule. eapply ev_ext; [intros f; apply rule_add|].
  apply ev_qbind; [assumption|]. intros zb Hb. apply ev_qbind; [assumption|]. intros za Ha.
  destruct (l_add za zb) eqn:E; [apply ev_const; discriminate|]. apply ev_T. eauto.
Qed.
Lemma T_mul a b : T a -> T b ->
  (forall za zb er, L a (Ok (ROk za)) -> L b (Ok (ROk zb)) -> l_mul za zb = RErr er ->
     T (e_div b (e_div e_one a)) /\ T (e_div a (e_div e_one b))) -> T (mk2 OMul a b).
Proof.
  intros Ta Tb H. apply T_rule. eapply ev_ext; [intros f; apply rule_mul|].
  apply ev_qbind; [assumption|]. intros zb Hb. apply ev_qbind; [assumption|]. intros za Ha.
  destruct (l_mul za zb) eqn:E; [apply ev_const; discriminate|].
  destruct (lim_is_zero zb); apply ev_T; eapply H; eauto.
Qed.

(** the L'Hopital chain of one operand *)
Fixpoint Tch (n : nat) (e : expr) : Prop :=
  wf e /\ T e /\ match n with O => True | S n' => ok e -> forall d, D e = Ok d -> Tch n' d end.
Lemma Tch_T n e : Tch n e -> T e. Proof. destruct n; intros (_ & H & _); exact H. Qed.

(** [l_div] of the values found *)
Lemma T_loop n : forall a b, Tch n a -> Tch n b -> ev (fun f => div_loop m x (lim f) n a b).
Proof.
  induction n as [|n IH]; intros a b Ha Hb; [apply (ev_const (Ok lerr)); discriminate|].
  cbn [div_loop]. destruct Ha as (Wa & Ta & Ca), Hb as (Wb & Tb & Cb).
  apply ev_qbind; [assumption|]. intros za La. apply ev_qbind; [assumption|]. intros zb Lb.
  destruct (l_div za zb) eqn:E; [apply ev_const; discriminate|].
  destruct (D a) as [da| | |] eqn:Ea; cbn [bind]; try (apply ev_const; discriminate).
  - destruct (D b) as [db| | |] eqn:Eb; cbn [bind]; try (apply ev_const; discriminate).
    + apply IH; [apply Ca|apply Cb]; auto; eexists; eassumption.
    + pose proof (deriv_safe m x b Wb) as S. rewrite Eb in S. destruct S.
  - pose proof (deriv_safe m x a Wa) as S. rewrite Ea in S. destruct S.
Qed.
Lemma T_div a b : (forall n, Tch n a) -> (forall n, Tch n b) -> T (mk2 ODiv a b).
Proof.
  intros Ha Hb. apply T_rule. eapply ev_ext; [intros f; apply rule_div|]. apply T_loop; auto.
Qed.
(** no error from the first attempt: no derivative is needed *)
Lemma T_div1 a b : wf a -> wf b -> T a -> T b ->
  (forall za zb, L a (Ok (ROk za)) -> L b (Ok (ROk zb)) -> exists z, l_div za zb = ROk z) -> T (mk2 ODiv a b).
Proof.
  intros Wa Wb Ta Tb H. apply T_rule. eapply ev_ext; [intros f; apply rule_div|].
  destruct (Z.to_nat (ord + 1)) as [|n]; [apply (ev_const (Ok lerr)); discriminate|]. cbn [div_loop].
  apply ev_qbind; [assumption|]. intros za La. apply ev_qbind; [assumption|]. intros zb Lb.
  destruct (H za zb La Lb) as [z ->]. apply ev_const. discriminate.
Qed.
(** the numerator has no value: nothing else matters *)
Lemma T_div2 a b : T a -> ~ ok a -> T (mk2 ODiv a b).
Proof.
  intros Ta N. apply T_rule. eapply ev_ext; [intros f; apply rule_div|].
  destruct (Z.to_nat (ord + 1)) as [|n]; [apply (ev_const (Ok lerr)); discriminate|]. cbn [div_loop].
  apply ev_qbind; [assumption|]. intros za La. destruct N. eexists. eassumption.
Qed.

(** ** what a value of a composite needs *)
Lemma ok_2 t a b : In t [OAdd; OMul; ODiv] -> ok (mk2 t a b) -> ok a /\ ok b.
Proof.
  intros Ht (z & _ & f0 & H). specialize (H (S f0) ltac:(lia)). rewrite lim_S in H.
  unfold qbind in H. destruct (limit_rule m x to ord (lim f0) (mk2 t a b)) as [[w|er]| | |] eqn:E; try discriminate.
  assert (forall (e : expr) w, lim f0 e = Ok (ROk w) -> ok e) as K.
  { intros e w' Hw. exists w'. eapply L_of; [exact Hw|discriminate]. }
  destruct Ht as [<-|[<-|[<-|[]]]].
  - rewrite rule_add in E. unfold qbind in E. destruct (lim f0 b) as [[zb|]| | |] eqn:Eb; try discriminate E.
    cbn [bind] in E. destruct (lim f0 a) as [[za|]| | |] eqn:Ea; try discriminate E. eauto.
  - rewrite rule_mul in E. unfold qbind in E. destruct (lim f0 b) as [[zb|]| | |] eqn:Eb; try discriminate E.
    cbn [bind] in E. destruct (lim f0 a) as [[za|]| | |] eqn:Ea; try discriminate E. eauto.
  - rewrite rule_div in E. destruct (Z.to_nat (ord + 1)) as [|n]; [discriminate E|]. cbn [div_loop] in E.
    unfold qbind in E. destruct (lim f0 a) as [[za|]| | |] eqn:Ea; try discriminate E.
    cbn [bind] in E. destruct (lim f0 b) as [[zb|]| | |] eqn:Eb; try discriminate E. eauto.
Qed.

Definition stuck (t : optype) : bool := match t with ONeg | OSub | OExp | OLn | OPow => true | _ => false end.
Lemma stuck_panics op c : stuck (descriptor op) = true -> L (Expr (Operator op) c) Panic.
Proof.
  intros H. apply L_of with 3%nat; [|discriminate]. destruct (descriptor op) eqn:E; try discriminate.
  - apply limit_neg_panics. assumption.
  - apply limit_sub_panics. assumption.
  - apply limit_todo_panics. tauto.
  - apply limit_todo_panics. tauto.
  - apply limit_todo_panics. tauto.
Qed.
Definition stuck_root (e : expr) : bool := match root e with Operator op => stuck (descriptor op) | _ => false end.
Lemma stuck_T e : stuck_root e = true -> T e /\ ~ ok e.
Proof.
  destruct e as [[op|o] c]; [|discriminate]. unfold stuck_root. cbn [root]. intros H.
  apply (stuck_panics op c) in H. split; [eexists; exact H|]. intros [z K]. pose proof (L_det _ _ _ H K). discriminate.
Qed.
Lemma sincos_T t a : t = OSin \/ t = OCos -> T (mk1 t a).
Proof.
  intros Ht. apply T_rule. apply ev_ext with (fun _ => limit_rule m x to ord (lim O) (mk1 t a)).
  - intros f. destruct Ht as [->| ->]; reflexivity.
  - apply ev_const. destruct Ht as [->| ->]; unfold limit_rule, mk1; cbn [root gen_op descriptor];
    unfold sin_limit_expr_rule, cos_limit_expr_rule, subst_limit; [destruct (is_zero to); [discriminate|]|];
      (apply nf_bind; [apply nf_agg|discriminate]).
Qed.
Lemma num_L n k : exists v, L (Expr (Operand (Num n)) k) (Ok (ROk (Normal (e_num v)))) /\ v = n.
Proof. exists n. split; [|reflexivity]. apply L_of with 1%nat; [|discriminate]. reflexivity. Qed.
Lemma leaf_T o k : T (Expr (Operand o) k).
Proof.
  apply T_rule. apply ev_ext with (fun _ => limit_rule m x to ord (lim O) (Expr (Operand o) k)); [reflexivity|].
  apply ev_const. unfold limit_rule. cbn [root]. destruct o as [n|v]; [discriminate|].
  destruct (String.eqb v x); [|discriminate]. destruct (is_zero to); discriminate.
Qed.
Lemma num_ok_val e z : is_num e = true -> L e (Ok (ROk z)) -> z = Normal (match root e with Operand (Num n) => e_num n | _ => e end).
Proof.
  intros N H. apply is_num_inv in N as (n & k & ->). destruct (num_L n k) as (v & H' & ->).
  pose proof (L_det _ _ _ H H') as E. injection E as ->. reflexivity.
Qed.
Lemma err_nonnum_add a b za zb er : L a (Ok (ROk za)) -> L b (Ok (ROk zb)) -> l_add za zb = RErr er ->
  is_num a = false /\ is_num b = false.
Proof.
  intros Ha Hb E. split; destruct (is_num _) eqn:N; try reflexivity.
  - apply (num_ok_val _ _ N) in Ha as ->. destruct zb; discriminate E.
  - apply (num_ok_val _ _ N) in Hb as ->. destruct za; discriminate E.
Qed.
Lemma err_nonnum_mul a b za zb er : L a (Ok (ROk za)) -> L b (Ok (ROk zb)) -> l_mul za zb = RErr er ->
  is_num a = false /\ is_num b = false.
Proof.
  intros Ha Hb E. split; destruct (is_num _) eqn:N; try reflexivity.
  - apply (num_ok_val _ _ N) in Ha as ->. destruct zb; discriminate E.
  - apply (num_ok_val _ _ N) in Hb as ->. destruct za; discriminate E.
Qed.

(** ** the simplifier on normal forms *)
Definition r1 t a z := eval_rule m t [Ok a] = Ok z.
Definition r2 t a b z := eval_rule m t [Ok a; Ok b] = Ok z.
Definition NW e := NF m e /\ wf e.

Lemma agg1_inv t a z : arity t = 1%nat -> agg (mk1 t a) = Ok z -> exists a', agg a = Ok a' /\ r1 t a' z.
Proof. intros Ht H. rewrite agg_mk1 in H by assumption. inv_bind H. eauto. Qed.
Lemma agg2_inv t a b z : arity t = 2%nat -> agg (mk2 t a b) = Ok z ->
  exists a' b', agg a = Ok a' /\ agg b = Ok b' /\ r2 t a' b' z.
Proof. intros Ht H. rewrite agg_mk2 in H by assumption. do 2 inv_bind H. eauto. Qed.
Lemma NW_1 t a z : arity t = 1%nat -> NW a -> r1 t a z -> NW z.
Proof.
  intros Ht [Na Wa] H. split; [eapply ar1_NF; eassumption|].
  apply (agg_wf m (mk1 t a)); [apply wf_mk1; assumption|]. rewrite agg_mk1 by assumption.
  rewrite (NF_fix m a Na). exact H.
Qed.
Lemma wf_r2 t a b z : arity t = 2%nat -> NW a -> NW b -> r2 t a b z -> wf z.
Proof.
  intros Ht [Na Wa] [Nb Wb] H.
  apply (agg_wf m (mk2 t a b)); [apply wf_mk2; assumption|]. rewrite agg_mk2 by assumption.
  rewrite (NF_fix m a Na), (NF_fix m b Nb). exact H.
Qed.
Lemma NW_2 t a b z : arity t = 2%nat -> t <> OSub -> NW a -> NW b -> r2 t a b z -> NW z.
Proof.
  intros Ht Hs Ha Hb H. split; [|exact (wf_r2 t a b z Ht Ha Hb H)].
  exact (ar2_NF m t a b z Ht Hs (proj1 Ha) (proj1 Hb) H).
Qed.
Lemma NW_agg e : NW e -> agg e = Ok e. Proof. intros [H _]. apply NF_fix. exact H. Qed.
Lemma NW_num n : num_ok n -> NW (e_num n). Proof. intros H. split; constructor. assumption. Qed.
Lemma NW_zero : NW e_zero. Proof. split; [constructor|apply wf_zero]. Qed.
Lemma NW_one : NW e_one. Proof. split; [constructor|apply wf_one]. Qed.
Lemma NW_node t a b : NW a -> NW b -> r2 t a b (mk2 t a b) -> arity t = 2%nat -> NW (mk2 t a b).
Proof. intros [Na Wa] [Nb Wb] H Ht. split; [apply NF_2; assumption|apply wf_mk2; assumption]. Qed.
Lemma NW_inv1 t a : NW (mk1 t a) -> NW a /\ r1 t a (mk1 t a).
Proof.
  intros [N W]. apply wf_mk1_inv in W as [Ht W]. inversion N as [| |t' a' Ht' Na Hr E|]; subst.
  assert (t' = t) as -> by (destruct t, t'; try reflexivity; discriminate). repeat split; assumption.
Qed.
Lemma NW_inv2 t a b : NW (mk2 t a b) -> NW a /\ NW b /\ r2 t a b (mk2 t a b).
Proof.
  intros [N W]. apply wf_mk2_inv in W as (Ht & W1 & W2). inversion N as [| | |t' a' b' Ht' Na Nb Hr E]; subst.
  assert (t' = t) as -> by (destruct t, t'; try reflexivity; discriminate). repeat split; assumption.
Qed.
Lemma num_wf e : is_num e = true -> wf e -> exists n, e = e_num n /\ num_ok n.
Proof. intros N W. apply is_num_inv in N as (n & k & ->). inversion W; subst. exists n. auto. Qed.
Lemma num_NW e : is_num e = true -> wf e -> NW e.
Proof. intros N W. destruct (num_wf _ N W) as (n & -> & H). apply NW_num. exact H. Qed.
Lemma D_num e : is_num e = true -> wf e -> D e = Ok e_zero.
Proof. intros N W. destruct (num_wf _ N W) as (n & -> & H). reflexivity. Qed.

Lemma zero_num e : is_zero e = true -> is_num e = true. Proof. apply is_zero_is_num. Qed.

(** zeros *)
Lemma mulf_zero a b z : NW a -> NW b -> is_zero a || is_zero b = true -> r2 OMul a b z -> is_zero z = true.
Proof.
  intros [_ Wa] [_ Wb] Hz H. apply rule2_ar in H; [|reflexivity].
  inversion H as [t k1 k2 u v w Ht Hv| | | | | | |? ? N Z|? ? N Z O|? ? N Z O1 O2|? ? N Z O1 O2| | | | | |]; subst;
    try reflexivity; try congruence.
  cbn [sn_op] in Hv. inversion Wa as [? Ou| |]; subst. inversion Wb as [? Ov| |]; subst.
  change (sn_is_zero u || sn_is_zero v = true) in Hz. change (sn_is_zero w = true).
  unfold sn_mul in Hv. destruct (sn_is_one u) eqn:E1.
  { injection Hv as <-. unfold sn_is_one, sn_is_zero in *. destruct (ntag u); try discriminate. exact Hz. }
  destruct (sn_is_one v) eqn:E2.
  { injection Hv as <-. unfold sn_is_one, sn_is_zero in *. destruct (ntag v); try discriminate.
    rewrite orb_false_r in Hz. exact Hz. }
  inv_bind Hv. injection Hv as <-. apply guard_ok in Hb as [Hb _].
  assert (val_is_zero (nval u) || val_is_zero (nval v) = true) as K.
  { apply orb_true_iff in Hz as [Hz|Hz]; apply orb_true_iff; [left; destruct Ou as [_ K0]|right; destruct Ov as [_ K0]];
      unfold sn_is_zero in Hz; destruct (ntag _); try discriminate; exact K0. }
  unfold val_mul in Hb. rewrite K in Hb. injection Hb as <-. reflexivity.
Qed.
Lemma subf_zero a b z : NW a -> NW b -> is_zero a = true -> is_zero b = true -> r2 OSub a b z -> is_zero z = true.
Proof.
  intros [_ Wa] [_ Wb] Za Zb H. destruct (num_wf _ (zero_num _ Za) Wa) as (u & -> & Ou).
  destruct (num_wf _ (zero_num _ Zb) Wb) as (v & -> & Ov).
  change (sn_is_zero u = true) in Za. change (sn_is_zero v = true) in Zb.
  assert (exists w, sn_sub m u v = Ok w /\ z = e_num w) as (w & Hw & ->).
  { change ((let* w := sn_sub m u v in Ok (e_num w)) = Ok z) in H. inv_bind H. injection H as <-. eauto. }
  unfold sn_sub in Hw. rewrite Za, (sn_neg_zero m v Ov Zb) in Hw. injection Hw as <-. reflexivity.
Qed.
(** X - Y with X = 0 *)
Lemma subf_zl a b z : NW a -> NW b -> is_zero a = true -> r2 OSub a b z ->
  (is_num b = true /\ is_num z = true /\ (is_zero b = true -> is_zero z = true)) \/
  (is_num b = false /\ z = e_neg b).
Proof.
  intros Ha Hb Za H. destruct (is_num b) eqn:Nb.
  - left. repeat split.
    + apply rule2_ar in H; [|reflexivity]. apply ar2_arith_num in H as (n & ->); try reflexivity.
      rewrite (zero_num _ Za), Nb. reflexivity.
    + intros Zb. eapply subf_zero; [exact Ha|exact Hb| | |exact H]; assumption.
  - right. split; [reflexivity|]. apply rule2_ar in H; [|reflexivity].
    inversion H; subst; try discriminate; try congruence.
Qed.

(** ** shapes of derivatives *)
Definition Hh e := wf e /\ forall s z, subterm s e -> agg s = Ok z -> NF m z.
Lemma Hh_1 t a : Hh (mk1 t a) -> Hh a.
Proof.
  intros [W H]. apply wf_mk1_inv in W as [_ W]. split; [assumption|]. intros s z Hs. apply H.
  eapply sub_child; [left; reflexivity|exact Hs].
Qed.
Lemma Hh_2 t a b : Hh (mk2 t a b) -> Hh a /\ Hh b.
Proof.
  intros [W H]. apply wf_mk2_inv in W as (_ & W1 & W2).
  split; (split; [assumption|]; intros s z Hs; apply H); eapply sub_child; try exact Hs.
  - left. reflexivity.
  - right. left. reflexivity.
Qed.
Lemma Hh_agg e z : Hh e -> agg e = Ok z -> NW z.
Proof. intros [W H] E. split; [eapply H; [constructor|exact E]|eapply agg_wf; eassumption]. Qed.
Lemma NW_sub e s : NW e -> subterm s e -> NW s.
Proof.
  intros [N W]. revert s. pattern e. revert N. pattern e. revert e W. apply wf_ind1.
  - intros n Hn N s Hs. apply subterm_num in Hs as ->. split; [assumption|constructor; assumption].
  - intros y N s Hs. inversion Hs as [|? ? ? c' Hin]; subst; [|destruct Hin]. split; [assumption|constructor].
  - intros t a Ha Wa IH N s Hs. apply subterm_mk1 in Hs as [->|Hs].
    + split; [assumption|apply wf_mk1; assumption].
    + destruct (NW_inv1 t a) as [[Na _] _]; [split; [assumption|apply wf_mk1; assumption]|]. auto.
  - intros t a b Ha Wa Wb IHa IHb N s Hs. 
    assert (NW (mk2 t a b)) as Hn by (split; [assumption|apply wf_mk2; assumption]).
    destruct (NW_inv2 _ _ _ Hn) as ([Na _] & [Nb _] & _).
    apply subterm_mk2 in Hs as [->|[Hs|Hs]]; auto.
Qed.
Lemma NW_Hh e : NW e -> Hh e.
Proof.
  intros H. split; [apply H|]. intros s z Hs E. pose proof (NW_sub _ _ H Hs) as Hn.
  rewrite (NW_agg _ Hn) in E. injection E as <-. apply Hn.
Qed.

Inductive QN : expr -> Prop :=
| QN_nf d : NF m d -> QN d
| QN_nn v : NF m (e_neg v) -> QN (e_neg (e_neg v))
| QN_div v M : NF m (e_neg v) -> NF m M -> QN (mk2 ODiv (e_neg (e_neg v)) M).

Lemma negneg_agg v z : NF m (e_neg v) -> agg (e_neg (e_neg v)) = Ok z -> z = v.
Proof.
  intros N H. unfold e_neg at 1 in H. rewrite agg_mk1 in H by reflexivity. rewrite (NF_fix _ _ N) in H.
  cbn [bind] in H. cbn in H. injection H as <-. reflexivity.
Qed.
Lemma NF_neg_inv v : NF m (e_neg v) -> NF m v /\ is_num v = false /\ root_is ONeg v = false.
Proof.
  intros N. inversion N as [| |t' a' Ht' Na Hr E|]; subst.
  assert (t' = ONeg) as -> by (destruct t'; try reflexivity; discriminate).
  split; [assumption|]. apply rule1_ar in Hr; [|reflexivity]. inversion Hr; subst; auto.
  match goal with E : ?c = mk1 ONeg (Expr _ (_ ++ [?c])) |- _ => apply (f_equal size) in E; rewrite size_mk1 in E end.
  match goal with E : size ?c = S (size (Expr ?o (?r ++ [?c]))) |- _ => pose proof (size_snoc o r c); lia end.
Qed.
Lemma QN_agg d g : QN d -> agg d = Ok g -> NF m g.
Proof.
  intros [e N|v N|v M N NM] H.
  - rewrite (NF_fix _ _ N) in H. injection H as <-. assumption.
  - apply negneg_agg in H as ->; [|assumption]. apply NF_neg_inv in N. tauto.
  - apply agg2_inv in H as (a' & b' & Ha & Hb & Hr); [|reflexivity].
    apply negneg_agg in Ha as ->; [|assumption]. rewrite (NF_fix _ _ NM) in Hb. injection Hb as <-.
    apply (ar2_NF m ODiv v M); try assumption; try discriminate; try reflexivity. apply NF_neg_inv in N. tauto.
Qed.
Lemma QN_T d : QN d -> NF m d \/ (T d /\ ~ ok d).
Proof.
  intros [e N|v N|v M N NM]; [left; assumption|right; apply stuck_T; reflexivity|right].
  destruct (stuck_T (e_neg (e_neg v)) eq_refl) as [H1 H2]. split; [apply T_div2; assumption|].
  intros K. apply ok_2 in K as [K _]; [tauto|]. cbn. auto.
Qed.
Lemma subf_cases l r z : NF m l -> NF m r -> r2 OSub l r z ->
  NF m z \/ exists v, r = e_neg v /\ z = e_neg (e_neg v).
Proof.
  intros Nl Nr H. pose proof (rule2_ar _ _ _ _ _ (eq_refl : arity OSub = 2%nat) H) as R.
  inversion R; subst; try (left; constructor; fail); try (left; assumption).
  - destruct (root_is ONeg r) eqn:E.
    + right. inversion Nr as [| |t' a' Ht' Na Hr|t' a' b' Ht' Na Nb Hr]; subst; try discriminate.
      * unfold root_is, mk1 in E. cbn [root] in E. rewrite descriptor_gen in E.
        assert (t' = ONeg) as -> by (destruct t'; try reflexivity; discriminate). exists a'. split; reflexivity.
      * unfold root_is, mk2 in E. cbn [root] in E. rewrite descriptor_gen in E. destruct t'; discriminate.
    + left. assert (is_num r = false) as Nn.
      { match goal with K : is_num l && is_num r = false |- _ => rewrite (zero_num l) in K by assumption; exact K end. }
      apply NF_1; [reflexivity|assumption|]. cbn [eval_rule]. unfold neg_eval_rule.
      cbn -[is_num e_neg]. rewrite Nn. destruct r as [[op|o] k]; cbn [root]; [|reflexivity].
      unfold root_is in E. cbn [root] in E. destruct (descriptor op); try reflexivity; discriminate.
  - left. apply NF_2; try assumption. reflexivity.
Qed.

Definition D2 e g := exists d, D e = Ok d /\ agg d = Ok g.
End LT.
