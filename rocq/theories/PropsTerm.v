(** * PropsTerm: termination (C53) and what limit does with 0 * infinity (C54) *)
From Coq Require Import ZArith List String Bool Lia.
From Verif Require Import Base Float Rational SmartNum Ast Compute Limit Display Spec SpecTree.
From Verif Require Import BaseProofs RationalProofs NumProofs NumProofs2 TreeProofs TreeProofs2 TreeProofs3 TreeProofs4 TreeProofs5
  LimTerm LimTerm2 LimTerm3 LimTerm4.
Import ListNotations.
Open Scope string_scope.
Open Scope Z_scope.

(** ** C53 every call terminates *)

(** [limit]: some recursion depth is enough, and from there on the outcome is always the same *)
Theorem c53_limit_terminates m e of_ to ord : wf e ->
  exists r depth, r <> Fuel /\ forall fuel, (depth <= fuel)%nat -> limit fuel m e of_ to ord = r.
Proof.
  intros W. unfold limit. destruct (to_variable of_) as [x|]; [|exists Panic, O; split; [discriminate|reflexivity]].
  destruct (limit_terminates m x to ord e W) as (r & N & f & H). exists r, f. split; assumption.
Qed.
Print Assumptions c53_limit_terminates.

(** outcomes are values, errors and panics (in the two real builds nothing else exists) *)
Theorem c53_limit_outcome m e of_ to ord : wf e -> exists fuel,
  (exists z, limit fuel m e of_ to ord = Ok (ROk z)) \/ (exists er, limit fuel m e of_ to ord = Ok (RErr er)) \/
  limit fuel m e of_ to ord = Panic \/ limit fuel m e of_ to ord = Trap.
Proof.
  intros W. destruct (c53_limit_terminates m e of_ to ord W) as (r & f & N & H). exists f. rewrite (H f (le_n f)).
  destruct r as [[z|er]| | |]; eauto. congruence.
Qed.
Print Assumptions c53_limit_outcome.

(** the other operations recurse on the tree only *)
Theorem c53_others_terminate m e x at_ n : wf e -> wf at_ ->
  num_aggregate m e <> Fuel /\ derivative m e x <> Fuel /\ taylor_expansion m e x at_ n <> Fuel.
Proof.
  intros W Wa. split; [apply nf_agg|]. split.
  - unfold derivative. destruct (to_variable x) as [y|]; [|discriminate]. pose proof (deriv_safe m y e W) as S.
    destruct (deriv m y e); [discriminate..|destruct S].
  - unfold taylor_expansion. destruct (to_variable x) as [y|]; [|discriminate]. unfold taylor_var.
    pose proof (taylor_loop_safe m y at_ Wa (Z.to_nat (n + 1)) 0 (sn_of_i64 1) e [] W (sn_of_i64_ok 1 eq_refl)) as S.
    destruct (taylor_loop m y at_ (Z.to_nat (n + 1)) 0 (sn_of_i64 1) e []) as [[c r]| | |]; [discriminate..|destruct S].
Qed.
Print Assumptions c53_others_terminate.

(** a product 0 * infinity and a sum of two infinities, both of which are rewritten and
    then differentiated, a double negation hidden under a sine, and a variable that is none *)
Definition t_x : expr := e_var "x".
Example c53_example :
  limit 5 Debug (e_mul t_x (e_div e_one t_x)) t_x e_zero 3 = Panic /\
  limit 4 Debug (e_mul t_x (e_div e_one t_x)) t_x e_zero 3 = Fuel /\
  (exists er, limit 9 Debug (e_add (e_div e_one t_x) (e_div e_one t_x)) t_x e_zero 1 = Ok (RErr er)) /\
  limit 3 Debug (e_div (e_sin (e_sub e_zero (e_neg t_x))) t_x) t_x e_zero 3 = Ok (ROk (Normal e_one)) /\
  wf (e_div (e_sin (e_sub e_zero (e_neg t_x))) t_x).
Proof.
  split; [vm_compute; reflexivity|]. split; [vm_compute; reflexivity|].
  split; [eexists; vm_compute; reflexivity|]. split; [vm_compute; reflexivity|].
  repeat first [apply wf_mk2; [reflexivity| |] | apply wf_mk1; [reflexivity|] | apply wf_zero | constructor].
Qed.

(** ** C54 a product 0 * infinity never gets a limit *)
Section C54.
Context (m : mode) (x : string) (to : expr) (ord : Z).
Local Notation lim f := (limit_var f m x to ord).
Local Notation L := (L m x to ord).

Lemma D_inv_shape b g d : wf b -> D2 m x b g -> is_num g = false -> deriv m x (mk2 ODiv e_one b) = Ok d ->
  exists u M, d = mk2 ODiv (e_neg u) M.
Proof.
  intros Wb Hg Ng H. apply D_div in H as (ga & gb & A & B & X & Y & N & M & H1 & H2 & HA & HB & HX & HY & HN & HM & H3).
  assert (gb = g) as -> by (eapply D2_det; [exact H2|exact Hg]).
  apply D2_num in H1 as ->; [|reflexivity|apply wf_one].
  injection HA as <-.
  assert (Y = g) as ->.
  { apply mulf_inv in HY as [(_ & [K|K])|[(_ & _ & E)|[(K & _)|(_ & _ & _ & _ & K & _)]]]; try discriminate.
    - rewrite Ng, andb_false_r in K. discriminate.
    - cbn [orb] in K. change (is_zero e_one) with false in K. cbn [orb] in K. apply zero_num in K. congruence.
    - exact E.
    - apply one_num in K. congruence. }
  assert (wf B) as WB by (eapply agg_wf; [exact Wb|exact HB]).
  assert (is_zero X = true) as ZX.
  { destruct (is_num B) eqn:NB.
    - eapply mulf_zero; [apply NW_zero|apply num_NW; [exact NB|exact WB]|reflexivity|exact HX].
    - apply rule2_ar in HX; [|reflexivity]. inversion HX; subst; try discriminate; reflexivity. }
  assert (N = e_neg g) as ->.
  { apply subf_inv in HN as [(_ & K & _)|[(_ & _ & E)|[(K & _)|(_ & _ & K & _)]]]; try congruence.
    apply zero_num in K. congruence. }
  apply divf_inv in H3 as [(_ & [K|K])|(-> & _)]; try discriminate. eauto.
Qed.

Lemma L_ok e f z : lim f e = Ok (ROk z) -> L e (Ok (ROk z)).
Proof. intros H. eapply L_of; [exact H|discriminate]. Qed.

Lemma no_quotient a b g z : wf a -> wf b -> L a (Ok (ROk Infinitesimal)) -> L b (Ok (ROk Infinity)) ->
  D2 m x b g -> is_num g = false -> ~ L (mk2 ODiv a (mk2 ODiv e_one b)) (Ok (ROk z)).
Proof.
  intros Wa Wb [_ [fa Ha]] [_ [fb Hb]] Hg Ng [_ [fz Hz]].
  remember (S (fa + fb + fz)) as f eqn:Ef. specialize (Hz (S f) ltac:(lia)). rewrite lim_S in Hz.
  apply qbind_ok in Hz as (w & Hz & _). rewrite rule_div in Hz.
  destruct (Z.to_nat (ord + 1)) as [|n] eqn:En; [discriminate|]. cbn [div_loop] in Hz.
  rewrite Ha in Hz by lia. cbn [qbind bind] in Hz.
  assert (lim f (mk2 ODiv e_one b) = Ok (ROk Infinitesimal)) as H1.
  { rewrite Ef, lim_S, rule_div, En. cbn [div_loop]. rewrite (Hb (fa + fb + fz)%nat) by lia.
    assert (lim (fa + fb + fz) e_one = Ok (ROk (Normal e_one)) \/ (fa + fb + fz)%nat = O) as [E|E].
    { destruct (fa + fb + fz)%nat; [right; reflexivity|left; reflexivity]. }
    - rewrite E. reflexivity.
    - exfalso. specialize (Hb O ltac:(lia)). discriminate Hb. }
  rewrite H1 in Hz. cbn [qbind bind l_div lerr] in Hz.
  apply bind_ok in Hz as (da & Hda & Hz). apply bind_ok in Hz as (d & Hd & Hz).
  destruct (D_inv_shape b g d Wb Hg Ng Hd) as (u & M & ->).
  destruct n as [|n]; [discriminate|]. cbn [div_loop] in Hz.
  apply qbind_ok in Hz as (w1 & _ & Hz). apply qbind_ok in Hz as (w2 & Hz & _).
  destruct (stuck_div m x to ord (e_neg u) M eq_refl) as [_ K]. apply K. exists w2. eapply L_ok. exact Hz.
Qed.
End C54.

(** [a] tends to 0 and [b] to infinity according to [limit], and the simplified derivative of
    [b] is not a number: neither [a * b] nor [b * a] ever gets a value *)
Theorem c54_zero_times_infinity_never_answered fuel fa fb m x to ord a b d g z : wf a -> wf b ->
  limit fa m a (e_var x) to ord = Ok (ROk Infinitesimal) ->
  limit fb m b (e_var x) to ord = Ok (ROk Infinity) ->
  derivative m b (e_var x) = Ok (ROk d) -> num_aggregate m d = Ok g -> is_num g = false ->
  limit fuel m (e_mul a b) (e_var x) to ord <> Ok (ROk z) /\
  limit fuel m (e_mul b a) (e_var x) to ord <> Ok (ROk z).
Proof.
  intros Wa Wb La Lb Hd Hg Ng. change (limit_var fa m x to ord a = Ok (ROk Infinitesimal)) in La.
  change (limit_var fb m x to ord b = Ok (ROk Infinity)) in Lb.
  apply L_ok in La, Lb. unfold derivative in Hd. cbn [to_variable root e_var] in Hd. apply bind_ok in Hd as (d' & Hd & E).
  injection E as ->. assert (D2 m x b g) as HD by (exists d; split; assumption).
  assert (forall w, ~ LimTerm.L m x to ord (mk2 ODiv a (mk2 ODiv e_one b)) (Ok (ROk w))) as NQ.
  { intros w. eapply no_quotient; [exact Wa|exact Wb|exact La|exact Lb|exact HD|exact Ng]. }
  destruct La as [_ [f1 Ha]], Lb as [_ [f2 Hb]].
  split; intros H; apply L_ok in H as [_ [f3 H]]; specialize (H (S (f1 + f2 + f3)) ltac:(lia));
    rewrite lim_S in H; apply qbind_ok in H as (w & H & _).
  - change (e_mul a b) with (mk2 OMul a b) in H. rewrite rule_mul, (Ha (f1 + f2 + f3)%nat), (Hb (f1 + f2 + f3)%nat) in H by lia.
    cbn [qbind bind l_mul lerr lim_is_zero] in H. apply (NQ w). eapply L_ok. exact H.
  - change (e_mul b a) with (mk2 OMul b a) in H. rewrite rule_mul, (Ha (f1 + f2 + f3)%nat), (Hb (f1 + f2 + f3)%nat) in H by lia.
    cbn [qbind bind l_mul lerr lim_is_zero] in H. apply (NQ w). eapply L_ok. exact H.
Qed.
Print Assumptions c54_zero_times_infinity_never_answered.

(** x * (1/x) and (1/x) * sin x at 0 *)
Example c54_example :
  limit 2 Debug t_x t_x e_zero 3 = Ok (ROk Infinitesimal) /\
  limit 2 Debug (e_div e_one t_x) t_x e_zero 3 = Ok (ROk Infinity) /\
  (exists d g, derivative Debug (e_div e_one t_x) t_x = Ok (ROk d) /\ num_aggregate Debug d = Ok g /\ is_num g = false) /\
  limit 9 Debug (e_mul t_x (e_div e_one t_x)) t_x e_zero 3 = Panic /\
  limit 9 Debug (e_mul (e_div e_one t_x) (e_sin t_x)) t_x e_zero 3 = Panic.
Proof.
  split; [vm_compute; reflexivity|]. split; [vm_compute; reflexivity|].
  split; [eexists; eexists; split; [vm_compute; reflexivity|]; split; vm_compute; reflexivity|].
  split; vm_compute; reflexivity.
Qed.
