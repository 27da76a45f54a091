(** * PropsSession: whole client programs (C96) *)
From Coq Require Import ZArith QArith List String Bool Lia.
From Coq Require Import Floats.SpecFloat.
From Coq Require Import Reals Qreals Lra.
From Coquelicot Require Import Coquelicot.
From Verif Require Import Base Float Rational SmartNum Ast Compute Limit Display Main Direct.
From Verif Require Import Spec SpecTree SpecR SpecF SpecLim SpecInt SpecDirect SpecSession.
From Verif Require Import BaseProofs RationalProofs NumProofs NumProofs2 TreeProofs TreeProofs2 TreeProofs3 TreeProofs5.
From Verif Require Import RealProofs RealDeriv RealDeriv2 RealTaylor LimSound DispProofs IntProofs.
From Verif Require Import PropsNum PropsFloat PropsTree PropsReal PropsTerm PropsDisp PropsSmall PropsInt.
Import List ListNotations.
Local Open Scope Z_scope.
Local Open Scope res_scope.

Definition op1 (g : fun1) := match g with NegF => ONeg | SinF => OSin | CosF => OCos | ExpF => OExp | LnF => OLn end.
Definition op2 (g : fun2) := match g with AddF => OAdd | SubF => OSub | MulF => OMul | DivF => ODiv | PowF => OPow end.
Lemma apply1_mk g a : apply1 g a = mk1 (op1 g) a /\ arity (op1 g) = 1%nat.
Proof. destruct g; split; reflexivity. Qed.
Lemma apply2_mk g a b : apply2 g a b = mk2 (op2 g) a b /\ arity (op2 g) = 2%nat.
Proof. destruct g; split; reflexivity. Qed.

Lemma in_type_i64 t z m v : in_type t z -> val_from_int m t z = Ok v -> exists w, v = Integer w /\ in_i64 w = true.
Proof.
  intros H E. destruct t; cbn [val_from_int in_type] in *.
  8:{ inv_bind E. injection E as <-. eexists. split; [reflexivity|]. apply in_i64_iff. eapply cast_i64_ok; eauto. }
  all: injection E as <-; eexists; (split; [reflexivity|]); apply in_i64_iff; unfold two63; lia.
Qed.

(** ** one call *)
Lemma nth_wf st i e : Forall wf (regs st) -> nth_error (regs st) i = Some e -> wf e.
Proof. intros H E. apply nth_error_In in E. rewrite Forall_forall in H. auto. Qed.

Definition extends (st st' : state) : Prop :=
  exists l o, st' = mkState (regs st ++ l)%list (out st ++ o)%list /\ Forall wf l.
Lemma ext_refl st : extends st st.
Proof. exists [], []. destruct st. cbn. rewrite !app_nil_r. auto. Qed.
Lemma ext_push st l : Forall wf l -> extends st (push st l).
Proof. intros H. exists l, []. unfold push. rewrite app_nil_r. auto. Qed.
Lemma ext_say st s : extends st (say st s).
Proof. exists [], [s]. unfold say. rewrite app_nil_r. auto. Qed.
Lemma ext_wf st st' : extends st st' -> Forall wf (regs st) -> Forall wf (regs st').
Proof. intros (l & o & -> & H) K. cbn. apply Forall_app. auto. Qed.
Lemma ext_trans a b c : extends a b -> extends b c -> extends a c.
Proof.
  intros (l & o & -> & H) (l' & o' & -> & H'). exists (l ++ l')%list, (o ++ o')%list. cbn. rewrite !app_assoc.
  split; [reflexivity|]. apply Forall_app. auto.
Qed.

Lemma with_reg_ext st i k st' : with_reg st i k = Ok st' ->
  (forall e, nth_error (regs st) i = Some e -> k e = Ok st' -> extends st st') -> extends st st'.
Proof.
  unfold with_reg. destruct (nth_error (regs st) i) as [e|]; [|intros [= <-] _; apply ext_refl]. intros H K. eauto.
Qed.
Lemma with_var_ext st x k st' : Forall wf (regs st) -> with_var st x k = Ok st' ->
  (forall u, wf u -> k u = Ok st' -> extends st st') -> extends st st'.
Proof.
  intros W. unfold with_var. destruct x as [y|u].
  - intros H K. apply (K (e_var y)); [apply wf_var|exact H].
  - intros H K. apply (with_reg_ext _ _ _ _ H). intros e N E. apply (K e); [eapply nth_wf; eauto|exact E].
Qed.

Lemma exec_ext fuel m c st st' : valid c -> Forall wf (regs st) -> exec fuel m c st = Ok st' -> extends st st'.
Proof.
  intros V W. destruct c; cbn [exec valid] in *; intros H.
  - injection H as <-. apply ext_push. repeat constructor.
  - inv_bind H. injection H as <-. apply ext_push. constructor; [|constructor]. cbn [into_expression] in Hb. inv_bind Hb.
    injection Hb as <-. destruct (in_type_i64 _ _ _ _ V Hb0) as (w & -> & I). apply wf_num, sn_of_val_ok. exact I.
  - inv_bind H. injection H as <-. apply ext_push. constructor; [|constructor]. injection Hb as <-. apply wf_num, sn_of_val_ok. exact I.
  - inv_bind H. injection H as <-. apply ext_push. constructor; [|constructor]. injection Hb as <-. apply wf_num, sn_of_val_ok. exact I.
  - inv_bind H. destruct V as (V1 & V2 & V3). destruct a as [x|]; injection H as <-; [|apply ext_say]. apply ext_push.
    constructor; [|constructor]. apply wf_num. exact (sn_new_rational_ok m s n d x V1 V2 V3 Hb).
  - injection H as <-. apply ext_push. constructor; [|constructor]. apply wf_num. split; [exact I|reflexivity].
  - injection H as <-. apply ext_push. constructor; [|constructor]. apply wf_num. split; [exact I|reflexivity].
  - apply (with_reg_ext _ _ _ _ H). intros e N [= <-]. apply ext_push. constructor; [|constructor].
    destruct (apply1_mk g e) as (-> & At). apply wf_mk1; [exact At|eapply nth_wf; eauto].
  - apply (with_reg_ext _ _ _ _ H). intros e N H1. apply (with_reg_ext _ _ _ _ H1). intros e' N' [= <-]. apply ext_push.
    constructor; [|constructor]. destruct (apply2_mk g e e') as (-> & At). apply wf_mk2; [exact At|eapply nth_wf; eauto..].
  - apply (with_reg_ext _ _ _ _ H). intros e N H1. inv_bind H1. injection H1 as <-. apply ext_push. constructor; [|constructor].
    exact (agg_wf _ _ _ (nth_wf _ _ _ W N) Hb).
  - apply (with_reg_ext _ _ _ _ H). intros e N H1. apply (with_var_ext _ _ _ _ W H1). intros u Wu H2.
    apply (with_reg_ext _ _ _ _ H2). intros v Nv H3. destruct (substitute e u v) as [z|er] eqn:E; injection H3 as <-; [|apply ext_say].
    apply ext_push. constructor; [|constructor].
    exact (proj1 (c18_entry_points m e u v (nth_wf _ _ _ W N) (nth_wf _ _ _ W Nv)) z E).
  - apply (with_reg_ext _ _ _ _ H). intros e N H1. apply (with_var_ext _ _ _ _ W H1). intros u Wu H2. inv_bind H2.
    destruct a as [d|er]; [|inv_bind H2; injection H2 as <-; apply ext_say]. injection H2 as <-. apply ext_push. constructor; [|constructor].
    exact (proj1 (proj2 (c18_entry_points m e u u (nth_wf _ _ _ W N) Wu)) d Hb).
  - apply (with_reg_ext _ _ _ _ H). intros e N H1. apply (with_var_ext _ _ _ _ W H1). intros u Wu H2.
    apply (with_reg_ext _ _ _ _ H2). intros v Nv H3. inv_bind H3.
    destruct a as [t|er]; [|inv_bind H3; injection H3 as <-; apply ext_say]. injection H3 as <-. apply ext_push.
    destruct (proj2 (proj2 (c18_entry_points m e u v (nth_wf _ _ _ W N) (nth_wf _ _ _ W Nv))) n t Hb) as (C1 & C2 & _).
    apply Forall_app. auto.
  - apply (with_reg_ext _ _ _ _ H). intros e N H1. apply (with_var_ext _ _ _ _ W H1). intros u Wu H2.
    apply (with_reg_ext _ _ _ _ H2). intros v Nv H3. inv_bind H3. destruct a as [t|er]; inv_bind H3; injection H3 as <-; apply ext_say.
  - apply (with_reg_ext _ _ _ _ H). intros e N H1. apply (with_var_ext _ _ _ _ W H1). intros u Wu H2.
    apply (with_reg_ext _ _ _ _ H2). intros v Nv H3. inv_bind H3. destruct a as [t|er]; [inv_bind H3|]; injection H3 as <-; apply ext_say.
  - apply (with_reg_ext _ _ _ _ H). intros e N H1. inv_bind H1. injection H1 as <-. apply ext_say.
  - apply (with_reg_ext _ _ _ _ H). intros e N H1. apply (with_reg_ext _ _ _ _ H1). intros v Nv H3. inv_bind H3.
    destruct a as [t|er]; injection H3 as <-; apply ext_say.
Qed.

Lemma run_ext fuel m s : Forall valid s -> forall st st', Forall wf (regs st) -> run fuel m s st = Ok st' -> extends st st'.
Proof.
  induction 1 as [|c s V Vs IH]; intros st st' W H; cbn [run] in H; [injection H as <-; apply ext_refl|].
  inv_bind H. pose proof (exec_ext _ _ _ _ _ V W Hb) as E. exact (ext_trans _ _ _ E (IH _ _ (ext_wf _ _ E W) H)).
Qed.

(** ** no panics *)
Lemma with_reg_safe m st i k : (forall e, nth_error (regs st) i = Some e -> safe m (k e)) -> safe m (with_reg st i k).
Proof. unfold with_reg. destruct (nth_error (regs st) i); [auto|]. intros _. exact I. Qed.
Lemma with_var_safe m st x k : Forall wf (regs st) -> (forall u, wf u -> safe m (k u)) -> safe m (with_var st x k).
Proof.
  intros W H. destruct x as [y|u]; [apply H, wf_var|]. apply with_reg_safe. intros e N. apply H. eapply nth_wf; eauto.
Qed.
Lemma safe_string m e : wf e -> safe m (e_to_string e).
Proof. intros W. destruct (c41_expression e W) as [s ->]. exact I. Qed.
Lemma taylor_safe m e u a n : wf e -> wf a -> safe m (taylor_expansion m e u a n).
Proof.
  intros We Wa. unfold taylor_expansion. destruct (to_variable u); [|exact I]. apply safe_bind; [|intros; exact I].
  unfold taylor_var. apply safe_bind; [|intros [? ?]; intros; exact I].
  apply taylor_loop_safe; [exact Wa|exact We|apply sn_of_i64_ok; reflexivity].
Qed.
Lemma taylor_text_safe m e u a n t : wf e -> wf a -> 0 <= n < two63 - 2 -> taylor_expansion m e u a n = Ok (ROk t) ->
  safe m (expansion_to_string m t).
Proof.
  intros We Wa Hn H. pose proof H as H'. unfold taylor_expansion in H'. destruct (to_variable u) as [x|] eqn:U; [|discriminate].
  assert (Hx : taylor_expansion m e (e_var x) a n = Ok (ROk t)) by (unfold taylor_expansion; cbn [to_variable root e_var]; exact H').
  clear H H'.
  assert (W : wf (e_sub (e_var x) a)) by (apply wf_mk2; [reflexivity|apply wf_var|assumption]).
  pose proof (agg_safe m _ W) as S.
  destruct (c48_returns m e x a n t We Wa ltac:(lia) ltac:(lia) Hx) as [[s ->]|[Hm Hb]]; [exact I|].
  assert (E : ex_of t = e_var x /\ ex_at t = a).
  { unfold taylor_expansion in Hx. cbn [to_variable root e_var] in Hx. inv_bind Hx. injection Hx as ->. unfold taylor_var in Hb0.
    inv_bind Hb0. destruct a0 as [c r]. injection Hb0 as <-. split; reflexivity. }
  unfold expansion_to_string. destruct E as [-> ->].
  destruct (num_aggregate m (e_sub (e_var x) a)) as [b| | |] eqn:E; [exfalso; eapply Hb; reflexivity|exact S..].
Qed.

Lemma exec_safe fuel m c st : valid c -> ~ is_limit c -> Forall wf (regs st) -> safe m (exec fuel m c st).
Proof.
  intros V L W. destruct c; cbn [exec valid is_limit] in *; try (exact I); try (exfalso; apply L; exact I).
  - apply safe_bind; [|intros; exact I]. cbn [into_expression]. apply safe_bind; [|intros; exact I].
    destruct t; cbn [val_from_int]; try exact I. apply safe_bind; [apply safe_cast_i64|intros; exact I].
  - apply safe_bind; [|intros; exact I]. unfold sn_new_rational, val_new_rational. rewrite rat_new_spec by tauto.
    apply safe_bind; [|intros; exact I]. apply safe_bind; [|intros; exact I].
    match goal with |- context [if ?b then _ else _] => destruct b eqn:B end; [|exact I].
    destruct m; try reflexivity. rewrite andb_false_r in B. discriminate.
  - apply with_reg_safe. intros; exact I.
  - apply with_reg_safe. intros. apply with_reg_safe. intros; exact I.
  - apply with_reg_safe. intros e N. apply safe_bind; [apply agg_safe; eapply nth_wf; eauto|intros; exact I].
  - apply with_reg_safe. intros e N. apply with_var_safe; [exact W|]. intros u Wu. apply with_reg_safe. intros v Nv.
    destruct (substitute e u v); exact I.
  - apply with_reg_safe. intros e N. apply with_var_safe; [exact W|]. intros u Wu.
    assert (S : safe m (derivative m e u)).
    { unfold derivative. destruct (to_variable u); [|exact I]. apply safe_bind; [apply deriv_safe; eapply nth_wf; eauto|intros; exact I]. }
    apply safe_bind; [exact S|]. intros [d|er] E; [exact I|]. apply c28_only_error in E as [-> _]. apply safe_bind; [|intros; exact I].
    cbn [derivative_error_to_string]. apply safe_bind; [apply safe_string, Wu|intros; exact I].
  - apply with_reg_safe. intros e N. apply with_var_safe; [exact W|]. intros u Wu. apply with_reg_safe. intros v Nv.
    apply safe_bind; [apply taylor_safe; eapply nth_wf; eauto|]. intros [t|er] E; [exact I|]. apply c31_only_error in E as [-> _].
    apply safe_bind; [|intros; exact I]. unfold taylor_error_to_string. apply safe_bind; [apply safe_string, Wu|intros; exact I].
  - apply with_reg_safe. intros e N. apply with_var_safe; [exact W|]. intros u Wu. apply with_reg_safe. intros v Nv.
    apply safe_bind; [apply taylor_safe; eapply nth_wf; eauto|]. intros [t|er] E.
    + apply safe_bind; [|intros; exact I]. refine (taylor_text_safe m e u v n t _ _ V E); eapply nth_wf; eauto.
    + apply c31_only_error in E as [-> _].
      apply safe_bind; [|intros; exact I]. unfold taylor_error_to_string. apply safe_bind; [apply safe_string, Wu|intros; exact I].
  - apply with_reg_safe. intros e N. apply safe_bind; [apply safe_string; eapply nth_wf; eauto|intros; exact I].
  - apply with_reg_safe. intros e N. apply with_reg_safe. intros e' N'. apply safe_bind; [|intros [|]; intros; exact I].
    unfold near_r. destruct (to_smart_num_r e); [|exact I]. destruct (to_smart_num_r e'); [|exact I].
    apply safe_bind; [apply sn_sub_safe|]. intros d _. apply safe_bind; [|intros; exact I].
    unfold sn_to_f64, val_to_f64. destruct (nval d); [apply safe_trap| |exact I]. unfold rat_to_f64.
    repeat (apply safe_bind; [apply safe_trap|intros]); try apply safe_trap; exact I.
Qed.
Lemma run_safe fuel m s : Forall valid s -> Forall (fun c => ~ is_limit c) s -> forall st, Forall wf (regs st) -> safe m (run fuel m s st).
Proof.
  induction 1 as [|c s V Vs IH]; intros L st W; cbn [run]; [exact I|]. inversion L; subst. apply safe_bind.
  - apply exec_safe; assumption.
  - intros st' E. apply IH; [assumption|]. exact (ext_wf _ _ (exec_ext _ _ _ _ _ V W E) W).
Qed.

(** ** builds *)
Lemma with_reg_mono st i k1 k2 : (forall e, refines (k1 e) (k2 e)) -> refines (with_reg st i k1) (with_reg st i k2).
Proof. intros H. unfold with_reg. destruct (nth_error (regs st) i); [apply H|apply refines_refl]. Qed.
Lemma with_var_mono st x k1 k2 : (forall e, refines (k1 e) (k2 e)) -> refines (with_var st x k1) (with_var st x k2).
Proof. intros H. destruct x; [apply H|]. apply with_reg_mono, H. Qed.
Lemma near_r_mono m1 m2 a b eps : mle m1 m2 -> refines (near_r m1 a b eps) (near_r m2 a b eps).
Proof.
  intros Hm. unfold near_r. destruct (to_smart_num_r a); [|apply refines_refl]. destruct (to_smart_num_r b); [|apply refines_refl].
  apply refines_bind; [apply sn_sub_mono, Hm|]. intros d _. apply refines_bind; [apply sn_to_f64_mono, Hm|]. intros; apply refines_refl.
Qed.
Lemma exec_mono fuel m1 m2 c st : mle m1 m2 -> refines (exec fuel m1 c st) (exec fuel m2 c st).
Proof.
  intros Hm. destruct c; cbn [exec]; try apply refines_refl;
    repeat (first [apply with_reg_mono; intros ? | apply with_var_mono; intros ?]); try apply refines_refl.
  - apply refines_bind; [|intros; apply refines_refl]. cbn [into_expression]. apply refines_bind; [|intros; apply refines_refl].
    destruct t; try apply refines_refl. apply refines_bind; [apply cast_i64_mono, Hm|intros; apply refines_refl].
  - apply refines_bind; [apply sn_new_rational_mono, Hm|intros; apply refines_refl].
  - apply refines_bind; [apply agg_mono, Hm|intros; apply refines_refl].
  - apply refines_bind; [apply derivative_mono, Hm|intros; apply refines_refl].
  - apply refines_bind; [apply taylor_mono, Hm|intros; apply refines_refl].
  - apply refines_bind; [apply taylor_mono, Hm|]. intros [t|er] _; [|apply refines_refl].
    apply refines_bind; [apply expansion_to_string_mono, Hm|intros; apply refines_refl].
  - apply refines_bind; [apply limit_mono; [exact Hm|lia]|intros; apply refines_refl].
  - apply refines_bind; [apply near_r_mono, Hm|intros; apply refines_refl].
Qed.
Lemma run_mono fuel m1 m2 s : mle m1 m2 -> forall st, refines (run fuel m1 s st) (run fuel m2 s st).
Proof.
  intros Hm. induction s as [|c s IH]; intros st; [apply refines_refl|]. cbn [run].
  apply refines_bind; [apply exec_mono, Hm|]. intros st' _. apply IH.
Qed.

(** ** termination *)
Lemma nf_string e : forall u, to_string_raw u e <> Fuel.
Proof.
  induction e as [r c IH] using expr_ind'. intros u. cbn [to_string_raw]. destruct r as [op|o].
  2:{ destruct o as [n|v]; cbn [od_to_string]; [|discriminate]. destruct (c41_number n) as [s ->]. discriminate. }
  apply LimTerm.nf_bind; [|intros; destruct (_ <? _)%Z; discriminate].
  assert (forall l, Forall (fun x => x <> Fuel) l -> match l with
            | [a; b] => let* x := a in let* y := b in Ok (x ++ " " ++ symbol op ++ " " ++ y)%string
            | a :: _ => let* x := a in Ok (symbol op ++ x)%string
            | [] => Panic end <> Fuel) as K.
  { intros l0 H. destruct H as [|a l1 Ha [|b l2 Hb [|d l3 Hd Hl]]]; [discriminate| | |].
    - apply LimTerm.nf_bind; [exact Ha|discriminate].
    - apply LimTerm.nf_bind; [exact Ha|]. intros. apply LimTerm.nf_bind; [exact Hb|discriminate].
    - apply LimTerm.nf_bind; [exact Ha|discriminate]. }
  apply K. apply Forall_forall. intros x Hx. apply in_map_iff in Hx as (e & <- & He).
  rewrite Forall_forall in IH. exact (IH e He _).
Qed.
Lemma exec_terminates m c st : valid c -> Forall wf (regs st) ->
  exists r F, r <> Fuel /\ forall fuel, (F <= fuel)%nat -> exec fuel m c st = r.
Proof.
  intros V W. assert (Hc : is_limit c \/ ~ is_limit c) by (destruct c; cbn; auto). destruct Hc as [L|L].
  - destruct c; try (destruct L). cbn [exec].
    unfold with_reg. destruct (nth_error (regs st) i) as [e|] eqn:N; [|exists (Ok st), O; split; [discriminate|reflexivity]].
    assert (X : exists o, with_var st x = fun k => match o with Some u => k u | None => Ok st end).
    { unfold with_var, with_reg. destruct x as [y|u]; [exists (Some (e_var y)); reflexivity|exists (nth_error (regs st) u); reflexivity]. }
    destruct X as [[u|] ->]; [|exists (Ok st), O; split; [discriminate|reflexivity]].
    destruct (nth_error (regs st) p) as [to|]; [|exists (Ok st), O; split; [discriminate|reflexivity]].
    destruct (c53_limit_terminates m e u to n (nth_wf _ _ _ W N)) as (r & F & Hr & Hf).
    eexists. exists F. split; [|intros fuel Hl; rewrite (Hf fuel Hl); reflexivity].
    apply LimTerm.nf_bind; [exact Hr|]. intros [l|er] _; [|discriminate]. apply LimTerm.nf_bind; [|discriminate].
    destruct l; try discriminate. apply nf_string.
  - assert (E : forall f1 f2, exec f1 m c st = exec f2 m c st) by (destruct c; try reflexivity; destruct L; exact I).
    exists (exec 0 m c st), O. split; [exact (LimTerm.nf_safe m _ (exec_safe 0 m c st V L W))|]. intros fuel _. apply E.
Qed.
Lemma run_terminates m s : Forall valid s -> forall st, Forall wf (regs st) ->
  exists r F, r <> Fuel /\ forall fuel, (F <= fuel)%nat -> run fuel m s st = r.
Proof.
  induction 1 as [|c s V Vs IH]; intros st W; [exists (Ok st), O; split; [discriminate|reflexivity]|].
  destruct (exec_terminates m c st V W) as (r & F & Hr & Hf). cbn [run]. destruct r as [st'| | |]; [| | |congruence].
  2:{ exists Panic, F. split; [discriminate|]. intros fuel Hl. rewrite (Hf fuel Hl). reflexivity. }
  2:{ exists Trap, F. split; [discriminate|]. intros fuel Hl. rewrite (Hf fuel Hl). reflexivity. }
  pose proof (ext_wf _ _ (exec_ext F m c st st' V W (Hf F (le_n F))) W) as W'.
  destruct (IH st' W') as (r' & F' & Hr' & Hf'). exists r', (max F F'). split; [exact Hr'|].
  intros fuel Hl. rewrite (Hf fuel) by lia. cbn [bind]. apply Hf'. lia.
Qed.

(** ** meaning *)
Local Open Scope R_scope.
Definition good_reg (e : expr) : Prop := pl e /\ ~ has_pi e.

Lemma deriv_pi m x e : wf e -> forall d, deriv m x e = Ok d -> has_pi d -> has_pi e.
Proof.
  intros W. pattern e. revert e W. apply wf_ind1.
  - intros n _ d [= <-] H. destruct (npi_zero H).
  - intros y d. rewrite deriv_var. intros [= <-] H. destruct (String.eqb x y); [destruct (npi_one H)|destruct (npi_zero H)].
  - intros t a Ha Wa IH d H Hp. rewrite deriv_mk1 in H by assumption. inv_bind H. rename a0 into da.
    assert (Wd : wf da) by exact (deriv_wf _ _ _ _ Wa Hb).
    assert (wf (raw1 t a da)) as Wr by (destruct t; try discriminate; cbn [raw1]; repeat first [apply wf_mk2 | apply wf_mk1 | reflexivity | assumption]).
    apply (agg_pi _ _ Wr _ H) in Hp. specialize (IH _ Hb). apply has_pi_mk1.
    destruct t; try discriminate; cbn [raw1] in Hp; unfold e_neg, e_mul, e_cos, e_sin, e_exp, e_div in Hp;
      repeat first [rewrite has_pi_mk1 in Hp | rewrite has_pi_mk2 in Hp]; tauto.
  - intros t a b Ha Wa Wb IHa IHb d H Hp. rewrite deriv_mk2 in H by assumption. do 2 inv_bind H. rename a1 into da. rename a0 into db.
    assert (Wd : wf da) by exact (deriv_wf _ _ _ _ Wa Hb0).
    assert (We : wf db) by exact (deriv_wf _ _ _ _ Wb Hb).
    assert (wf (raw2 t a b da db)) as Wr by (destruct t; try discriminate; cbn [raw2]; repeat first [apply wf_mk2 | apply wf_mk1 | reflexivity | assumption]).
    apply (agg_pi _ _ Wr _ H) in Hp. specialize (IHa _ Hb0). specialize (IHb _ Hb). apply has_pi_mk2.
    destruct t; try discriminate; cbn [raw2] in Hp; unfold e_add, e_sub, e_mul, e_div, e_pow, e_ln in Hp;
      repeat first [rewrite has_pi_mk1 in Hp | rewrite has_pi_mk2 in Hp]; tauto.
Qed.

Lemma good_agg e z : good_reg e -> num_aggregate Strict e = Ok z -> good_reg z.
Proof. intros [P N] H. split; [exact (agg_pl _ _ P H)|]. intros K. exact (N (agg_pi _ _ (proj1 P) _ H K)). Qed.
Lemma good_deriv x e d : good_reg e -> deriv Strict x e = Ok d -> good_reg d.
Proof. intros [P N] H. split; [exact (deriv_pl _ _ _ P H)|]. intros K. exact (N (deriv_pi _ _ _ (proj1 P) _ H K)). Qed.
Lemma good_deriv_n x k : forall e d, good_reg e -> deriv_n Strict x k e = Ok d -> good_reg d.
Proof.
  induction k; intros e d G H; cbn [deriv_n] in H; [injection H as <-; exact G|]. inv_bind H.
  exact (IHk _ _ (good_deriv _ _ _ G Hb) H).
Qed.
Lemma good_subst x v e : good_reg e -> good_reg v -> good_reg (subst x v e).
Proof.
  intros [P N] [P' N']. split; [exact (subst_pl _ _ _ P P' N')|]. intros K. apply subst_has_pi in K as [K|K]; [tauto..|exact (proj1 P)].
Qed.
Lemma good_num n : num_ok n -> sn_is_pi n = false -> good_reg (e_num n).
Proof.
  intros H N. split; [split; [apply wf_num; exact H|apply plain_num]|]. intros K. apply has_pi_num in K. congruence.
Qed.
Lemma good_var x : good_reg (e_var x).
Proof. split; [split; [apply wf_var|apply plain_var]|apply npi_var]. Qed.
Lemma good_mk1 t a : arity t = 1%nat -> t <> OPow -> good_reg a -> good_reg (mk1 t a).
Proof.
  intros A T [[W P] N]. split; [split; [apply wf_mk1; assumption|apply plain_mk1; auto]|]. rewrite has_pi_mk1. exact N.
Qed.
Lemma good_mk2 t a b : arity t = 2%nat -> t <> OPow -> good_reg a -> good_reg b -> good_reg (mk2 t a b).
Proof. intros A T [P N] [P' N']. split; [apply pl_mk2; assumption|]. rewrite has_pi_mk2. tauto. Qed.

Lemma sn_of_val_not_pi v : sn_is_pi (sn_of_val v) = false.
Proof. unfold sn_of_val, sn_is_pi. cbn [ntag]. destruct (val_is_one v); [reflexivity|]. destruct (val_is_zero v); reflexivity. Qed.
Lemma num_R_of_val v : num_R (sn_of_val v) = option_map Q2R (val_Q v).
Proof. unfold num_R, sn_of_val. cbn [ntag nval]. destruct (val_is_one v); [reflexivity|]. destruct (val_is_zero v); reflexivity. Qed.

Lemma eval_upd_id rho x e : eval (upd rho x (rho x)) e = eval rho e.
Proof. apply eval_ext. intros y _. unfold upd. destruct (String.eqb y x) eqn:E; [apply String.eqb_eq in E as ->|]; reflexivity. Qed.

Lemma along_evalx e A rho x t f : stands_for e A -> along A rho x t f ->
  locally t (fun s => f s = evalx rho x e s) /\ defined (upd rho x t) e.
Proof.
  intros S L. unfold along in L. split.
  - revert L. apply filter_imp. intros s H. unfold evalx. rewrite (S _ _ H). reflexivity.
  - apply locally_singleton in L. exists (f t). exact (S _ _ L).
Qed.

Lemma derive_stands x e d A rho (v : R) : good_reg e -> stands_for e A -> deriv Strict x e = Ok d ->
  (exists f, along A rho x (rho x) f /\ is_derive f (rho x) v) -> eval rho d = Some v.
Proof.
  intros [P _] S H (f & L & D). destruct (along_evalx _ _ _ _ _ _ S L) as [E De].
  destruct (deriv_at rho x (rho x) e d P H De) as [[w Hw] Dw]. rewrite (evalx_at _ _ _ _ _ Hw) in Dw.
  rewrite eval_upd_id in Hw. rewrite Hw.
  apply (is_derive_ext_loc _ _ _ _ E) in D. apply is_derive_unique in D. apply is_derive_unique in Dw. congruence.
Qed.

Lemma residual_stands x e d A rho v k : good_reg e -> stands_for e A -> deriv_n Strict x k e = Ok d ->
  (exists f, along A rho x (rho x) f /\ ex_derive_n f k (rho x) /\ v = Derive_n f k (rho x)) -> eval rho d = Some v.
Proof.
  intros [P _] S H (f & L & _ & ->). destruct (along_evalx _ _ _ _ _ _ S L) as [E De].
  destruct (deriv_n_correct (fun _ => True) rho x e (proj1 P) k d H (rho x) (conj (plain_rgen _ _ _ _ (proj2 P)) De)) as (_ & V & _).
  rewrite eval_upd_id in V. rewrite V. f_equal. symmetry. apply Derive_n_ext_loc. exact E.
Qed.

Lemma coef_stands x e at_ A P rho v k d s ck : (k <= 20)%nat -> good_reg e -> good_reg at_ -> stands_for e A -> stands_for at_ P ->
  deriv_n Strict x k e = Ok d -> num_aggregate Strict (subst x at_ d) = Ok s ->
  num_aggregate Strict (e_div s (e_of_i64 (wrap_i64 (factZ k)))) = Ok ck ->
  good_reg ck /\
  ((exists a f, P rho a /\ along A rho x a f /\ ex_derive_n f k a /\ v = Derive_n f k a / INR (fact k)) -> eval rho ck = Some v).
Proof.
  intros Hk G Ga Se Sa H1 H2 H3. rewrite (c31_factorial k Hk) in H3.
  assert (in_i64 (factZ k) = true) as Hin by (rewrite <- (c31_factorial k Hk); apply wrap_in64).
  pose proof (good_deriv_n x k e d G H1) as Gd.
  pose proof (good_subst x at_ d Gd Ga) as Gs. pose proof (good_agg _ _ Gs H2) as Gs'.
  assert (Gq : good_reg (e_div s (e_of_i64 (factZ k)))).
  { apply good_mk2; [reflexivity|discriminate|exact Gs'|]. apply good_num; [apply sn_of_i64_ok, Hin|apply sn_of_val_not_pi]. }
  split; [exact (good_agg _ _ Gq H3)|].
  intros (a & f & Pa & L & _ & ->). destruct (along_evalx _ _ _ _ _ _ Se L) as [E De].
  destruct (deriv_n_correct (fun _ => True) rho x e (proj1 (proj1 G)) k d H1 a (conj (plain_rgen _ _ _ _ (proj2 (proj1 G))) De)) as (_ & V & _).
  rewrite <- (eval_subst rho x at_ a d (Sa _ _ Pa)) in V.
  apply (agg_pl_eval rho _ _ _ (proj1 Gs) H2) in V. apply (agg_pl_eval rho _ _ _ (proj1 Gq) H3).
  unfold e_div. rewrite eval_mk2, V. unfold e_of_i64, e_num. rewrite eval_num, num_R_int. cbn [obind ev2].
  unfold factZ. rewrite <- INR_IZR_INZ. destruct (Req_EM_T (INR (fact k)) 0) as [E0|]; [exfalso; exact (INR_fact_neq_0 k E0)|].
  f_equal. f_equal. symmetry. apply Derive_n_ext_loc. exact E.
Qed.

Lemma real1_eval g e A rho v : stands_for e A -> (exists a, A rho a /\ real1 g a v) -> eval rho (apply1 g e) = Some v.
Proof.
  intros S (a & Ha & H). destruct (apply1_mk g e) as [-> _]. rewrite eval_mk1, (S _ _ Ha).
  destruct g; cbn [op1 obind ev1 real1] in *; try (rewrite H; reflexivity).
  destruct H as [H ->]. destruct (Rlt_dec 0 a); [reflexivity|contradiction].
Qed.
Lemma real2_eval g e e' A B rho v : stands_for e A -> stands_for e' B -> (exists a b, A rho a /\ B rho b /\ real2 g a b v) ->
  eval rho (apply2 g e e') = Some v.
Proof.
  intros S S' (a & b & Ha & Hb & H). destruct (apply2_mk g e e') as [-> _]. rewrite eval_mk2, (S _ _ Ha), (S' _ _ Hb).
  destruct g; cbn [op2 obind ev2 real2] in *; try (rewrite H; reflexivity).
  - destruct H as [H ->]. destruct (Req_EM_T b 0); [contradiction|reflexivity].
  - destruct H as [H ->]. unfold powR. destruct (Rlt_dec 0 a); [reflexivity|contradiction].
Qed.

Definition Inv (rs : list expr) (l : list meaning) : Prop := Forall2 (fun e A => good_reg e /\ stands_for e A) rs l.
Lemma Inv_nth rs l i : Inv rs l ->
  (exists e A, nth_error rs i = Some e /\ nth_error l i = Some A /\ good_reg e /\ stands_for e A) \/
  (nth_error rs i = None /\ nth_error l i = None).
Proof.
  intros H. revert i. induction H as [|e A rs l [G S] H IH]; intros [|i]; cbn [nth_error].
  - right. split; reflexivity.
  - right. split; reflexivity.
  - left. exists e, A. auto.
  - apply IH.
Qed.
Lemma Inv_push st l es ms : Inv (regs st) l -> Inv es ms -> Inv (regs (push st es)) (l ++ ms).
Proof. intros H K. apply Forall2_app; assumption. Qed.
Lemma Inv_one e A : good_reg e -> stands_for e A -> Inv [e] [A].
Proof. intros. constructor; [split; assumption|constructor]. Qed.
Lemma Inv_same st l : Inv (regs st) l -> Inv (regs st) (l ++ []).
Proof. rewrite app_nil_r. auto. Qed.

Lemma exec_meaning fuel c st st' l : valid c -> mathematical c -> Inv (regs st) l ->
  exec fuel Strict c st = Ok st' -> Inv (regs st') (l ++ new_meanings c l).
Proof.
  intros V M K H.
  assert (R : forall i (k : expr -> res state), with_reg st i k = Ok st' ->
    (exists e A, nth_error (regs st) i = Some e /\ nth_error l i = Some A /\ good_reg e /\ stands_for e A /\ k e = Ok st') \/
    (st' = st /\ nth_error l i = None)).
  { intros i k E. unfold with_reg in E. destruct (Inv_nth _ _ i K) as [(e & A & N & N' & G & S)|[N N']].
    - rewrite N in E. left. exists e, A. auto.
    - rewrite N in E. injection E as <-. right. auto. }
  destruct c; cbn [exec mathematical valid new_meanings] in *.
  - injection H as <-. apply Inv_push; [exact K|]. apply Inv_one; [apply good_var|]. intros rho v ->. reflexivity.
  - inv_bind H. injection H as <-. apply Inv_push; [exact K|]. cbn [into_expression] in Hb. inv_bind Hb. injection Hb as <-.
    destruct (in_type_i64 _ _ _ _ V Hb0) as (w & -> & I).
    assert (w = z) as ->.
    { destruct t; cbn [val_from_int] in Hb0; try (injection Hb0 as ->; reflexivity). inv_bind Hb0. injection Hb0 as ->.
      unfold cast_i64 in Hb. destruct (in_i64 z); [injection Hb as <-; reflexivity|discriminate]. }
    apply Inv_one; [apply good_num; [apply sn_of_val_ok; exact I|apply sn_of_val_not_pi]|].
    intros rho v ->. unfold e_num. rewrite eval_num. apply (num_R_int z).
  - injection H as <-. apply Inv_push; [exact K|]. apply Inv_one; [apply good_num; [apply sn_of_val_ok; exact I|apply sn_of_val_not_pi]|].
    intros rho v Hv. rewrite eval_num, num_R_of_val. exact Hv.
  - injection H as <-. apply Inv_push; [exact K|]. apply Inv_one; [apply good_num; [apply sn_of_val_ok; exact I|apply sn_of_val_not_pi]|].
    intros rho v Hv. rewrite eval_num, num_R_of_val. cbn [val_Q].
    destruct (f_val f) as [q|] eqn:Q; [|discriminate]. injection Hv as <-.
    assert (F : f_finite f) by (destruct f; try discriminate; exact I).
    destruct (c16_from_f32 f V F) as (E & _). rewrite Q in E. cbn [sn_of_f32 sn_of_val nval val_of_f32 val_Q] in E.
    destruct (f_val (f_of_f32 f)) as [q'|]; [|destruct E]. cbn [option_map]. f_equal. apply Qeq_eqR. exact E.
  - inv_bind H. injection H as <-. destruct V as (V1 & V2 & V3). pose proof Hb as Hb'. unfold sn_new_rational, val_new_rational in Hb.
    rewrite rat_new_spec in Hb by exact V1.
    destruct ((s =? - two63) && _)%Z; [discriminate|]. cbn [bind] in Hb.
    destruct (((s =? 1) || (s =? -1)) && negb (d =? 0))%Z eqn:B; cbn [bind] in Hb; injection Hb as <-; [|apply Inv_same; exact K].
    apply Inv_push; [exact K|]. apply Inv_one.
    + apply good_num; [exact (sn_new_rational_ok _ _ _ _ _ V1 V2 V3 Hb')|]. unfold sn_is_pi. cbn [ntag].
      repeat match goal with |- context [if ?b then _ else _] => destruct b end; reflexivity.
    + intros rho v ->. unfold e_num. rewrite eval_num. apply andb_true_iff in B as [B1 B2]. apply negb_true_iff in B2.
      assert (E : val_Q (Rational (mkRat s n d)) = Some (ratQ (mkRat s n d))) by (cbn [val_Q rden]; rewrite B2; reflexivity).
      transitivity (option_map Q2R (Some (ratQ (mkRat s n d)))).
      { rewrite <- E. unfold num_R. cbn [ntag nval].
        destruct ((n =? 0) && negb (d =? 0))%Z; [reflexivity|]. destruct ((s =? 1) && (n =? d) && negb (d =? 0))%Z; reflexivity. }
      cbn [option_map]. f_equal. apply Z.eqb_neq in B2. apply in_u64_iff in V3.
      unfold ratQ, Q2R. cbn [rsign rnum rden Qnum Qden]. rewrite Z2Pos.id by lia. rewrite mult_IZR. unfold Rdiv. reflexivity.
  - destruct M.
  - injection H as <-. apply Inv_push; [exact K|]. apply Inv_one; [apply good_num; [split; [exact I|reflexivity]|reflexivity]|].
    intros rho v ->. reflexivity.
  - apply R in H as [(e & A & _ & -> & G & S & [= <-])|[-> ->]]; [|apply Inv_same; exact K]. apply Inv_push; [exact K|]. apply Inv_one.
    + destruct (apply1_mk g e) as [-> At]. apply good_mk1; [exact At|destruct g; discriminate|exact G].
    + intros rho v. apply real1_eval. exact S.
  - apply R in H as [(e & A & _ & -> & G & S & H)|[-> ->]]; [|apply Inv_same; exact K].
    apply R in H as [(e' & A' & _ & -> & G' & S' & [= <-])|[-> ->]]; [|apply Inv_same; exact K]. apply Inv_push; [exact K|]. apply Inv_one.
    + destruct (apply2_mk g e e') as [-> At]. apply good_mk2; [exact At|destruct g; try discriminate; destruct M|exact G|exact G'].
    + intros rho v. apply real2_eval; assumption.
  - apply R in H as [(e & A & _ & -> & G & S & H)|[-> ->]]; [|apply Inv_same; exact K]. inv_bind H. injection H as <-.
    apply Inv_push; [exact K|]. apply Inv_one; [exact (good_agg _ _ G Hb)|].
    intros rho v Hv. exact (agg_pl_eval rho _ _ _ (proj1 G) Hb (S _ _ Hv)).
  - destruct x as [x|u]; [|destruct M]. cbn [with_var] in H.
    apply R in H as [(e & A & _ & -> & G & S & H)|[-> ->]]; [|apply Inv_same; exact K].
    apply R in H as [(e' & A' & _ & -> & G' & S' & H)|[-> ->]]; [|apply Inv_same; exact K].
    injection H as <-. apply Inv_push; [exact K|]. apply Inv_one; [apply good_subst; assumption|].
    intros rho v (b & Hb & Ha). rewrite (eval_subst rho x e' b e (S' _ _ Hb)). exact (S _ _ Ha).
  - destruct x as [x|u]; [|destruct M]. cbn [with_var] in H.
    apply R in H as [(e & A & _ & -> & G & S & H)|[-> ->]]; [|apply Inv_same; exact K]. inv_bind H.
    unfold derivative in Hb. cbn [to_variable root e_var] in Hb. inv_bind Hb. injection Hb as <-. injection H as <-.
    apply Inv_push; [exact K|]. apply Inv_one; [exact (good_deriv _ _ _ G Hb0)|].
    intros rho v. apply (derive_stands x e _ A rho v G S Hb0).
  - destruct x as [x|u]; [|destruct M]. cbn [with_var] in H.
    apply R in H as [(e & A & _ & -> & G & S & H)|[-> ->]]; [|apply Inv_same; exact K].
    apply R in H as [(e' & A' & _ & -> & G' & S' & H)|[-> ->]]; [|apply Inv_same; exact K].
    inv_bind H. destruct a as [t|er]; [|apply c31_only_error in Hb as [_ N]; exfalso; apply N; exists x, []; reflexivity].
    injection H as <-. apply Inv_push; [exact K|].
    assert (Hn : (Z.to_nat n <= 20)%nat).
    { destruct (Nat.le_gt_cases (Z.to_nat n) 20) as [Q|Q]; [exact Q|]. exfalso.
      exact (proj2 (c34_debug_never_returns e (e_var x) e' n t ltac:(lia)) Hb). }
    rewrite <- (Z2Nat.id n) in Hb by lia. set (N := Z.to_nat n) in *.
    apply c31_shape in Hb as (_ & _ & _ & Len & Res & Co).
    apply Forall2_app.
    2:{ apply Inv_one; [exact (good_deriv_n _ _ _ _ G Res)|]. intros rho v. apply (residual_stands x e _ A rho v (Datatypes.S N) G S Res). }
    assert (Q : forall cs j, (forall k, (j <= k <= N)%nat -> exists ck, nth_error cs (k - j) = Some ck /\ good_reg ck /\
        stands_for ck (fun rho v => exists a f, A' rho a /\ along A rho x a f /\ ex_derive_n f k a /\ v = Derive_n f k a / INR (fact k))) ->
      List.length cs = (Datatypes.S N - j)%nat -> (j <= Datatypes.S N)%nat ->
      Inv cs (map (fun k rho v => exists a f, A' rho a /\ along A rho x a f /\ ex_derive_n f k a /\ v = Derive_n f k a / INR (fact k))
                (seq j (Datatypes.S N - j)))).
    { induction cs as [|ck cs IH]; intros j Hj L Lj; cbn [List.length] in L.
      - rewrite <- L. constructor.
      - assert (Lj' : (j <= N)%nat) by lia. replace (Datatypes.S N - j)%nat with (Datatypes.S (Datatypes.S N - Datatypes.S j)) by lia.
        cbn [seq map]. constructor.
        + destruct (Hj j (conj (le_n j) Lj')) as (c & E & Gc & Sc). rewrite Nat.sub_diag in E. injection E as <-. split; assumption.
        + apply IH; [|lia|lia]. intros k Hk. destruct (Hj k ltac:(lia)) as (c & E & Gc & Sc). exists c.
          replace (k - j)%nat with (Datatypes.S (k - Datatypes.S j)) in E by lia. cbn [nth_error] in E. auto. }
    change (Datatypes.S N) with (Datatypes.S N - 0)%nat. apply (Q (ex_coef t) 0%nat); [|rewrite Len; lia|lia].
    intros k Hk. destruct (Co k ltac:(lia)) as (d & s & ck & D & S1 & S2 & E). exists ck. rewrite Nat.sub_0_r. split; [exact E|].
    pose proof (fun rho v => coef_stands x e e' A A' rho v k d s ck ltac:(lia) G G' S S' D S1 S2) as CS.
    split; [exact (proj1 (CS (fun _ => 0) 0))|]. intros rho v. exact (proj2 (CS rho v)).
  - assert (regs st' = regs st) as ->; [|apply Inv_same; exact K].
    apply R in H as [(e & A & _ & _ & _ & _ & H)|[-> _]]; [|reflexivity].
    assert (X : exists u, match x with ByName y => Some (e_var y) | ByReg u => nth_error (regs st) u end = u) by eauto. destruct X as [u X].
    assert (st' = st \/ exists s, st' = say st s) as [-> |[s ->]]; [|reflexivity..].
    unfold with_var, with_reg in H. destruct x as [y|w]; [|destruct (nth_error (regs st) w); [|injection H as <-; auto]];
    (destruct (nth_error (regs st) p); [|injection H as <-; auto]); inv_bind H; (destruct a as [t|er]; inv_bind H; injection H as <-; eauto).
  - assert (regs st' = regs st) as ->; [|apply Inv_same; exact K].
    apply R in H as [(e & A & _ & _ & _ & _ & H)|[-> _]]; [|reflexivity].
    assert (st' = st \/ exists s, st' = say st s) as [-> |[s ->]]; [|reflexivity..].
    unfold with_var, with_reg in H. destruct x as [y|w]; [|destruct (nth_error (regs st) w); [|injection H as <-; auto]];
    (destruct (nth_error (regs st) p); [|injection H as <-; auto]); inv_bind H; (destruct a as [t|er]; [inv_bind H|]; injection H as <-; eauto).
  - apply R in H as [(e & A & _ & _ & _ & _ & H)|[-> _]]; [|apply Inv_same; exact K]. inv_bind H. injection H as <-. apply Inv_same. exact K.
  - apply R in H as [(e & A & _ & _ & _ & _ & H)|[-> _]]; [|apply Inv_same; exact K].
    apply R in H as [(e' & A' & _ & _ & _ & _ & H)|[-> _]]; [|apply Inv_same; exact K]. inv_bind H.
    destruct a as [b|er]; injection H as <-; apply Inv_same; exact K.
Qed.

(** ** integer programs *)
Lemma exec_integral fuel c st st' : valid c -> integral c -> Forall trig_poly (regs st) -> exec fuel Debug c st = Ok st' ->
  exec fuel Strict c st = Ok st' /\ Forall trig_poly (regs st').
Proof.
  intros V M K H.
  assert (P : forall e, trig_poly e -> Forall trig_poly (regs (push st [e]))).
  { intros e T. apply Forall_app. split; [exact K|]. constructor; [exact T|constructor]. }
  assert (N : forall i e, nth_error (regs st) i = Some e -> trig_poly e).
  { intros i e E. apply nth_error_In in E. rewrite Forall_forall in K. auto. }
  destruct c; cbn [exec integral valid] in *; try (destruct M; fail).
  - injection H as <-. split; [reflexivity|]. apply P. constructor.
  - inv_bind H. injection H as <-. cbn [into_expression] in *. inv_bind Hb. injection Hb as <-.
    assert (E : val_from_int Strict t z = Ok (Integer z) /\ a0 = Integer z).
    { destruct t; cbn [val_from_int] in *; try (split; [reflexivity|injection Hb0 as <-; reflexivity]).
      unfold cast_i64 in *. rewrite M in *. cbn [bind] in *. split; [reflexivity|injection Hb0 as <-; reflexivity]. }
    destruct E as [E ->]. rewrite E. cbn [bind]. split; [reflexivity|]. apply P. apply tp_num. exact M.
  - unfold with_reg in *. destruct (nth_error (regs st) i) as [e|] eqn:E; [|injection H as <-; auto]. injection H as <-.
    split; [reflexivity|]. apply P. apply N in E. destruct M as [-> |[-> | ->]]; constructor; exact E.
  - unfold with_reg in *. destruct (nth_error (regs st) i) as [e|] eqn:E; [|injection H as <-; auto].
    destruct (nth_error (regs st) j) as [e'|] eqn:E'; [|injection H as <-; auto]. injection H as <-.
    split; [reflexivity|]. apply P. apply N in E, E'. destruct M as [-> |[-> | ->]]; constructor; assumption.
  - unfold with_reg in *. destruct (nth_error (regs st) i) as [e|] eqn:E; [|injection H as <-; auto]. inv_bind H. injection H as <-.
    apply N in E. rewrite (proj1 (ie_agg _ (tp_ie _ E) _ Hb)). split; [reflexivity|]. apply P. exact (tp_agg _ _ E Hb).
  - destruct x as [x|u]; [|destruct M]. cbn [with_var] in *.
    unfold with_reg in *. destruct (nth_error (regs st) i) as [e|] eqn:E; [|injection H as <-; auto].
    destruct (nth_error (regs st) j) as [e'|] eqn:E'; [|injection H as <-; auto]. injection H as <-.
    split; [reflexivity|]. apply P. apply tp_subst; [exact (N _ _ E)|exact (N _ _ E')].
  - destruct x as [x|u]; [|destruct M]. cbn [with_var] in *.
    unfold with_reg in *. destruct (nth_error (regs st) i) as [e|] eqn:E; [|injection H as <-; auto]. apply N in E.
    unfold derivative in *. cbn [to_variable root e_var] in *. inv_bind H. inv_bind Hb. injection Hb as <-. injection H as <-.
    rewrite (proj1 (ie_deriv x _ (tp_ie _ E) _ Hb0)). split; [reflexivity|]. apply P. exact (tp_deriv x _ E _ Hb0).
  - unfold with_reg in *. destruct (nth_error (regs st) i) as [e|] eqn:E; [|injection H as <-; auto]. inv_bind H. injection H as <-.
    rewrite Hb. split; [reflexivity|exact K].
Qed.
Lemma run_integral fuel s : Forall valid s -> Forall integral s -> forall st st', Forall trig_poly (regs st) ->
  run fuel Debug s st = Ok st' -> run fuel Strict s st = Ok st'.
Proof.
  induction 1 as [|c s V Vs IH]; intros I st st' K H; cbn [run] in *; [exact H|]. inversion I; subst. inv_bind H.
  destruct (exec_integral _ _ _ _ V ltac:(assumption) K Hb) as [E K']. rewrite E. cbn [bind]. apply IH; assumption.
Qed.
Lemma integral_math c : integral c -> mathematical c.
Proof. destruct c; cbn; auto; try tauto. intros [-> |[-> | ->]]; exact I. Qed.

Lemma run_meaning fuel s : Forall valid s -> Forall mathematical s -> forall st st' l, Inv (regs st) l ->
  run fuel Strict s st = Ok st' -> Inv (regs st') (meanings s l).
Proof.
  induction 1 as [|c s V Vs IH]; intros M st st' l K H; cbn [run meanings] in *; [injection H as <-; exact K|].
  inversion M; subst. inv_bind H. eapply IH; [assumption| |exact H]. eapply exec_meaning; eassumption.
Qed.

(** ** C96 *)

(** a client program without limits never panics in a release build, whatever it does *)
Theorem c96_release_returns : forall fuel s, Forall valid s -> Forall (fun c => ~ is_limit c) s ->
  exists st, run fuel Release s start = Ok st.
Proof. intros fuel s V L. apply safe_release. apply run_safe; [exact V|exact L|constructor]. Qed.
Print Assumptions c96_release_returns.

(** in a debug build it returns or panics; where it panics, some operation loses information *)
Theorem c96_debug : forall fuel s, Forall valid s -> Forall (fun c => ~ is_limit c) s ->
  (exists st, run fuel Debug s start = Ok st) \/
  (run fuel Debug s start = Panic /\ run fuel Strict s start = Trap).
Proof.
  intros fuel s V L.
  destruct (safe_debug _ (run_safe fuel Debug s V L start (Forall_nil _))) as [E|E]; [right|left; exact E].
  split; [exact E|]. destruct (safe_strict _ (run_safe fuel Strict s V L start (Forall_nil _))) as [T|[z Hz]]; [exact T|].
  apply (run_mono fuel Strict Debug s I) in Hz. congruence.
Qed.
Print Assumptions c96_debug.

(** a program that gets through in a debug build does exactly the same in a release build: same
    registers, same output (limits included; every program, valid or not) *)
Theorem c96_builds_agree : forall fuel s st,
  (run fuel Debug s start = Ok st -> run fuel Release s start = Ok st) /\
  (run fuel Strict s start = Ok st -> run fuel Debug s start = Ok st).
Proof. intros fuel s st. split; apply run_mono; exact I. Qed.
Print Assumptions c96_builds_agree.

(** every program terminates, limits included, and its outcome does not depend on the stack *)
Theorem c96_terminates : forall m s, Forall valid s ->
  exists r depth, r <> Fuel /\ forall fuel, (depth <= fuel)%nat -> run fuel m s start = r.
Proof. intros m s V. apply run_terminates; [exact V|constructor]. Qed.
Print Assumptions c96_terminates.

(** nothing obtained earlier ever changes: running more calls keeps all earlier registers and
    texts; and every register is well-formed and can be printed *)
Theorem c96_history : forall fuel m s1 s2 st2, Forall valid (s1 ++ s2) -> run fuel m (s1 ++ s2) start = Ok st2 ->
  exists st1 l o, run fuel m s1 start = Ok st1 /\ run fuel m s2 st1 = Ok st2 /\
    regs st2 = (regs st1 ++ l)%list /\ out st2 = (out st1 ++ o)%list /\
    forall e, In e (regs st2) -> wf e /\ exists t, e_to_string e = Ok t.
Proof.
  intros fuel m s1 s2 st2 V H.
  assert (A : forall st, run fuel m (s1 ++ s2) st = Ok st2 -> exists st1, run fuel m s1 st = Ok st1 /\ run fuel m s2 st1 = Ok st2).
  { clear. induction s1 as [|c s1 IH]; intros st H; cbn [app run] in *; [eauto|]. inv_bind H. rewrite Hb. cbn [bind]. apply IH, H. }
  pose proof (ext_wf _ _ (run_ext _ _ _ V start st2 (Forall_nil _) H) (Forall_nil _)) as W2.
  destruct (A _ H) as (st1 & H1 & H2). apply Forall_app in V as [V1 V2].
  pose proof (ext_wf _ _ (run_ext _ _ _ V1 start st1 (Forall_nil _) H1) (Forall_nil _)) as W1.
  destruct (run_ext _ _ _ V2 st1 st2 W1 H2) as (l & o & E & _). exists st1, l, o.
  repeat split; try assumption; try (rewrite E; reflexivity).
  - rewrite Forall_forall in W2. auto.
  - apply c41_expression. rewrite Forall_forall in W2. auto.
Qed.
Print Assumptions c96_history.

(** every register has the mathematical meaning of the calls that produced it: whatever mix of
    building, simplifying, substituting, differentiating and expanding, in any order; no powers,
    no constant pi, and nothing lost to rounding or overflow *)
Theorem c96_meaning : forall fuel s st, Forall valid s -> Forall mathematical s ->
  run fuel Strict s start = Ok st -> Forall2 stands_for (regs st) (meanings s []).
Proof.
  intros fuel s st V M H. assert (K : Inv (regs st) (meanings s [])) by (eapply run_meaning; [exact V|exact M| |exact H]; constructor).
  induction K as [|e A r l [_ S] K IH]; constructor; assumption.
Qed.
Print Assumptions c96_meaning.

(** for integer programs a debug build is enough: what it returns is right *)
Theorem c96_integer_debug : forall fuel s st, Forall valid s -> Forall integral s ->
  run fuel Debug s start = Ok st -> Forall2 stands_for (regs st) (meanings s []).
Proof.
  intros fuel s st V I H. apply (c96_meaning fuel s st V).
  - revert I. apply Forall_impl, integral_math.
  - apply (run_integral fuel s V I start st); [constructor|exact H].
Qed.
Print Assumptions c96_integer_debug.

(** with powers it is false: 1 ^ x simplifies to x *)
Theorem c96_powers_refuted : exists s st, Forall valid s /\ run 0 Strict s start = Ok st /\ run 0 Debug s start = Ok st /\
  ~ Forall2 stands_for (regs st) (meanings s []).
Proof.
  exists [New_int TI64 1; New_var "x"; Binary PowF 0 1; Simplify 2].
  eexists. split; [repeat constructor; cbn; lia|]. split; [reflexivity|]. split; [reflexivity|].
  intros H. cbn in H. do 4 (match goal with K : Forall2 _ (_ :: _) _ |- _ => inversion K; clear K; subst end). match goal with K : stands_for (Expr (Operand (Var _)) []) (fun rho v => exists a b, _) |- _ => rename K into H end.
  specialize (H (fun _ => 5) 1). cbn in H. assert (E : Some 5 = Some 1); [|injection E as E; lra].
  apply H. exists 1, 5. split; [reflexivity|]. split; [reflexivity|]. split; [lra|].
  unfold Rpower. rewrite ln_1, Rmult_0_r, exp_0. reflexivity.
Qed.
Print Assumptions c96_powers_refuted.

(** a program with limits can panic in a release build (C38) *)
Theorem c96_limit_panics : exists s, Forall valid s /\ forall fuel, run (S fuel) Release s start = Panic.
Proof.
  exists [New_var "x"; Unary ExpF 0; New_int TI64 0; Limit 1 (ByName "x") 2 3].
  split; [repeat constructor; cbn; unfold two64; lia|]. reflexivity.
Qed.
Print Assumptions c96_limit_panics.

(** sin(3x), its derivative, the derivative at x := 2y, an expansion at 0, an error, texts *)
Definition c96_program : list call :=
  [New_var "x"; New_int TU8 3; Binary MulF 0 1; Unary SinF 2; Derive_by 3 (ByName "x");
   New_var "y"; Binary AddF 5 5; Substitute 4 (ByName "x") 6; New_int TI64 0;
   Taylor 3 (ByName "x") 8 3; Print 4; Print 7; Taylor_text 3 (ByName "x") 8 3; Derive_by 3 (ByName "z"); Print 14].
Example c96_witness :
  Forall valid c96_program /\ Forall mathematical c96_program /\
  (exists st, run 0 Strict c96_program start = Ok st /\ run 0 Release c96_program start = Ok st /\
     List.length (regs st) = 15%nat /\
     out st = ["cos(x * 3) * 3"; "cos((y + y) * 3) * 3"; "3/1 * x ^ 1 + -9/2 * x ^ 3 + O(x ^ 4)"; "0"]%string) /\
  (forall rho, exists A, nth_error (meanings c96_program []) 4 = Some A /\ A rho (3 * cos (rho "x"%string * 3))).
Proof.
  split; [repeat constructor; cbn; unfold two64, two63; lia|]. split; [repeat constructor|]. split.
  - eexists. split; [vm_compute; reflexivity|]. split; [vm_compute; reflexivity|]. split; vm_compute; reflexivity.
  - intros rho. eexists. split; [reflexivity|]. exists (fun t => sin (t * 3)). split.
    + unfold along. apply filter_forall. intros t. exists (t * 3). split; [|reflexivity].
      exists t, 3. split; [reflexivity|]. split; reflexivity.
    + auto_derive; [exact I|ring].
Qed.
