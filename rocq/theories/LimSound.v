(** * LimSound: the answers of limit are correct *)
From Coq Require Import ZArith List String Bool Lia Lra.
From Coq Require Import Reals.
From Coquelicot Require Import Coquelicot.
From Verif Require Import Base Float Rational SmartNum Ast Compute Limit Spec SpecTree SpecR SpecLim.
From Verif Require Import BaseProofs NumProofs NumProofs2 TreeProofs TreeProofs2 TreeProofs3 TreeProofs4 TreeProofs5
  RealProofs RealDeriv RealDeriv2 RealTaylor LimProofs LHopital.
Import ListNotations.
Open Scope R_scope.
Open Scope res_scope.

(** ** the class of plain expressions *)
Definition pl (e : expr) : Prop := wf e /\ plain e.

Lemma plain_rgen V Q rho e : plain e -> rgen V Q rho e.
Proof.
  intros [H1 H2]. split; [|exact H2]. intros a b Hs. exfalso. apply H1.
  exists (gen_op OPow), [a; b]. split; [reflexivity|exact Hs].
Qed.
Lemma plain_mk1 t a : plain (mk1 t a) <-> t <> OPow /\ plain a /\ (t = OSin \/ t = OCos -> ~ has_pi a).
Proof.
  unfold plain. rewrite has_op_mk1. split.
  - intros [H1 H2]. split; [intros ->; tauto|]. split; [split; [tauto|]|].
    + intros u [Hu|Hu]; apply H2; [left|right]; (eapply subterm_trans; [exact Hu|apply sub_mk1]).
    + intros [-> | ->]; apply H2; [left|right]; constructor.
  - intros (N & [H1 H2] & H3). split; [intros [E|E]; [congruence|tauto]|].
    intros u [Hu|Hu]; apply subterm_mk1 in Hu as [E|Hu].
    + apply mk1_inj in E as [<- ->]. apply H3. auto.
    + apply H2. auto.
    + apply mk1_inj in E as [<- ->]. apply H3. auto.
    + apply H2. auto.
Qed.
Lemma plain_mk2 t a b : plain (mk2 t a b) <-> t <> OPow /\ plain a /\ plain b.
Proof.
  unfold plain. rewrite has_op_mk2. split.
  - intros [H1 H2]. split; [intros ->; tauto|]. split; (split; [tauto|]);
    intros u [Hu|Hu]; apply H2; [left|right|left|right]; (eapply subterm_trans; [exact Hu|]); try apply sub_mk2_l; apply sub_mk2_r.
  - intros (N & [H1 H2] & H3 & H4). split; [intros [E|[E|E]]; [congruence|tauto..]|].
    intros u [Hu|Hu]; apply subterm_mk2 in Hu as [[=]|[Hu|Hu]]; auto.
Qed.
Lemma plain_num n : plain (Expr (Operand (Num n)) []).
Proof.
  split.
  - intros (op & c & _ & Hs). apply subterm_num in Hs. discriminate.
  - intros u [H|H]; apply subterm_num in H; discriminate.
Qed.
Lemma plain_var y : plain (Expr (Operand (Var y)) []).
Proof.
  split.
  - intros (op & c & _ & Hs). apply subterm_var in Hs. discriminate.
  - intros u [H|H]; apply subterm_var in H; discriminate.
Qed.

Lemma pl_mk2 t a b : arity t = 2%nat -> t <> OPow -> pl a -> pl b -> pl (mk2 t a b).
Proof.
  intros At N [W1 P1] [W2 P2]. split; [apply wf_mk2; assumption|]. apply plain_mk2. auto.
Qed.
Lemma pl_mk2_inv t a b : pl (mk2 t a b) -> pl a /\ pl b.
Proof.
  intros [W P]. apply wf_mk2_inv in W as (_ & W1 & W2). apply plain_mk2 in P as (_ & P1 & P2).
  split; split; assumption.
Qed.
Lemma pl_one : pl e_one. Proof. split; [apply wf_one|apply plain_num]. Qed.

Lemma agg_pl e z : pl e -> num_aggregate Strict e = Ok z -> pl z.
Proof.
  intros [W P] H. split; [exact (agg_wf _ _ _ W H)|]. split.
  - intros K. destruct (agg_ops _ _ _ _ H K) as [K'|[K' _]]; [exact (proj1 P K')|discriminate].
  - exact (proj2 (agg_rgen (fun _ => True) (fun _ => True) (fun _ => 0) e stable_any W (plain_rgen _ _ _ _ P) z H)).
Qed.
Lemma agg_pl_eval rho e z v : pl e -> num_aggregate Strict e = Ok z -> eval rho e = Some v -> eval rho z = Some v.
Proof.
  intros [W P] H Hv. exact (agg_sound rho e W (rgen_avoids (fun _ => True) (fun _ => True) rho e W (plain_rgen _ _ _ _ P)) z v H Hv).
Qed.

Lemma raw_nopow1 t a da : arity t = 1%nat -> ~ has_op OPow a -> ~ has_op OPow da -> ~ has_op OPow (raw1 t a da).
Proof.
  intros Ht Ha Hd. destruct t; try discriminate; cbn [raw1]; unfold e_neg, e_mul, e_cos, e_sin, e_exp, e_div;
  rewrite ?has_op_mk1, ?has_op_mk2, ?has_op_mk1, ?has_op_mk2; intuition discriminate.
Qed.
Lemma raw_nopow2 t a b da db : arity t = 2%nat -> t <> OPow -> ~ has_op OPow a -> ~ has_op OPow b ->
  ~ has_op OPow da -> ~ has_op OPow db -> ~ has_op OPow (raw2 t a b da db).
Proof.
  intros Ht N Ha Hb Hd He. destruct t; try discriminate; try contradiction; cbn [raw2];
  unfold e_add, e_sub, e_mul, e_div;
  repeat rewrite has_op_mk2; intuition discriminate.
Qed.
Lemma deriv_nopow x e : wf e -> ~ has_op OPow e -> forall d, deriv Strict x e = Ok d -> ~ has_op OPow d.
Proof.
  intros W. pattern e. revert e W. apply wf_ind1.
  - intros n _ _ d [= <-]. exact (proj1 (plain_num _)).
  - intros y _ d. rewrite deriv_var. intros [= <-]. destruct (String.eqb x y); exact (proj1 (plain_num _)).
  - intros t a Ha Wa IH Hn d H. rewrite deriv_mk1 in H by assumption. inv_bind H.
    rewrite has_op_mk1 in Hn. intros K.
    destruct (agg_ops _ _ _ _ H K) as [K'|[K' _]]; [|discriminate]. revert K'.
    apply raw_nopow1; [assumption|tauto|]. apply IH; [tauto|assumption].
  - intros t a b Ha Wa Wb IHa IHb Hn d H. rewrite deriv_mk2 in H by assumption. do 2 inv_bind H.
    rewrite has_op_mk2 in Hn. intros K.
    destruct (agg_ops _ _ _ _ H K) as [K'|[K' _]]; [|discriminate]. revert K'.
    apply raw_nopow2; try tauto; [intros ->; tauto| |]; [apply IHa|apply IHb]; tauto.
Qed.
Lemma deriv_pl x e d : pl e -> deriv Strict x e = Ok d -> pl d.
Proof.
  intros [W P] H. split; [exact (deriv_wf _ _ _ _ W H)|]. split.
  - exact (deriv_nopow x e W (proj1 P) d H).
  - exact (proj2 (deriv_rgen (fun _ => True) (fun _ => True) (fun _ => 0) x e stable_any W (plain_rgen _ _ _ _ P) d H)).
Qed.
Lemma subst_plain x to e : wf e -> plain e -> plain to -> ~ has_pi to -> plain (subst x to e).
Proof.
  intros W. pattern e. revert e W. apply wf_ind1.
  - intros n _ _ _ _. apply plain_num.
  - intros y _ P _. cbn [subst]. destruct (String.eqb y x); [exact P|apply plain_var].
  - intros t a Ha Wa IH P Pt N. rewrite subst_mk1. apply plain_mk1 in P as (H1 & H2 & H3). apply plain_mk1.
    refine (conj H1 (conj (IH H2 Pt N) _)). intros Ht K. apply (subst_has_pi x to a Wa) in K as [K|K]; [exact (H3 Ht K)|exact (N K)].
  - intros t a b Ha Wa Wb IHa IHb P Pt N. rewrite subst_mk2. apply plain_mk2 in P as (H1 & H2 & H3). apply plain_mk2. auto.
Qed.
Lemma subst_pl x to e : pl e -> pl to -> ~ has_pi to -> pl (subst x to e).
Proof.
  intros [W P] [Wt Pt] N. split; [apply subst_wf; assumption|apply subst_plain; assumption].
Qed.

(** ** derivatives and continuity of plain expressions *)
Lemma deriv_at rho x t e d : pl e -> deriv Strict x e = Ok d -> defined (upd rho x t) e ->
  defined (upd rho x t) d /\ is_derive (evalx rho x e) t (evalx rho x d t).
Proof.
  intros [W P] H [v Hv].
  destruct (deriv_correct (fun _ => True) rho x t e W (plain_rgen _ _ _ _ P) d v H Hv) as (v' & Hv' & _ & Hd).
  split; [exists v'; exact Hv'|]. rewrite (evalx_at _ _ _ _ _ Hv'). exact Hd.
Qed.
Lemma cont_at rho x a e : pl e -> defined (upd rho x a) e ->
  filterlim (evalx rho x e) (near a) (locally (evalx rho x e a)).
Proof.
  intros [W P] [v Hv]. destruct (dat_exists (fun _ => True) rho x a e W (plain_rgen _ _ _ _ P) v Hv) as (d & _ & Hd).
  apply cont_of in Hd. intros Q HQ. specialize (Hd Q HQ). unfold filtermap in *.
  unfold near, locally', within. generalize Hd. apply filter_imp. auto.
Qed.

(** ** asking *)
Section Ask.
Context (x : string) (to : expr) (ord : Z).
Lemma asks_trans e s u : asks x to ord e s -> asks x to ord s u -> asks x to ord e u.
Proof.
  induction 1; intros K; [exact K|..].
  - apply asks_left; auto.
  - apply asks_right; auto.
  - eapply asks_add; eauto.
  - eapply asks_mul_r; eauto.
  - eapply asks_mul_l; eauto.
  - eapply asks_hop; eauto.
Qed.
Lemma regular_asks rho a e s : limit_regular rho x to a ord e -> asks x to ord e s -> limit_regular rho x to a ord s.
Proof.
  intros H Hs. constructor.
  - intros u Hu. apply (lr_defined _ _ _ _ _ _ H). exact (asks_trans _ _ _ Hs Hu).
  - intros l r u v Hu. apply (lr_mul _ _ _ _ _ _ H). exact (asks_trans _ _ _ Hs Hu).
  - intros l r u v Hu. apply (lr_div _ _ _ _ _ _ H). exact (asks_trans _ _ _ Hs Hu).
  - intros u Hu. apply (lr_trig _ _ _ _ _ _ H). destruct Hu as [Hu|Hu]; [left|right]; exact (asks_trans _ _ _ Hs Hu).
  - intros u Hz Hu. apply (lr_sin0 _ _ _ _ _ _ H u Hz). exact (asks_trans _ _ _ Hs Hu).
Qed.
End Ask.

(** ** values of compound expressions near the point *)
Section Near.
Context (rho : string -> R) (x : string) (a : R).
Lemma defined_mk2 t l r s : defined (upd rho x s) (mk2 t l r) ->
  defined (upd rho x s) l /\ defined (upd rho x s) r /\
  ev2 t (evalx rho x l s) (evalx rho x r s) = Some (evalx rho x (mk2 t l r) s).
Proof.
  intros [v Hv]. unfold evalx at 3. rewrite Hv. rewrite eval_mk2 in Hv.
  destruct (eval (upd rho x s) l) as [vl|] eqn:El; [|discriminate]. cbn [obind] in Hv.
  destruct (eval (upd rho x s) r) as [vr|] eqn:Er; [|discriminate]. cbn [obind] in Hv.
  split; [exists vl; exact El|]. split; [exists vr; exact Er|].
  rewrite (evalx_at _ _ _ _ _ El), (evalx_at _ _ _ _ _ Er). exact Hv.
Qed.
Lemma near_add l r : eventually_defined (near a) rho x (e_add l r) ->
  near a (fun t => evalx rho x l t + evalx rho x r t = evalx rho x (e_add l r) t).
Proof.
  unfold eventually_defined. apply filter_imp. intros t H. apply defined_mk2 in H as (_ & _ & H). injection H as H. exact H.
Qed.
Lemma near_mul l r : eventually_defined (near a) rho x (e_mul l r) ->
  near a (fun t => evalx rho x l t * evalx rho x r t = evalx rho x (e_mul l r) t).
Proof.
  unfold eventually_defined. apply filter_imp. intros t H. apply defined_mk2 in H as (_ & _ & H). injection H as H. exact H.
Qed.
Lemma near_div l r : eventually_defined (near a) rho x (e_div l r) ->
  near a (fun t => evalx rho x r t <> 0 /\ evalx rho x l t / evalx rho x r t = evalx rho x (e_div l r) t).
Proof.
  unfold eventually_defined. apply filter_imp. intros t H. apply defined_mk2 in H as (_ & _ & H). cbn [ev2] in H.
  destruct (Req_EM_T (evalx rho x r t) 0); [discriminate|]. injection H as H. auto.
Qed.
Lemma evalx_one t : evalx rho x e_one t = 1.
Proof. unfold evalx. rewrite eval_one. reflexivity. Qed.
Lemma near_inv r : eventually_defined (near a) rho x (e_div e_one r) ->
  near a (fun t => evalx rho x r t <> 0 /\ 1 / evalx rho x r t = evalx rho x (e_div e_one r) t).
Proof.
  intros H. apply near_div in H. revert H. apply filter_imp. intros t [H1 H2]. rewrite evalx_one in H2. auto.
Qed.
End Near.

Definition ok (rho : string -> R) (x : string) (a : R) (e : expr) (z : lexpr) : Prop :=
  describes (near a) rho (evalx rho x e) z /\ (forall w, z = Normal w -> pl w) /\ z <> BoundedFluctuation.

Lemma alg_ok op u v z :
  (op = l_add \/ op = l_mul \/ op = l_div) -> op u v = ROk z ->
  (forall w, u = Normal w -> pl w) -> (forall w, v = Normal w -> pl w) ->
  u <> BoundedFluctuation -> v <> BoundedFluctuation ->
  (forall w, z = Normal w -> pl w) /\ z <> BoundedFluctuation.
Proof.
  intros Hop H Hu Hv Nu Nv.
  destruct Hop as [-> |[-> | ->]]; destruct u as [| | |eu], v as [| | |ev]; try congruence; cbn [l_add l_mul l_div] in H;
    repeat match type of H with (if ?c then _ else _) = _ => destruct c end; try discriminate H; injection H as <-;
    (split; [|discriminate]); intros w [= <-]; auto; apply pl_mk2; auto; discriminate.
Qed.

Lemma wf_cases e : wf e ->
  (exists n, num_ok n /\ e = e_num n) \/ (exists y, e = e_var y) \/
  (exists t b, arity t = 1%nat /\ wf b /\ e = mk1 t b) \/
  (exists t b c, arity t = 2%nat /\ wf b /\ wf c /\ e = mk2 t b c).
Proof.
  revert e. apply wf_ind1.
  - intros n Hn. left. exists n. auto.
  - intros y. right; left. exists y. reflexivity.
  - intros t b At Wb _. right; right; left. exists t, b. auto.
  - intros t b c At Wb Wc _ _. right; right; right. exists t, b, c. auto.
Qed.

Global Instance near_filter a : Filter (near a).
Proof. unfold near. typeclasses eauto. Qed.

Lemma Proper_near a : ProperFilter (near a).
Proof. exact (Rbar_locally'_filter (Finite a)). Qed.

Lemma hop_ok rho x a l r l' r' u v z :
  pl l -> pl r -> deriv Strict x l = Ok l' -> deriv Strict x r = Ok r' ->
  eventually_defined (near a) rho x (e_div l r) -> eventually_defined (near a) rho x (e_div l' r') ->
  ok rho x a l u -> ok rho x a r v -> l_div u v = lerr ->
  ok rho x a (e_div l' r') z -> ok rho x a (e_div l r) z.
Proof.
  intros Pl Pr Dl Dr E E' (Hu & Pu & Nu) (Hv & Pv & Nv) Herr (Hz & Pz & Nz).
  refine (conj _ (conj Pz Nz)). clear Pz.
  pose proof (near_div _ _ _ _ _ E) as Q. pose proof (near_div _ _ _ _ _ E') as Q'.
  assert (near a (fun t => is_derive (evalx rho x l) t (evalx rho x l' t))) as Fl.
  { generalize E. unfold eventually_defined. apply filter_imp. intros t Ht. apply defined_mk2 in Ht as (Ht & _ & _).
    exact (proj2 (deriv_at _ _ _ _ _ Pl Dl Ht)). }
  assert (near a (fun t => is_derive (evalx rho x r) t (evalx rho x r' t))) as Fr.
  { generalize E. unfold eventually_defined. apply filter_imp. intros t Ht. apply defined_mk2 in Ht as (_ & Ht & _).
    exact (proj2 (deriv_at _ _ _ _ _ Pr Dr Ht)). }
  assert (near a (fun t => evalx rho x r t <> 0)) as Nr by (generalize Q; apply filter_imp; tauto).
  assert (near a (fun t => evalx rho x r' t <> 0)) as Nr' by (generalize Q'; apply filter_imp; tauto).
  apply (describes_ext (near a) rho (fun t => evalx rho x l t / evalx rho x r t)).
  { generalize Q. apply filter_imp. tauto. }
  apply (describes_ext (near a) rho _ (fun t => evalx rho x l' t / evalx rho x r' t)) in Hz.
  2: { generalize Q'. apply filter_imp. intros t [_ H]. symmetry. exact H. }
  assert ((filterlim (evalx rho x l) (near a) (locally 0) /\ filterlim (evalx rho x r) (near a) (locally 0)) \/
          filterlim (fun t => Rabs (evalx rho x r t)) (near a) (Rbar_locally p_infty)) as [[Zl Zr]|Inf].
  { destruct u as [| | |eu], v as [| | |ev]; try congruence; cbn [l_div] in Herr; try discriminate Herr; cbn [describes] in *.
    - left. auto.
    - destruct (is_zero ev) eqn:Z; [|discriminate]. left. split; [exact Hu|]. destruct Hv as (w & Hw & Hv).
      rewrite (eval_is_zero rho ev w (proj1 (Pv _ eq_refl)) Z Hw) in Hv. exact Hv.
    - right. exact Hv.
    - destruct (is_zero eu) eqn:Z; [|discriminate]. left. split; [|exact Hv]. destruct Hu as (w & Hw & Hu).
      rewrite (eval_is_zero rho eu w (proj1 (Pu _ eq_refl)) Z Hw) in Hu. exact Hu. }
  - destruct z as [| | |ez]; try congruence; cbn [describes] in *.
    + exact (lhopital_00 _ _ _ _ a Fl Fr Nr' Nr Zl Zr _ Hz).
    + assert (filterlim (fun t => evalx rho x l' t / evalx rho x r' t) (locally' a)
        (fun P => exists M, forall y, M < Rabs y -> P y)) as Hz'.
      { intros P [M HM]. unfold filtermap. rewrite inf_iff in Hz by apply near_filter.
        generalize (Hz M). apply filter_imp. intros t Ht. apply HM. exact Ht. }
      intros P [M HM].
      exact (lhopital_00 _ _ _ _ a Fl Fr Nr' Nr Zl Zr _ Hz' (fun y => P (Rabs y)) (ex_intro _ M (fun y Hy => HM _ Hy))).
    + destruct Hz as (w & Hw & Hz). exists w. split; [exact Hw|].
      exact (lhopital_00 _ _ _ _ a Fl Fr Nr' Nr Zl Zr _ Hz).
  - destruct z as [| | |ez]; try congruence; cbn [describes] in *.
    + exact (lhopital_inf_finite _ _ _ _ a 0 Fl Fr Nr' Inf Hz).
    + exact (lhopital_inf_inf _ _ _ _ a Fl Fr Nr' Inf Hz).
    + destruct Hz as (w & Hw & Hz). exists w. split; [exact Hw|].
      exact (lhopital_inf_finite _ _ _ _ a w Fl Fr Nr' Inf Hz).
Qed.

Lemma no_answer_neg x to ord r z : ~ answers x to ord (e_neg r) z.
Proof.
  intros [[|f] H]; [discriminate|]. unfold e_neg, mk1 in H. rewrite limit_neg_panics in H by reflexivity. discriminate.
Qed.
Lemma no_answer_sub x to ord l r z : ~ answers x to ord (e_add l (e_neg r)) z.
Proof.
  intros [[|f] H]; [discriminate|]. cbn [limit_var] in H. apply qbind_ok in H as (w & H & _).
  unfold limit_rule in H. cbn in H. apply qbind_ok in H as (u & H & _).
  apply (no_answer_neg x to ord r u). exists f. exact H.
Qed.

Section Main.
Context (rho : string -> R) (x : string) (to : expr) (a : R) (ord : Z).
Context (Pto : pl to) (Npi : ~ has_pi to) (Hto : eval rho to = Some a).

Section Step.
Context (lim : expr -> res lres).
Hypothesis lim_answers : forall e z, lim e = Ok (ROk z) -> answers x to ord e z.
Hypothesis IH : forall e z, pl e -> limit_regular rho x to a ord e -> lim e = Ok (ROk z) -> ok rho x a e z.

Lemma reg_left t l r : In t [OAdd; OMul; ODiv] -> limit_regular rho x to a ord (mk2 t l r) ->
  limit_regular rho x to a ord l.
Proof. intros Ht H. apply (regular_asks _ _ _ _ _ _ _ H). apply asks_left; [exact Ht|constructor]. Qed.
Lemma reg_right t l r : In t [OAdd; OMul; ODiv] -> limit_regular rho x to a ord (mk2 t l r) ->
  limit_regular rho x to a ord r.
Proof. intros Ht H. apply (regular_asks _ _ _ _ _ _ _ H). apply asks_right; [exact Ht|constructor]. Qed.
Lemma reg_def e : limit_regular rho x to a ord e -> eventually_defined (near a) rho x e.
Proof. intros H. apply (lr_defined _ _ _ _ _ _ H). constructor. Qed.

Lemma ok_ext e f z : near a (fun t => evalx rho x e t = evalx rho x f t) -> ok rho x a e z -> ok rho x a f z.
Proof. intros E (H & P). refine (conj _ P). exact (describes_ext (near a) rho _ _ z E H). Qed.

Lemma loop_ok n : forall l r z, pl l -> pl r -> limit_regular rho x to a ord (e_div l r) ->
  div_loop Strict x lim n l r = Ok (ROk z) -> ok rho x a (e_div l r) z.
Proof.
  induction n as [|n IHn]; intros l r z Pl Pr Hr H; [discriminate|]. cbn [div_loop] in H.
  apply qbind_ok in H as (u & Hu & H). apply qbind_ok in H as (v & Hv & H).
  pose proof (IH l u Pl (reg_left ODiv l r ltac:(cbn; auto) Hr) Hu) as Ou.
  pose proof (IH r v Pr (reg_right ODiv l r ltac:(cbn; auto) Hr) Hv) as Ov.
  pose proof (reg_def _ Hr) as Hd. pose proof (near_div _ _ _ _ _ Hd) as Q.
  destruct (l_div u v) as [w|er] eqn:Ed.
  - injection H as <-. destruct Ou as (Hu1 & Hu2 & Hu3), Ov as (Hv1 & Hv2 & Hv3).
    destruct (alg_ok l_div u v w) as [P1 P2]; auto. refine (conj _ (conj P1 P2)).
    apply (describes_ext (near a) rho (fun t => evalx rho x l t / evalx rho x r t)).
    { generalize Q. apply filter_imp. tauto. }
    apply (div_sound (near a) rho _ _ u v); auto.
    + apply (lr_div _ _ _ _ _ _ Hr l r); auto. constructor.
    + generalize Q. apply filter_imp. tauto.
  - destruct er. fold lerr in Ed. inv_bind H. inv_bind H. rename a0 into l', a1 into r'.
    pose proof (lim_answers _ _ Hu) as Au. pose proof (lim_answers _ _ Hv) as Av.
    assert (limit_regular rho x to a ord (e_div l' r')) as Hr'.
    { apply (regular_asks _ _ _ _ _ _ _ Hr). eapply asks_hop; [exact Au|exact Av|exact Ed|eassumption|eassumption|constructor]. }
    apply (hop_ok rho x a l r l' r' u v z); auto; [exact (reg_def _ Hr')|].
    exact (IHn l' r' z (deriv_pl x l l' Pl Hb) (deriv_pl x r r' Pr Hb0) Hr' H).
Qed.

Lemma subst_limit_ok e z : pl e -> defined (upd rho x a) e -> subst_limit Strict x to e = Ok (ROk z) ->
  ok rho x a e z.
Proof.
  intros P Hd H. unfold subst_limit in H. inv_bind H. injection H as <-. rename a0 into w.
  pose proof (subst_pl x to e P Pto Npi) as Ps. pose proof (agg_pl _ _ Ps Hb) as Pw.
  pose proof (cont_at _ _ _ _ P Hd) as C. destruct Hd as [v Hv].
  assert (eval rho w = Some v) as Hw.
  { apply (agg_pl_eval rho _ _ _ Ps Hb). rewrite (eval_subst rho x to a e Hto). exact Hv. }
  rewrite (evalx_at _ _ _ _ _ Hv) in C.
  destruct (is_zero w) eqn:Z.
  - split; [|split; [discriminate|discriminate]]. cbn [describes].
    rewrite (eval_is_zero rho w v (proj1 Pw) Z Hw) in C. exact C.
  - split; [|split; [|discriminate]].
    + exists v. auto.
    + intros w' [= <-]. exact Pw.
Qed.

Lemma rule_ok e z : pl e -> limit_regular rho x to a ord e ->
  limit_rule Strict x to ord lim e = Ok (ROk z) -> ok rho x a e z.
Proof.
  intros P Hr H. pose proof (reg_def _ Hr) as Hd.
  destruct (wf_cases e (proj1 P)) as [(n & Hn & ->)|[(y & ->)|[(t & b & At & Wb & ->)|(t & l & r & At & Wl & Wr & ->)]]].
  - cbn in H. injection H as <-. split; [|split; [intros w [= <-]; exact P|discriminate]]. cbn [describes].
    destruct (@filter_ex R (near a) (Proper_near a) _ Hd) as (t & v & Hv).
    exists v. unfold e_num in *. rewrite eval_num in *. split; [exact Hv|].
    apply (filterlim_ext (fun _ => v)); [|apply filterlim_const]. intros s. unfold evalx. rewrite eval_num, Hv. reflexivity.
  - cbn in H. destruct (String.eqb_spec y x) as [->|N].
    + assert (filterlim (evalx rho x (e_var x)) (near a) (locally a)) as L.
      { apply (filterlim_ext (fun t => t)).
        - intros s. unfold evalx, e_var. rewrite eval_var. unfold upd. rewrite String.eqb_refl. reflexivity.
        - intros Q HQ. unfold filtermap, near, locally', within. generalize HQ. apply filter_imp. auto. }
      destruct (is_zero to) eqn:Z; injection H as <-.
      * split; [|split; discriminate]. cbn [describes]. rewrite (eval_is_zero rho to a (proj1 Pto) Z Hto) in L at 2. exact L.
      * split; [exists a; auto|]. split; [intros w [= <-]; exact Pto|discriminate].
    + injection H as <-. split; [|split; [intros w [= <-]; exact P|discriminate]]. exists (rho y).
      split; [reflexivity|]. apply (filterlim_ext (fun _ => rho y)); [|apply filterlim_const].
      intros s. unfold evalx, e_var. rewrite eval_var. unfold upd. destruct (String.eqb_spec y x); [contradiction|reflexivity].
  - unfold limit_rule in H. cbn [root mk1] in H. rewrite descriptor_gen in H.
    destruct t; try discriminate.
    + rewrite neg_limit_panics in H. discriminate.
    + unfold sin_limit_expr_rule in H. fold (e_sin b) in *.
      pose proof (lr_trig _ _ _ _ _ _ Hr b (or_introl (asks_self _ _ _ _))) as [v Hv].
      assert (defined (upd rho x a) (e_sin b)) as Hs.
      { exists (sin v). unfold e_sin. rewrite eval_mk1, Hv. reflexivity. }
      destruct (is_zero to) eqn:Z.
      * injection H as <-. split; [|split; discriminate]. cbn [describes].
        pose proof (lr_sin0 _ _ _ _ _ _ Hr b Z (asks_self _ _ _ _)) as H0.
        pose proof (cont_at _ _ _ _ P Hs) as C.
        replace (evalx rho x (e_sin b) a) with 0 in C; [exact C|].
        unfold evalx, e_sin. rewrite eval_mk1, H0. cbn. rewrite sin_0. reflexivity.
      * exact (subst_limit_ok _ _ P Hs H).
    + unfold cos_limit_expr_rule in H. fold (e_cos b) in *.
      pose proof (lr_trig _ _ _ _ _ _ Hr b (or_intror (asks_self _ _ _ _))) as [v Hv].
      apply (subst_limit_ok _ _ P); [|exact H].
      exists (cos v). unfold e_cos. rewrite eval_mk1, Hv. reflexivity.
  - pose proof (pl_mk2_inv _ _ _ P) as [Pl Pr].
    unfold limit_rule in H. cbn [root mk2] in H. rewrite descriptor_gen in H.
    destruct t; try discriminate.
    + fold (e_add l r) in *. unfold add_limit_expr_rule in H. cbn in H.
      apply qbind_ok in H as (v & Hv & H). apply qbind_ok in H as (u & Hu & H).
      pose proof (IH l u Pl (reg_left OAdd l r ltac:(cbn; auto) Hr) Hu) as Ou.
      pose proof (IH r v Pr (reg_right OAdd l r ltac:(cbn; auto) Hr) Hv) as Ov.
      destruct (l_add u v) as [w|er] eqn:Ed.
      * injection H as <-. destruct Ou as (Hu1 & Hu2 & Hu3), Ov as (Hv1 & Hv2 & Hv3).
        destruct (alg_ok l_add u v w) as [P1 P2]; auto. refine (conj _ (conj P1 P2)).
        apply (describes_ext (near a) rho (fun t => evalx rho x l t + evalx rho x r t)); [exact (near_add _ _ _ _ _ Hd)|].
        apply (add_sound (near a) rho _ _ u v); auto.
      * destruct er. fold lerr in Ed.
        set (q := e_div (e_add (e_div l r) e_one) (e_div e_one r)) in *.
        assert (asks x to ord (e_add l r) q) as Aq.
        { eapply asks_add; [exact (lim_answers _ _ Hu)|exact (lim_answers _ _ Hv)|exact Ed|constructor]. }
        pose proof (regular_asks _ _ _ _ _ _ _ Hr Aq) as Hq.
        assert (pl q) as Pq. { repeat apply pl_mk2; try reflexivity; try discriminate; try assumption; apply pl_one. }
        apply (ok_ext q); [|exact (IH _ _ Pq Hq H)].
        generalize (filter_and _ _ (reg_def _ Hq) (near_add _ _ _ _ _ Hd)). apply filter_imp. intros s [Hs E].
        rewrite <- E. unfold q in *.
        apply defined_mk2 in Hs as (D1 & D2 & E1). apply defined_mk2 in D1 as (D3 & _ & E2).
        apply defined_mk2 in D3 as (_ & _ & E3). apply defined_mk2 in D2 as (_ & _ & E4).
        fold (e_div l r) in *. fold (e_div e_one r) in *. fold (e_add (e_div l r) e_one) in *.
        fold (e_div (e_add (e_div l r) e_one) (e_div e_one r)) in *.
        rewrite evalx_one in *. cbn [ev2] in *. destruct (Req_EM_T (evalx rho x r s) 0) as [|N]; [discriminate|].
        injection E2 as E2. injection E3 as E3. injection E4 as E4.
        rewrite <- E2, <- E3, <- E4 in E1. destruct (Req_EM_T (1 / evalx rho x r s) 0) as [|N2]; [discriminate|].
        injection E1 as E1. rewrite <- E1. field. exact N.
    + fold (e_sub l r) in *. unfold sub_limit_expr_rule in H. cbn in H.
      exfalso. exact (no_answer_sub x to ord l r z (lim_answers _ _ H)).
    + fold (e_mul l r) in *. unfold mul_limit_expr_rule in H. cbn in H.
      apply qbind_ok in H as (v & Hv & H). apply qbind_ok in H as (u & Hu & H).
      pose proof (IH l u Pl (reg_left OMul l r ltac:(cbn; auto) Hr) Hu) as Ou.
      pose proof (IH r v Pr (reg_right OMul l r ltac:(cbn; auto) Hr) Hv) as Ov.
      destruct (l_mul u v) as [w|er] eqn:Ed.
      * injection H as <-. destruct Ou as (Hu1 & Hu2 & Hu3), Ov as (Hv1 & Hv2 & Hv3).
        destruct (alg_ok l_mul u v w) as [P1 P2]; auto. refine (conj _ (conj P1 P2)).
        apply (describes_ext (near a) rho (fun t => evalx rho x l t * evalx rho x r t)); [exact (near_mul _ _ _ _ _ Hd)|].
        apply (mul_sound (near a) rho _ _ u v); auto.
        apply (lr_mul _ _ _ _ _ _ Hr l r); auto. constructor.
      * destruct er. fold lerr in Ed. destruct (lim_is_zero v) eqn:Zv.
        -- set (q := e_div r (e_div e_one l)) in *.
           assert (asks x to ord (e_mul l r) q) as Aq.
           { eapply asks_mul_r; [exact (lim_answers _ _ Hu)|exact (lim_answers _ _ Hv)|exact Ed|exact Zv|constructor]. }
           pose proof (regular_asks _ _ _ _ _ _ _ Hr Aq) as Hq.
           assert (pl q) as Pq. { repeat apply pl_mk2; try reflexivity; try discriminate; try assumption; apply pl_one. }
           apply (ok_ext q); [|exact (IH _ _ Pq Hq H)].
           generalize (filter_and _ _ (reg_def _ Hq) (near_mul _ _ _ _ _ Hd)). apply filter_imp. intros s [Hs E].
           rewrite <- E. unfold q in *.
           apply defined_mk2 in Hs as (_ & D2 & E1). apply defined_mk2 in D2 as (_ & _ & E4).
           fold (e_div e_one l) in *. fold (e_div r (e_div e_one l)) in *.
           rewrite evalx_one in *. cbn [ev2] in *. destruct (Req_EM_T (evalx rho x l s) 0) as [|N]; [discriminate|].
           injection E4 as E4. rewrite <- E4 in E1. destruct (Req_EM_T (1 / evalx rho x l s) 0) as [|N2]; [discriminate|].
           injection E1 as E1. rewrite <- E1. field. exact N.
        -- set (q := e_div l (e_div e_one r)) in *.
           assert (asks x to ord (e_mul l r) q) as Aq.
           { eapply asks_mul_l; [exact (lim_answers _ _ Hu)|exact (lim_answers _ _ Hv)|exact Ed|exact Zv|constructor]. }
           pose proof (regular_asks _ _ _ _ _ _ _ Hr Aq) as Hq.
           assert (pl q) as Pq. { repeat apply pl_mk2; try reflexivity; try discriminate; try assumption; apply pl_one. }
           apply (ok_ext q); [|exact (IH _ _ Pq Hq H)].
           generalize (filter_and _ _ (reg_def _ Hq) (near_mul _ _ _ _ _ Hd)). apply filter_imp. intros s [Hs E].
           rewrite <- E. unfold q in *.
           apply defined_mk2 in Hs as (_ & D2 & E1). apply defined_mk2 in D2 as (_ & _ & E4).
           fold (e_div e_one r) in *. fold (e_div l (e_div e_one r)) in *.
           rewrite evalx_one in *. cbn [ev2] in *. destruct (Req_EM_T (evalx rho x r s) 0) as [|N]; [discriminate|].
           injection E4 as E4. rewrite <- E4 in E1. destruct (Req_EM_T (1 / evalx rho x r s) 0) as [|N2]; [discriminate|].
           injection E1 as E1. rewrite <- E1. field. exact N.
    + fold (e_div l r) in *. unfold div_limit_expr_rule in H. cbn -[Z.to_nat] in H.
      exact (loop_ok _ l r z Pl Pr Hr H).
Qed.
End Step.

Theorem limit_sound : forall fuel e z, pl e -> limit_regular rho x to a ord e ->
  limit_var fuel Strict x to ord e = Ok (ROk z) -> ok rho x a e z.
Proof.
  induction fuel as [|f IHf]; intros e z P Hr H; [discriminate|]. cbn [limit_var] in H.
  apply qbind_ok in H as (w & Hw & H).
  pose proof (rule_ok (limit_var f Strict x to ord) (fun e z H => ex_intro _ f H) IHf e w P Hr Hw) as (D & Pw & Nw).
  destruct w as [| | |ew]; try (injection H as <-; refine (conj D (conj Pw Nw)); fail).
  inv_bind H. injection H as <-. destruct D as (v & Hv & L). pose proof (Pw _ eq_refl) as Pe.
  split; [|split; [intros w [= <-]; exact (agg_pl _ _ Pe Hb)|discriminate]].
  exists v. split; [exact (agg_pl_eval rho _ _ _ Pe Hb Hv)|exact L].
Qed.
End Main.

(** ** points where the expression is defined *)
Definition vok (rho : string -> R) (v : R) (z : lexpr) : Prop :=
  limit_value rho z = Some v /\ forall w, z = Normal w -> pl w.

Lemma vok_cases rho v z : vok rho v z -> (z = Infinitesimal /\ v = 0) \/ (exists w, z = Normal w /\ pl w /\ eval rho w = Some v).
Proof.
  intros [H P]. destruct z as [| | |w]; try discriminate.
  - left. split; [reflexivity|]. injection H as <-. reflexivity.
  - right. exists w. auto.
Qed.
Lemma vok_zero rho : vok rho 0 Infinitesimal.
Proof. split; [reflexivity|discriminate]. Qed.
Lemma vok_normal rho v w : pl w -> eval rho w = Some v -> vok rho v (Normal w).
Proof. intros P H. split; [exact H|]. intros w' [= <-]. exact P. Qed.

Lemma qbind_ok' {A B E} (r : res (result A E)) (f : A -> res (result B E)) z :
  qbind r f = Ok z -> (exists a, r = Ok (ROk a) /\ f a = Ok z) \/ (exists e, r = Ok (RErr e) /\ z = RErr e).
Proof.
  unfold qbind. destruct r as [[a|e]| | |]; cbn [bind]; try discriminate; intros H.
  - left. eauto.
  - right. injection H as <-. eauto.
Qed.

Section Value.
Context (rho : string -> R) (x : string) (to : expr) (a : R) (ord : Z).
Context (Pto : pl to) (Npi : ~ has_pi to) (Hto : eval rho to = Some a) (Hord : (0 <= ord)%Z).

Lemma value_agg v e f : pl e -> eval rho e = Some v -> num_aggregate Strict e = Ok f -> vok rho v (Normal f).
Proof. intros P H Hf. apply vok_normal; [exact (agg_pl _ _ P Hf)|exact (agg_pl_eval _ _ _ _ P Hf H)]. Qed.

Lemma value_subst e v y : pl e -> eval (upd rho x a) e = Some v -> subst_limit Strict x to e = Ok y ->
  exists z, y = ROk z /\ vok rho v z.
Proof.
  intros P Hv H. unfold subst_limit in H. inv_bind H. injection H as <-. rename a0 into w.
  pose proof (subst_pl x to e P Pto Npi) as Ps. pose proof (agg_pl _ _ Ps Hb) as Pw.
  assert (eval rho w = Some v) as Hw.
  { apply (agg_pl_eval rho _ _ _ Ps Hb). rewrite (eval_subst rho x to a e Hto). exact Hv. }
  destruct (is_zero w) eqn:Z.
  - exists Infinitesimal. split; [reflexivity|]. rewrite (eval_is_zero rho w v (proj1 Pw) Z Hw). apply vok_zero.
  - exists (Normal w). split; [reflexivity|]. apply vok_normal; assumption.
Qed.

Lemma is_zero_val0 w v : pl w -> is_zero w = true -> eval rho w = Some v -> v = 0.
Proof. intros P Z H. exact (eval_is_zero rho w v (proj1 P) Z H). Qed.

Theorem limit_at_defined e : wf e -> plain e ->
  (is_zero to = true -> forall u, asks x to ord e (e_sin u) -> eval (upd rho x a) u = Some 0) ->
  forall v, eval (upd rho x a) e = Some v ->
  forall fuel y, limit_var fuel Strict x to ord e = Ok y -> exists z, y = ROk z /\ vok rho v z.
Proof.
  intros W. pattern e. revert e W. apply wf_ind1.
  - intros n Hn P _ v Hv [|f] y H; [discriminate|]. cbn in H. injection H as <-.
    eexists; split; [reflexivity|]. apply vok_normal; [split; [constructor; exact Hn|exact P]|exact Hv].
  - intros s P _ v Hv [|f] y H; [discriminate|]. cbn [limit_var] in H. unfold limit_rule in H. cbn [root] in H.
    rewrite eval_var in Hv. injection Hv as <-. unfold upd.
    destruct (String.eqb s x).
    + destruct (is_zero to) eqn:Z; cbn in H.
      * injection H as <-. eexists; split; [reflexivity|]. rewrite (is_zero_val0 to a Pto Z Hto). apply vok_zero.
      * inv_bind H. injection H as <-. eexists; split; [reflexivity|]. exact (value_agg a to _ Pto Hto Hb).
    + cbn in H. injection H as <-. eexists; split; [reflexivity|]. apply vok_normal; [|reflexivity].
      split; [constructor|apply plain_var].
  - intros t b At Wb _ P Hs v Hv [|f] y H; [discriminate|]. cbn [limit_var] in H.
    assert (pl (mk1 t b)) as Pb by (split; [apply wf_mk1; assumption|exact P]).
    assert (exists u, eval (upd rho x a) b = Some u /\ ev1 t u = Some v) as (u & Hu & E).
    { rewrite eval_mk1 in Hv. destruct (eval (upd rho x a) b) as [u|]; [|discriminate]. exists u. auto. }
    assert (forall w, (t = OSin \/ t = OCos) -> limit_rule Strict x to ord (limit_var f Strict x to ord) (mk1 t b) = Ok w ->
      exists z, w = ROk z /\ vok rho v z) as K.
    { intros w Ht Hw. unfold limit_rule in Hw. cbn [root mk1] in Hw. rewrite descriptor_gen in Hw.
      destruct Ht as [-> | ->].
      - unfold sin_limit_expr_rule in Hw. destruct (is_zero to) eqn:Z.
        + injection Hw as <-. eexists; split; [reflexivity|].
          rewrite (Hs eq_refl b (asks_self _ _ _ _)) in Hu. injection Hu as <-. injection E as <-. rewrite sin_0. apply vok_zero.
        + exact (value_subst _ v w Pb Hv Hw).
      - exact (value_subst _ v w Pb Hv Hw). }
    destruct t; try discriminate.
    + unfold limit_rule in H. cbn [root mk1] in H. rewrite descriptor_gen, neg_limit_panics in H. discriminate.
    + apply qbind_ok' in H as [(z & Hz & H)|(er & Hz & H)]; destruct (K _ ltac:(auto) Hz) as (z' & E' & V); [|discriminate].
      injection E' as <-. destruct (vok_cases _ _ _ V) as [[-> E0]|(w & -> & Pw & Hw)].
      * injection H as <-. eauto.
      * inv_bind H. injection H as <-. eexists; split; [reflexivity|]. exact (value_agg v w _ Pw Hw Hb).
    + apply qbind_ok' in H as [(z & Hz & H)|(er & Hz & H)]; destruct (K _ ltac:(auto) Hz) as (z' & E' & V); [|discriminate].
      injection E' as <-. destruct (vok_cases _ _ _ V) as [[-> E0]|(w & -> & Pw & Hw)].
      * injection H as <-. eauto.
      * inv_bind H. injection H as <-. eexists; split; [reflexivity|]. exact (value_agg v w _ Pw Hw Hb).
  - intros t l r At Wl Wr IHl IHr P Hs v Hv [|f] y H; [discriminate|]. cbn [limit_var] in H.
    assert (exists vl vr, eval (upd rho x a) l = Some vl /\ eval (upd rho x a) r = Some vr /\ ev2 t vl vr = Some v)
      as (vl & vr & Hl & Hr & E).
    { rewrite eval_mk2 in Hv. destruct (eval (upd rho x a) l) as [vl|]; [|discriminate].
      destruct (eval (upd rho x a) r) as [vr|]; [|discriminate]. exists vl, vr. auto. }
    apply plain_mk2 in P as (Nt & P1 & P2).
    assert (In t [OAdd; OMul; ODiv] -> forall fuel y, limit_var fuel Strict x to ord l = Ok y -> exists z, y = ROk z /\ vok rho vl z) as Kl.
    { intros Ht. apply IHl; [exact P1| |exact Hl]. intros Z u Hu. apply Hs; [exact Z|]. apply asks_left; assumption. }
    assert (In t [OAdd; OMul; ODiv] -> forall fuel y, limit_var fuel Strict x to ord r = Ok y -> exists z, y = ROk z /\ vok rho vr z) as Kr.
    { intros Ht. apply IHr; [exact P2| |exact Hr]. intros Z u Hu. apply Hs; [exact Z|]. apply asks_right; assumption. }
    assert (forall w, limit_rule Strict x to ord (limit_var f Strict x to ord) (mk2 t l r) = Ok w ->
      exists z, w = ROk z /\ vok rho v z) as K.
    { intros w Hw. unfold limit_rule in Hw. cbn [root mk2] in Hw. rewrite descriptor_gen in Hw.
      destruct t; try discriminate.
      - specialize (Kl ltac:(cbn; auto)). specialize (Kr ltac:(cbn; auto)).
        unfold add_limit_expr_rule in Hw. cbn in Hw. injection E as <-.
        apply qbind_ok' in Hw as [(b & Hb & Hw)|(er & Hb & _)]; destruct (Kr _ _ Hb) as (b' & E1 & Vb); [|discriminate]. injection E1 as <-.
        apply qbind_ok' in Hw as [(c & Hc & Hw)|(er & Hc & _)]; destruct (Kl _ _ Hc) as (c' & E1 & Vc); [|discriminate]. injection E1 as <-.
        destruct (vok_cases _ _ _ Vb) as [[-> ->]|(wb & -> & Pb & Eb)], (vok_cases _ _ _ Vc) as [[-> ->]|(wc & -> & Pc & Ec)];
          cbn [l_add] in Hw; injection Hw as <-; eexists; (split; [reflexivity|]).
        + replace (0 + 0) with 0 by ring. apply vok_zero.
        + replace (vl + 0) with vl by ring. apply vok_normal; assumption.
        + replace (0 + vr) with vr by ring. apply vok_normal; assumption.
        + apply vok_normal; [apply pl_mk2; auto; discriminate|]. unfold e_add. rewrite eval_mk2, Ec, Eb. reflexivity.
      - exfalso. unfold sub_limit_expr_rule in Hw. cbn in Hw. destruct f as [|f]; [discriminate|].
        cbn [limit_var] in Hw. unfold limit_rule in Hw. cbn in Hw.
        destruct f as [|f]; [discriminate|]. unfold e_neg, mk1 in Hw. rewrite limit_neg_panics in Hw by reflexivity. discriminate.
      - specialize (Kl ltac:(cbn; auto)). specialize (Kr ltac:(cbn; auto)).
        unfold mul_limit_expr_rule in Hw. cbn in Hw. injection E as <-.
        apply qbind_ok' in Hw as [(b & Hb & Hw)|(er & Hb & _)]; destruct (Kr _ _ Hb) as (b' & E1 & Vb); [|discriminate]. injection E1 as <-.
        apply qbind_ok' in Hw as [(c & Hc & Hw)|(er & Hc & _)]; destruct (Kl _ _ Hc) as (c' & E1 & Vc); [|discriminate]. injection E1 as <-.
        destruct (vok_cases _ _ _ Vb) as [[-> ->]|(wb & -> & Pb & Eb)], (vok_cases _ _ _ Vc) as [[-> ->]|(wc & -> & Pc & Ec)];
          cbn [l_mul] in Hw; injection Hw as <-; eexists; (split; [reflexivity|]).
        + replace (0 * 0) with 0 by ring. apply vok_zero.
        + replace (vl * 0) with 0 by ring. apply vok_zero.
        + replace (0 * vr) with 0 by ring. apply vok_zero.
        + apply vok_normal; [apply pl_mk2; auto; discriminate|]. unfold e_mul. rewrite eval_mk2, Ec, Eb. reflexivity.
      - specialize (Kl ltac:(cbn; auto)). specialize (Kr ltac:(cbn; auto)).
        unfold div_limit_expr_rule in Hw. cbn -[Z.to_nat] in Hw. cbn [ev2] in E.
        destruct (Req_EM_T vr 0) as [|N]; [discriminate|]. injection E as <-.
        destruct (Z.to_nat (ord + 1)) as [|n] eqn:En; [lia|]. cbn [div_loop] in Hw.
        apply qbind_ok' in Hw as [(c & Hc & Hw)|(er & Hc & _)]; destruct (Kl _ _ Hc) as (c' & E1 & Vc); [|discriminate]. injection E1 as <-.
        apply qbind_ok' in Hw as [(b & Hb & Hw)|(er & Hb & _)]; destruct (Kr _ _ Hb) as (b' & E1 & Vb); [|discriminate]. injection E1 as <-.
        destruct (vok_cases _ _ _ Vb) as [[-> ->]|(wb & -> & Pb & Eb)]; [contradiction|].
        assert (is_zero wb = false) as Zb.
        { destruct (is_zero wb) eqn:Z; [|reflexivity]. destruct N. exact (is_zero_val0 _ _ Pb Z Eb). }
        destruct (vok_cases _ _ _ Vc) as [[-> ->]|(wc & -> & Pc & Ec)]; cbn [l_div] in Hw; rewrite ?Zb in Hw;
          injection Hw as <-; eexists; (split; [reflexivity|]).
        + replace (0 / vr) with 0 by (field; exact N). apply vok_zero.
        + apply vok_normal; [apply pl_mk2; auto; discriminate|]. unfold e_div. rewrite eval_mk2, Ec, Eb. cbn [obind ev2].
          destruct (Req_EM_T vr 0); [contradiction|reflexivity]. }
    apply qbind_ok' in H as [(z & Hz & H)|(er & Hz & H)]; destruct (K _ Hz) as (z' & E' & V); [|discriminate].
    injection E' as <-. destruct (vok_cases _ _ _ V) as [[-> E0]|(w & -> & Pw & Hw)].
    + injection H as <-. eauto.
    + inv_bind H. injection H as <-. eexists; split; [reflexivity|]. exact (value_agg v w _ Pw Hw Hb).
Qed.
End Value.

(** ** the answer BoundedFluctuation is never given *)
Ltac pb H := apply bind_ok in H; destruct H as ([? ?] & ? & H); cbn beta iota in H.
Lemma rule_no_bf m x to ord lim e z :
  (forall e z, lim e = Ok (ROk z) -> z <> BoundedFluctuation) ->
  limit_rule m x to ord lim e = Ok (ROk z) -> z <> BoundedFluctuation.
Proof.
  intros IH H. destruct e as [[op|[n|y]] c]; unfold limit_rule in H; cbn [root] in H.
  - destruct (descriptor op); try discriminate H.
    + rewrite neg_limit_panics in H. discriminate.
    + unfold add_limit_expr_rule in H. do 2 pb H.
      apply qbind_ok in H as (u & Hu & H). apply qbind_ok in H as (v & Hv & H). apply IH in Hu. apply IH in Hv.
      destruct u, v; try congruence; cbn [l_add] in H; first [exact (IH _ _ H)|injection H as <-; discriminate].
    + unfold sub_limit_expr_rule in H. do 2 pb H. exact (IH _ _ H).
    + unfold mul_limit_expr_rule in H. do 2 pb H.
      apply qbind_ok in H as (u & Hu & H). apply qbind_ok in H as (v & Hv & H). apply IH in Hu. apply IH in Hv.
      destruct u, v; try congruence; cbn [l_mul] in H; cbn [lim_is_zero] in H; first [exact (IH _ _ H)|injection H as <-; discriminate].
    + unfold div_limit_expr_rule in H. do 2 pb H.
      match type of H with div_loop _ _ _ ?n ?l ?r = _ => revert H; generalize n l r end.
      intros n'. induction n' as [|n' IHn]; intros l' r' H; [discriminate|]. cbn [div_loop] in H.
      apply qbind_ok in H as (u & Hu & H). apply qbind_ok in H as (v & Hv & H). pose proof (IH _ _ Hu) as Nu. pose proof (IH _ _ Hv) as Nv. clear Hu Hv.
      destruct (l_div u v) as [w|] eqn:E.
      * injection H as <-. destruct u, v; try congruence; cbn [l_div] in E;
          repeat match type of E with (if ?c then _ else _) = _ => destruct c end; try discriminate E; injection E as <-; discriminate.
      * inv_bind H. inv_bind H. exact (IHn _ _ H).
    + unfold sin_limit_expr_rule, subst_limit in H. destruct (is_zero to); [injection H as <-; discriminate|].
      inv_bind H. injection H as <-. destruct (is_zero a); discriminate.
    + unfold cos_limit_expr_rule, subst_limit in H. inv_bind H. injection H as <-. destruct (is_zero a); discriminate.
  - injection H as <-. discriminate.
  - destruct (String.eqb y x); [destruct (is_zero to)|]; injection H as <-; discriminate.
Qed.
Theorem limit_no_bf m x to ord : forall fuel e z, limit_var fuel m x to ord e = Ok (ROk z) -> z <> BoundedFluctuation.
Proof.
  induction fuel as [|f IH]; intros e z H; [discriminate|]. cbn [limit_var] in H.
  apply qbind_ok in H as (w & Hw & H). apply rule_no_bf in Hw; [|exact IH].
  destruct w; try (injection H as <-; assumption). inv_bind H. injection H as <-. discriminate.
Qed.
