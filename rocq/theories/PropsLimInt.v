(** * PropsLimInt: limits of quotients of integer expressions, in debug builds (C101) *)
From Coq Require Import ZArith List String Bool Lia.
From Coq Require Import Reals Lra.
From Coquelicot Require Import Coquelicot.
From Verif Require Import Base Float Rational SmartNum Ast Compute Limit Spec SpecTree SpecR SpecLim SpecInt SpecQuot SpecLimInt.
From Verif Require Import BaseProofs RationalProofs NumProofs NumProofs2 TreeProofs TreeProofs2 TreeProofs3 TreeProofs4
  RealProofs RealDeriv RealDeriv2 RealTaylor IntProofs LimProofs LHopital LimSound TreeProofs5.
From Verif Require Import PropsTree PropsReal PropsInt PropsQuot PropsLim.
Import List ListNotations.
Open Scope string_scope.
Open Scope Z_scope.

(** ** the same run, nothing lost *)
Definition fin (z : lexpr) : Prop := z = Infinitesimal \/ exists w, z = Normal w /\ trig_poly w.

Lemma tp_agg_DS e z : trig_poly e -> num_aggregate Debug e = Ok z -> num_aggregate Strict e = Ok z /\ trig_poly z.
Proof. intros T E. split; [exact (proj1 (ie_agg _ (tp_ie _ T) _ E))|exact (tp_agg _ _ T E)]. Qed.

(** the tail of [limit] *)
Definition tail (m : mode) (z : lexpr) : res lres :=
  match z with
  | Normal ex => let* ex' := num_aggregate m ex in Ok (ROk (Normal ex'))
  | _ => Ok (ROk z)
  end.
Lemma tail_DS z y : fin z -> tail Debug z = Ok y -> tail Strict z = Ok y /\ exists w, y = ROk w /\ fin w.
Proof.
  intros [-> |(w & -> & T)] H; cbn [tail] in *.
  - injection H as <-. split; [reflexivity|]. eexists. split; [reflexivity|]. left. reflexivity.
  - inv_bind H. injection H as <-. destruct (tp_agg_DS _ _ T Hb) as [E Ta]. rewrite E. cbn [bind]. split; [reflexivity|].
    eexists. split; [reflexivity|]. right. eauto.
Qed.
Lemma limit_var_tail f m x to ord e :
  limit_var (S f) m x to ord e = qbind (limit_rule m x to ord (limit_var f m x to ord) e) (tail m).
Proof. reflexivity. Qed.

Lemma subst_limit_DS x to u y : trig_poly u -> trig_poly to -> subst_limit Debug x to u = Ok y ->
  subst_limit Strict x to u = Ok y /\ exists z, y = ROk z /\ fin z.
Proof.
  unfold subst_limit. intros T Tt H. inv_bind H. injection H as <-.
  destruct (tp_agg_DS _ _ (tp_subst x to u T Tt) Hb) as [E Ta]. rewrite E. cbn [bind]. split; [reflexivity|].
  eexists. split; [reflexivity|]. destruct (is_zero a); [left; reflexivity|right; eauto].
Qed.

Lemma fin_add a b : fin a -> fin b -> exists z, l_add a b = ROk z /\ fin z.
Proof.
  intros [-> |(u & -> & Tu)] [-> |(v & -> & Tv)]; cbn [l_add]; eexists; (split; [reflexivity|]).
  - left. reflexivity.
  - right. eauto.
  - right. eauto.
  - right. eexists. split; [reflexivity|]. apply tp_add; assumption.
Qed.
Lemma fin_mul a b : fin a -> fin b -> exists z, l_mul a b = ROk z /\ fin z.
Proof.
  intros [-> |(u & -> & Tu)] [-> |(v & -> & Tv)]; cbn [l_mul]; eexists; (split; [reflexivity|]).
  - left. reflexivity.
  - left. reflexivity.
  - left. reflexivity.
  - right. eexists. split; [reflexivity|]. apply tp_mul; assumption.
Qed.

(** one operand *)
Lemma qDS x to ord f p k (r : lres) :
  (forall p y, trig_poly p -> limit_var f Debug x to ord p = Ok y ->
     limit_var f Strict x to ord p = Ok y /\ exists z, y = ROk z /\ fin z) ->
  trig_poly p -> qbind (limit_var f Debug x to ord p) k = Ok r ->
  exists z, fin z /\ limit_var f Strict x to ord p = Ok (ROk z) /\ k z = Ok r.
Proof.
  intros IH T H. unfold qbind in H. inv_bind H. destruct (IH _ _ T Hb) as (S & z & -> & F). eauto.
Qed.

Lemma tp_limit_DS x to ord : trig_poly to -> forall f p y, trig_poly p ->
  limit_var f Debug x to ord p = Ok y ->
  limit_var f Strict x to ord p = Ok y /\ exists z, y = ROk z /\ fin z.
Proof.
  intros Tt. induction f as [|f IH]; intros p y T H; [discriminate|].
  rewrite limit_var_tail in *. unfold qbind in *. inv_bind H. rename a into r.
  assert (limit_rule Strict x to ord (limit_var f Strict x to ord) p = Ok r /\ exists z, r = ROk z /\ fin z) as [-> (z & -> & F)].
  2:{ cbn [bind]. apply tail_DS; assumption. }
  clear H. rename Hb into H. unfold limit_rule in *.
  destruct T as [z I|v|a Ta|a Ta|a Ta|a b Ta Tb|a b Ta Tb|a b Ta Tb].
  - cbn [root e_of_i64 e_num] in *. injection H as <-. split; [reflexivity|]. eexists. split; [reflexivity|]. right.
    eexists. split; [reflexivity|]. exact (tp_num z I).
  - cbn [root e_var] in *. destruct (String.eqb v x); [destruct (is_zero to)|]; injection H as <-; (split; [reflexivity|]);
      eexists; (split; [reflexivity|]); [left; reflexivity|right; eauto|right; eexists; split; [reflexivity|apply tp_var]].
  - unfold e_neg in H. cbn [root mk1] in H. rewrite descriptor_gen, neg_limit_panics in H. discriminate.
  - unfold e_sin in *. cbn [root mk1] in *. rewrite descriptor_gen in *. unfold sin_limit_expr_rule in *.
    destruct (is_zero to).
    + injection H as <-. split; [reflexivity|]. eexists. split; [reflexivity|]. left. reflexivity.
    + refine (subst_limit_DS x to _ _ _ Tt H). apply tp_sin. exact Ta.
  - unfold e_cos in *. cbn [root mk1] in *. rewrite descriptor_gen in *. unfold cos_limit_expr_rule in *.
    refine (subst_limit_DS x to _ _ _ Tt H). apply tp_cos. exact Ta.
  - unfold e_add in *. cbn [root mk2] in *. rewrite descriptor_gen in *. unfold add_limit_expr_rule in *. cbn in H |- *.
    destruct (qDS x to ord f _ _ r IH Tb H) as (zr & Fr & Sr & H1). rewrite Sr. unfold qbind at 1. cbn [bind].
    destruct (qDS x to ord f _ _ r IH Ta H1) as (zl & Fl & Sl & H2). rewrite Sl. unfold qbind at 1. cbn [bind].
    destruct (fin_add _ _ Fl Fr) as (z & E & F). rewrite E in *. injection H2 as <-. split; [reflexivity|]. eauto.
  - unfold e_sub in *. cbn [root mk2] in *. rewrite descriptor_gen in *. unfold sub_limit_expr_rule in *. cbn in H |- *.
    apply IH; [|exact H]. apply tp_add; [exact Ta|apply tp_neg; exact Tb].
  - unfold e_mul in *. cbn [root mk2] in *. rewrite descriptor_gen in *. unfold mul_limit_expr_rule in *. cbn in H |- *.
    destruct (qDS x to ord f _ _ r IH Tb H) as (zr & Fr & Sr & H1). rewrite Sr. unfold qbind at 1. cbn [bind].
    destruct (qDS x to ord f _ _ r IH Ta H1) as (zl & Fl & Sl & H2). rewrite Sl. unfold qbind at 1. cbn [bind].
    destruct (fin_mul _ _ Fl Fr) as (z & E & F). rewrite E in *. injection H2 as <-. split; [reflexivity|]. eauto.
Qed.

Lemma div_tail_DS u v y : trig_poly u -> trig_poly v -> tail Debug (Normal (e_div u v)) = Ok y -> tail Strict (Normal (e_div u v)) = Ok y.
Proof.
  intros Tu Tv H. cbn [tail] in *. inv_bind H. injection H as <-.
  destruct (rq_agg _ (rq_div _ _ Tu Tv) _ Hb) as [-> _]. reflexivity.
Qed.

Lemma loop_DS x to ord f : trig_poly to -> forall n p q y, trig_poly p -> trig_poly q ->
  qbind (div_loop Debug x (limit_var f Debug x to ord) n p q) (tail Debug) = Ok y ->
  qbind (div_loop Strict x (limit_var f Strict x to ord) n p q) (tail Strict) = Ok y.
Proof.
  intros Tt. induction n as [|n IH]; intros p q y Tp Tq H; cbn [div_loop] in *; [exact H|].
  unfold qbind at 1 in H. inv_bind H. unfold qbind at 1 in Hb. inv_bind Hb.
  destruct (tp_limit_DS x to ord Tt f p _ Tp Hb0) as (Sp & zp & -> & Fp).
  unfold qbind at 1 in Hb. inv_bind Hb.
  destruct (tp_limit_DS x to ord Tt f q _ Tq Hb1) as (Sq & zq & -> & Fq).
  unfold qbind at 2. rewrite Sp. cbn [bind]. unfold qbind at 2. rewrite Sq. cbn [bind].
  destruct (l_div zp zq) as [z|er] eqn:Ed.
  - injection Hb as <-. unfold qbind. cbn [bind].
    destruct Fp as [-> |(u & -> & Tu)], Fq as [-> |(v & -> & Tv)]; cbn [l_div] in Ed; try discriminate.
    + destruct (is_zero v); [discriminate|]. injection Ed as <-. exact H.
    + destruct (negb (is_zero u)); [|discriminate]. injection Ed as <-. exact H.
    + injection Ed as <-. exact (div_tail_DS _ _ _ Tu Tv H).
  - inv_bind Hb. inv_bind Hb.
    rewrite (proj1 (ie_deriv x _ (tp_ie _ Tp) _ Hb2)). cbn [bind].
    rewrite (proj1 (ie_deriv x _ (tp_ie _ Tq) _ Hb3)). cbn [bind].
    apply IH; [exact (tp_deriv x _ Tp _ Hb2)|exact (tp_deriv x _ Tq _ Hb3)|].
    unfold qbind. rewrite Hb. cbn [bind]. exact H.
Qed.

(** in a debug build every answer (and every refusal) is obtained without a lossy operation:
    the strict run is the same *)
Theorem c101_lossless fuel e x to ord y : int_quotient e -> trig_poly to ->
  limit fuel Debug e (e_var x) to ord = Ok y -> limit fuel Strict e (e_var x) to ord = Ok y.
Proof.
  intros Q Tt H. change (limit_var fuel Debug x to ord e = Ok y) in H. change (limit_var fuel Strict x to ord e = Ok y).
  destruct Q as [p T|p q T T'|p T].
  - exact (proj1 (tp_limit_DS x to ord Tt _ _ _ T H)).
  - destruct fuel as [|f]; [discriminate|]. rewrite limit_var_tail in *. unfold limit_rule, e_div in *. cbn [root mk2] in *.
    rewrite descriptor_gen in *. unfold div_limit_expr_rule in *. cbn [child mk2 pop_unwrap pop bind] in *.
    exact (loop_DS x to ord f Tt _ _ _ _ T T' H).
  - destruct fuel as [|f]; [discriminate|]. rewrite limit_var_tail in *. unfold limit_rule, e_ln in *. cbn [root mk1] in *.
    rewrite descriptor_gen in *. discriminate.
Qed.
Print Assumptions c101_lossless.

Lemma iq_plain e : int_quotient e -> plain e.
Proof.
  intros Q. split.
  - intros (op & c & D & S). destruct Q as [p T|p q T T'|p T].
    + apply (tp_ops p OPow T); [cbn; auto|]. exists op, c. auto.
    + unfold e_div, mk2 in S. inversion S as [|? ? ? d I' S']; subst; [discriminate D|].
      destruct I' as [<-|[<-|[]]]; [apply (tp_ops p OPow T)|apply (tp_ops q OPow T')]; try (cbn; auto; fail); exists op, c; auto.
    + unfold e_ln, mk1 in S. inversion S as [|? ? ? d I' S']; subst; [discriminate D|].
      destruct I' as [<-|[]]. apply (tp_ops p OPow T); [cbn; auto|]. exists op, c. auto.
  - intros u. exact (iq_no_pi (fun _ => 0%R) "" e u Q).
Qed.
Lemma tp_no_pi p : trig_poly p -> ~ has_pi p.
Proof. intros T. exact (ie_no_pi _ (tp_ie _ T)). Qed.

(** where the expression has a value, the answer is that value, and it is the limit *)
Theorem c101_value fuel rho x to a ord e v y :
  int_quotient e -> trig_poly to -> (0 <= ord)%Z -> eval rho to = Some a -> eval (upd rho x a) e = Some v ->
  (is_zero to = true -> forall u, asks x to ord e (e_sin u) -> eval (upd rho x a) u = Some 0%R) ->
  limit fuel Debug e (e_var x) to ord = Ok y ->
  exists z, y = ROk z /\ limit_value rho z = Some v /\ filterlim (evalx rho x e) (near a) (locally v).
Proof.
  intros Q Tt Ho Ht Hv Hs H. apply (c101_lossless _ _ _ _ _ _ Q Tt) in H.
  destruct (c39_limit_is_value fuel rho x to a ord e v y (iq_wf e Q) (iq_plain e Q) (ie_wf to (tp_ie to Tt)) (iq_plain to (iq_int to Tt))
    (tp_no_pi to Tt) Ho Ht Hv Hs H) as (z & -> & V).
  exists z. split; [reflexivity|]. split; [exact V|]. exact (c39_value_is_limit rho x a e v (iq_wf e Q) (iq_plain e Q) Hv).
Qed.
Print Assumptions c101_value.

(** ** singular points *)
Lemma answers_fin x to ord p z : trig_poly p -> trig_poly to -> answers x to ord p z -> fin z.
Proof.
  intros T Tt [f H]. apply (limit_var_mono Strict Debug I x to ord f f p (le_n f)) in H. destruct (tp_limit_DS x to ord Tt f p _ T H) as (_ & w & E & F). injection E as <-. exact F.
Qed.
Lemma tp_mk2_inv t a b : trig_poly (mk2 t a b) -> trig_poly a /\ trig_poly b.
Proof. intros T. inversion T; subst; auto. Qed.
Lemma tp_no_div a b : ~ trig_poly (e_div a b).
Proof. intros T. apply (tp_ops _ ODiv T); [cbn; auto|]. exists (gen_op ODiv), [a; b]. split; [reflexivity|apply sub_refl]. Qed.

Definition tq (s : expr) : Prop := trig_poly s \/ exists l r, s = e_div l r /\ trig_poly l /\ trig_poly r.
Lemma asks_tq x to ord e s : trig_poly to -> asks x to ord e s ->
  (trig_poly e -> trig_poly s) /\ (forall l r, e = e_div l r -> trig_poly l -> trig_poly r -> tq s).
Proof.
  intros Tt H. induction H as [e|t l r s Ht H IH|t l r s Ht H IH|l r a b s Ha Hb Hd H IH|l r a b s Ha Hb Hd Hz H IH|l r a b s Ha Hb Hd Hz H IH|l r a b l' r' s Ha Hb Hd Hl Hr H IH].
  - split; [auto|]. intros l r -> Tl Tr. right. eauto.
  - destruct IH as [I1 _]. split; [intros T; exact (I1 (proj1 (tp_mk2_inv _ _ _ T)))|].
    intros l0 r0 E Tl Tr. unfold e_div in E. apply mk2_inj in E as (_ & -> & _). left. auto.
  - destruct IH as [I1 _]. split; [intros T; exact (I1 (proj2 (tp_mk2_inv _ _ _ T)))|].
    intros l0 r0 E Tl Tr. unfold e_div in E. apply mk2_inj in E as (_ & _ & ->). left. auto.
  - split; [|intros ? ? E; discriminate E]. intros T. unfold e_add in T. apply tp_mk2_inv in T as [Tl Tr]. exfalso.
    destruct (fin_add a b (answers_fin _ _ _ _ _ Tl Tt Ha) (answers_fin _ _ _ _ _ Tr Tt Hb)) as (z & E & _). rewrite E in Hd. discriminate.
  - split; [|intros ? ? E; discriminate E]. intros T. unfold e_mul in T. apply tp_mk2_inv in T as [Tl Tr]. exfalso.
    destruct (fin_mul a b (answers_fin _ _ _ _ _ Tl Tt Ha) (answers_fin _ _ _ _ _ Tr Tt Hb)) as (z & E & _). rewrite E in Hd. discriminate.
  - split; [|intros ? ? E; discriminate E]. intros T. unfold e_mul in T. apply tp_mk2_inv in T as [Tl Tr]. exfalso.
    destruct (fin_mul a b (answers_fin _ _ _ _ _ Tl Tt Ha) (answers_fin _ _ _ _ _ Tr Tt Hb)) as (z & E & _). rewrite E in Hd. discriminate.
  - split; [intros T; elim (tp_no_div _ _ T)|]. intros l0 r0 E Tl Tr. unfold e_div in E. apply mk2_inj in E as (_ & -> & ->).
    apply (deriv_mono Strict Debug I) in Hl. apply (deriv_mono Strict Debug I) in Hr.
    exact (proj2 IH _ _ eq_refl (tp_deriv x _ Tl _ Hl) (tp_deriv x _ Tr _ Hr)).
Qed.

Lemma near_all a (P : R -> Prop) : (forall t, P t) -> near a P.
Proof. intros H. unfold near, locally'. exists (mkposreal 1 Rlt_0_1). auto. Qed.

Lemma quot_lim_regular rho x to a ord p q : trig_poly p -> trig_poly q -> trig_poly to ->
  quotient_regular rho x to a ord p q -> limit_regular rho x to a ord (e_div p q).
Proof.
  intros Tp Tq Tt Q.
  assert (forall s, asks x to ord (e_div p q) s -> tq s) as Sh
    by (intros s Hs; exact (proj2 (asks_tq _ _ _ _ _ Tt Hs) _ _ eq_refl Tp Tq)).
  constructor.
  - intros s Hs. destruct (Sh s Hs) as [T|(l & r & -> & Tl & Tr)].
    + unfold eventually_defined. apply near_all. intros t. apply tp_defined. exact T.
    + generalize (qr_den _ _ _ _ _ _ _ Q _ _ Hs). unfold eventually_defined. apply filter_imp. intros t N.
      destruct (tp_defined (upd rho x t) l Tl) as [vl El]. destruct (tp_defined (upd rho x t) r Tr) as [vr Er].
      unfold evalx in N. rewrite Er in N. exists (vl / vr)%R. unfold e_div. rewrite eval_mk2, El, Er. cbn [obind ev2].
      destruct (Req_EM_T vr 0) as [E|_]; [elim (N E)|reflexivity].
  - intros l r u v Hs Hu Hv. destruct (Sh _ Hs) as [T|(l' & r' & E & _)]; [|discriminate E].
    unfold e_mul in T. apply tp_mk2_inv in T as [Tl Tr].
    destruct (answers_fin _ _ _ _ _ Tl Tt Hu) as [-> |(w & -> & _)], (answers_fin _ _ _ _ _ Tr Tt Hv) as [-> |(w' & -> & _)]; exact I.
  - exact (qr_hidden _ _ _ _ _ _ _ Q).
  - intros u [Hs|Hs]; (destruct (Sh _ Hs) as [T|(l' & r' & E & _)]; [|discriminate E]); inversion T; subst; apply tp_defined; assumption.
  - exact (qr_sin0 _ _ _ _ _ _ _ Q).
Qed.

(** and at singular points, L'Hopital's rule included: the answer describes the quotient near
    the point *)
Theorem c101_limit_sound fuel rho x to a ord p q z :
  trig_poly p -> trig_poly q -> trig_poly to -> eval rho to = Some a -> quotient_regular rho x to a ord p q ->
  limit fuel Debug (e_div p q) (e_var x) to ord = Ok (ROk z) ->
  describes (near a) rho (evalx rho x (e_div p q)) z.
Proof.
  intros Tp Tq Tt Ht Q H. pose proof (iq_div p q Tp Tq) as D. apply (c101_lossless _ _ _ _ _ _ D Tt) in H.
  exact (c39_limit_sound fuel rho x to a ord (e_div p q) z (iq_wf _ D) (iq_plain _ D) (ie_wf to (tp_ie to Tt)) (iq_plain to (iq_int to Tt))
    (tp_no_pi to Tt) Ht (quot_lim_regular _ _ _ _ _ _ _ Tp Tq Tt Q) H).
Qed.
Print Assumptions c101_limit_sound.

(** an integer expression never has an infinite limit, and a quotient only where L'Hopital's
    rule leads to a denominator that answers Infinitesimal *)
Theorem c101_finite fuel p x to ord z : trig_poly p -> trig_poly to ->
  limit fuel Debug p (e_var x) to ord = Ok (ROk z) -> z <> Infinity /\ z <> BoundedFluctuation.
Proof.
  intros T Tt H. change (limit_var fuel Debug x to ord p = Ok (ROk z)) in H.
  destruct (tp_limit_DS x to ord Tt _ _ _ T H) as (_ & w & E & F). injection E as <-.
  destruct F as [-> |(w & -> & _)]; split; discriminate.
Qed.
Print Assumptions c101_finite.

(** *** example: sin(x)/x at 0, in a debug build *)
Example c101_example_sinc rho :
  trig_poly (e_sin ex_x) /\ trig_poly ex_x /\ trig_poly e_zero /\ eval rho e_zero = Some 0%R /\
  quotient_regular rho "x" e_zero 0%R 1 (e_sin ex_x) ex_x /\
  limit 5 Debug (e_div (e_sin ex_x) ex_x) ex_x e_zero 1 = Ok (ROk (Normal e_one)) /\
  filterlim (evalx rho "x" (e_div (e_sin ex_x) ex_x)) (near 0) (locally 1%R).
Proof.
  assert (trig_poly ex_x) as Tx by apply tp_var. assert (trig_poly e_zero) as Tz by exact (tp_num 0 eq_refl).
  assert (quotient_regular rho "x" e_zero 0%R 1 (e_sin ex_x) ex_x) as Q.
  { destruct (c39_example_sinc rho) as (_ & _ & Hr & _). constructor.
    - intros l r Hs. change (asks "x" e_zero 1 ex_sinc (e_div l r)) in Hs. pose proof (lr_defined _ _ _ _ _ _ Hr _ Hs) as D.
      revert D. unfold eventually_defined. apply filter_imp. intros t (v & E).
      unfold e_div in E. rewrite eval_mk2 in E. unfold evalx. destruct (eval (upd rho "x" t) l) as [vl|]; [|discriminate].
      destruct (eval (upd rho "x" t) r) as [vr|]; [|discriminate]. cbn [obind ev2] in E. destruct (Req_EM_T vr 0); [discriminate|assumption].
    - exact (lr_div _ _ _ _ _ _ Hr).
    - exact (lr_sin0 _ _ _ _ _ _ Hr). }
  assert (limit 5 Debug (e_div (e_sin ex_x) ex_x) ex_x e_zero 1 = Ok (ROk (Normal e_one))) as H by (vm_compute; reflexivity).
  split; [apply tp_sin; exact Tx|]. split; [exact Tx|]. split; [exact Tz|]. split; [apply eval_zero|]. split; [exact Q|]. split; [exact H|].
  destruct (c101_limit_sound _ rho _ _ _ _ _ _ _ (tp_sin _ Tx) Tx Tz (eval_zero rho) Q H) as (v & Hv & L).
  rewrite eval_one in Hv. injection Hv as <-. exact L.
Qed.
