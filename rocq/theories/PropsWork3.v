(** * PropsWork3: C98 -- the counted operations are the real ones; calls of [limit] *)
From Coq Require Import ZArith List String Bool Lia Arith.
From Verif Require Import Base Float Rational SmartNum Ast Compute Limit Display Direct Depth Work WorkLim.
From Verif Require Import Spec SpecTree SpecShape SpecLim2.
From Verif Require Import BaseProofs TreeProofs TreeProofs2 TreeProofs3 TreeProofs5 ShapeProofs LimTerm PropsTree PropsDirect PropsDepth PropsDepth2 PropsEntire PropsDepth3 PropsWork.
Import ListNotations.
Open Scope nat_scope.
Open Scope res_scope.

(** ** forgetting the counter *)
Lemma fst_kbind {A B} (k : K A) (g : A -> K B) : fst (kbind k g) = (let* a := fst k in fst (g a)).
Proof. destruct k as [[a| | |] n]; try reflexivity. cbn [kbind fst bind]. destruct (g a). reflexivity. Qed.
Lemma fst_lift {A} (r : res A) : fst (lift r) = r. Proof. reflexivity. Qed.
Lemma fst_tick {A} (k : K A) : fst (tick k) = fst k. Proof. destruct k. reflexivity. Qed.
Lemma fst_kqbind {A B E} (k : K (result A E)) (g : A -> K (result B E)) :
  fst (kqbind k g) = (let? a := fst k in fst (g a)).
Proof. unfold kqbind. rewrite fst_kbind. destruct (fst k) as [[a|e]| | |]; reflexivity. Qed.
Lemma bind_cong {A B} (r : res A) (g h : A -> res B) : (forall a, g a = h a) -> bind r g = bind r h.
Proof. intros H. destruct r; cbn [bind]; auto. Qed.
Lemma qbind_cong {A B E} (r : res (result A E)) (g h : A -> res (result B E)) : (forall a, g a = h a) -> qbind r g = qbind r h.
Proof. intros H. destruct r as [[a|e]| | |]; cbn; auto. Qed.

Lemma w_aggregate_fst m : forall f e, fst (w_aggregate f m e) = d_aggregate f m e.
Proof.
  induction f as [|f IH]; intros e; [reflexivity|]. cbn [w_aggregate d_aggregate]. rewrite fst_tick.
  destruct (root e) as [op|o]; [|reflexivity].
  assert (U : forall t g c, (forall s, g s = d_aggregate f m s) -> forall h : list expr -> res expr,
    h = (fun c => let* (s, _) := pop_unwrap c in let* v := g s in eval_rule m t [Ok v]) ->
    fst (w_rule1 (w_aggregate f m) (fun _ v => eval_rule m t [Ok v]) c) = h c).
  { intros t g c G h ->. unfold w_rule1. rewrite fst_kbind, fst_lift. apply bind_cong. intros [s c'].
    rewrite fst_kbind, IH, G. reflexivity. }
  assert (B : forall t g c, (forall s, g s = d_aggregate f m s) -> forall h : list expr -> res expr,
    h = (fun c => let* (b, c1) := pop_unwrap c in let* r := g b in let* (a, _) := pop_unwrap c1 in let* l := g a in eval_rule m t [Ok l; Ok r]) ->
    fst (w_rule2 (w_aggregate f m) (fun _ l _ r => eval_rule m t [Ok l; Ok r]) c) = h c).
  { intros t g c G h ->. unfold w_rule2. rewrite fst_kbind, fst_lift. apply bind_cong. intros [b c'].
    rewrite fst_kbind, IH, G. apply bind_cong. intros r. rewrite fst_kbind, fst_lift. apply bind_cong. intros [a c''].
    rewrite fst_kbind, IH, G. reflexivity. }
  destruct (descriptor op);
    (apply (U _ (d_aggregate f m) _ (fun s => eq_refl)) || apply (B _ (d_aggregate f m) _ (fun s => eq_refl))); reflexivity.
Qed.

(** [?] never meets an error *)
Definition okr {A E} (r : res A) : res (result A E) := let* z := r in Ok (ROk z).
Lemma qbind_okr {A B E} (r : res A) (g : A -> res (result B E)) : qbind (okr r) g = bind r g.
Proof. destruct r; reflexivity. Qed.
Lemma okr_bind {A B E} (r : res A) (g : A -> res B) : @okr B E (bind r g) = bind r (fun a => okr (g a)).
Proof. destruct r; reflexivity. Qed.

Lemma w_subst_fst u v : forall f e, d_subst_var f e u v = okr (fst (w_subst f e u v)).
Proof.
  induction f as [|f IH]; intros e; [reflexivity|]. cbn [w_subst d_subst_var]. rewrite fst_tick.
  cbn [ok_or qbind bind]. destruct (root e) as [op|[n|w]] eqn:Re; [|reflexivity|destruct (String.eqb w u); reflexivity].
  assert (L : forall cs acc, d_sub_loop (fun x => d_subst_var f x u v) cs acc
    = okr (fst (w_sub_loop (fun x => w_subst f x u v) cs acc))).
  { induction cs as [|y cs IHc]; intros acc; [reflexivity|]. cbn [d_sub_loop w_sub_loop].
    rewrite IH, qbind_okr, fst_kbind, okr_bind. apply bind_cong. intros z. apply IHc. }
  rewrite L, qbind_okr, fst_kbind, okr_bind. reflexivity.
Qed.

Lemma w_deriv_fst m x : forall f e, s_deriv f m e x = okr (fst (w_deriv f m e x)).
Proof.
  induction f as [|f IH]; intros e; [reflexivity|]. cbn [w_deriv s_deriv]. rewrite fst_tick, fst_kbind.
  cbn [ok_or qbind bind]. rewrite okr_bind.
  match goal with |- qbind ?l _ = bind (fst ?r) _ => assert (E : l = okr (fst r)) end.
  { destruct (root e) as [op|[n|y]]; [|reflexivity|cbn; destruct (String.eqb x y); reflexivity].
    assert (U : forall t c (h : list expr -> res (result expr derivative_error)),
      h = (fun c => let* (s, _) := pop_unwrap c in let? v := s_deriv f m s x in okr (derivative_rule t [(s, Ok v)])) ->
      h c = okr (fst (w_rule1 (fun s => w_deriv f m s x) (fun u du => derivative_rule t [(u, Ok du)]) c))).
    { intros t c h ->. unfold w_rule1. rewrite fst_kbind, fst_lift, okr_bind. apply bind_cong. intros [s c'].
      rewrite fst_kbind, IH, okr_bind, qbind_okr. reflexivity. }
    assert (B : forall t c (h : list expr -> res (result expr derivative_error)),
      h = (fun c => let* (b, c1) := pop_unwrap c in let? r := s_deriv f m b x in
                    let* (a, _) := pop_unwrap c1 in let? l := s_deriv f m a x in okr (derivative_rule t [(a, Ok l); (b, Ok r)])) ->
      h c = okr (fst (w_rule2 (fun s => w_deriv f m s x) (fun u du v dv => derivative_rule t [(u, Ok du); (v, Ok dv)]) c))).
    { intros t c h ->. unfold w_rule2. rewrite fst_kbind, fst_lift, okr_bind. apply bind_cong. intros [b c'].
      rewrite fst_kbind, IH, okr_bind, qbind_okr. apply bind_cong. intros r. rewrite fst_kbind, fst_lift, okr_bind. apply bind_cong. intros [a c''].
      rewrite fst_kbind, IH, okr_bind, qbind_okr. reflexivity. }
    assert (C : forall t c (h : list expr -> res (result expr derivative_error)),
      h = (fun c => let* (b, c1) := pop_unwrap c in let* (a, _) := pop_unwrap c1 in
                    let? r := s_deriv f m b x in let? l := s_deriv f m a x in okr (derivative_rule t [(a, Ok l); (b, Ok r)])) ->
      h c = okr (fst (w_rule2' (fun s => w_deriv f m s x) (fun u du v dv => derivative_rule t [(u, Ok du); (v, Ok dv)]) c))).
    { intros t c h ->. unfold w_rule2'. rewrite fst_kbind, fst_lift, okr_bind. apply bind_cong. intros [b c'].
      rewrite fst_kbind, fst_lift, okr_bind. apply bind_cong. intros [a c''].
      rewrite fst_kbind, IH, okr_bind, qbind_okr. apply bind_cong. intros r.
      rewrite fst_kbind, IH, okr_bind, qbind_okr. reflexivity. }
    destruct (descriptor op).
    - refine (U _ _ (d_neg_deriv (fun s => s_deriv f m s x)) _). reflexivity.
    - refine (B _ _ (d_add_deriv (fun s => s_deriv f m s x)) _). reflexivity.
    - refine (B _ _ (d_sub_deriv (fun s => s_deriv f m s x)) _). reflexivity.
    - refine (C _ _ (d_mul_deriv (fun s => s_deriv f m s x)) _). reflexivity.
    - refine (C _ _ (d_div_deriv (fun s => s_deriv f m s x)) _). reflexivity.
    - refine (U _ _ (d_sin_deriv (fun s => s_deriv f m s x)) _). reflexivity.
    - refine (U _ _ (d_cos_deriv (fun s => s_deriv f m s x)) _). reflexivity.
    - refine (U _ _ (d_exp_deriv (fun s => s_deriv f m s x)) _). reflexivity.
    - refine (U _ _ (d_ln_deriv (fun s => s_deriv f m s x)) _). reflexivity.
    - refine (C _ _ (d_pow_deriv (fun s => s_deriv f m s x)) _). reflexivity. }
  rewrite E, qbind_okr. apply bind_cong. intros z. rewrite w_aggregate_fst. reflexivity.
Qed.

Lemma copy_fst f to lim lim' e : (forall a, fst (lim a) = lim' a) -> fst (w_lim_copy f to lim e) = s_lim_copy f to lim' e.
Proof.
  intros H. unfold w_lim_copy, s_lim_copy. rewrite fst_kbind, fst_lift. apply bind_cong. intros e'.
  rewrite fst_kbind, fst_lift. apply bind_cong. intros _. apply H.
Qed.

(** C98: with the counter forgotten the counted run is the run on a call stack of that size *)
Theorem c98_same_run m x to ord : forall f e,
  fst (w_aggregate f m e) = d_aggregate f m e /\
  okr (fst (w_deriv f m e x)) = s_deriv f m e x /\
  okr (fst (w_subst f e x to)) = d_subst_var f e x to /\
  fst (w_limit f m x to ord e) = s_limit f m x to ord e.
Proof.
  intros f e. split; [apply w_aggregate_fst|]. split; [symmetry; apply w_deriv_fst|]. split; [symmetry; apply w_subst_fst|].
  revert e. induction f as [|f IH]; intros e; [reflexivity|].
  cbn [w_limit s_limit]. rewrite fst_tick. change lres with (result lexpr no_limit) in *. rewrite fst_kqbind.
  match goal with |- qbind ?l _ = qbind ?r _ => assert (E : l = r) end.
  { assert (Cp : forall a, fst (w_lim_copy f to (w_limit f m x to ord) a) = s_lim_copy f to (s_limit f m x to ord) a)
      by (intros a; apply copy_fst, IH).
    assert (Sb : fst (w_subst_limit f m x to e) = s_subst_limit f m x to e).
    { unfold w_subst_limit, s_subst_limit. rewrite fst_kbind, w_subst_fst. unfold map_err.
      destruct (fst (w_subst f e x to)); try reflexivity. cbn [okr bind qbind]. rewrite fst_kbind, w_aggregate_fst. reflexivity. }
    destruct (root e) as [op|[n|y]]; [|reflexivity|cbn; destruct (String.eqb y x); [destruct (is_zero to)|]; reflexivity].
    destruct (descriptor op); try reflexivity.
    - unfold w_add_limit, s_add_limit. rewrite fst_kbind, fst_lift. apply bind_cong. intros [r rest].
      rewrite fst_kbind, fst_lift. apply bind_cong. intros [l rest'].
      rewrite fst_kqbind, Cp. apply qbind_cong. intros rl. rewrite fst_kqbind, Cp. apply qbind_cong. intros ll.
      destruct (l_add ll rl); [reflexivity|]. rewrite fst_kbind, fst_lift. apply bind_cong. intros r'. apply IH.
    - unfold w_sub_limit, sub_limit_expr_rule. rewrite fst_kbind, fst_lift. apply bind_cong. intros [r rest].
      rewrite fst_kbind, fst_lift. apply bind_cong. intros [l rest']. apply IH.
    - unfold w_mul_limit, s_mul_limit. rewrite fst_kbind, fst_lift. apply bind_cong. intros [r rest].
      rewrite fst_kbind, fst_lift. apply bind_cong. intros [l rest'].
      rewrite fst_kqbind, Cp. apply qbind_cong. intros rl. rewrite fst_kqbind, Cp. apply qbind_cong. intros ll.
      destruct (l_mul ll rl); [reflexivity|]. destruct (lim_is_zero rl); apply IH.
    - unfold w_div_limit, s_div_limit. rewrite fst_kbind, fst_lift. apply bind_cong. intros [r rest].
      rewrite fst_kbind, fst_lift. apply bind_cong. intros [l rest'].
      generalize (Z.to_nat (ord + 1)). intros n. revert l r. induction n as [|n IHn]; intros l r; [reflexivity|].
      cbn [w_div_loop s_div_loop]. rewrite fst_kqbind, Cp. apply qbind_cong. intros a. rewrite fst_kqbind, Cp. apply qbind_cong. intros b.
      destruct (l_div a b); [reflexivity|]. rewrite fst_kbind, !w_deriv_fst. unfold map_err.
      destruct (fst (w_deriv f m l x)) as [l'| | |]; try reflexivity. cbn [okr bind qbind]. rewrite fst_kbind.
      destruct (fst (w_deriv f m r x)) as [r'| | |]; try reflexivity. cbn [okr bind qbind]. apply IHn.
    - destruct (is_zero to); [reflexivity|exact Sb].
    - exact Sb. }
  rewrite E. apply qbind_cong. intros [| | |z]; try reflexivity. rewrite fst_kbind, w_aggregate_fst. reflexivity.
Qed.

(** ** calls of [limit] on the expressions of C58 *)
Definition finS (D P : nat) (l : lres) : Prop :=
  match l with ROk Infinitesimal => True | ROk (Normal z) => wf z /\ depth z <= D /\ size z <= P | _ => False end.
Definition cost (D P C : nat) (k : K lres) : Prop :=
  fst k <> Fuel /\ snd k <= C /\ forall l, fst k = Ok l -> finS D P l.

Lemma cost_lift D P C l : finS D P l -> cost D P C (lift (Ok l)).
Proof. intros H. split; [discriminate|]. split; [cbn; lia|]. intros l' [= <-]. exact H. Qed.
Lemma cost_kbind {A} D P C1 C2 (k : K A) g : fst k <> Fuel -> snd k <= C1 ->
  (forall a, fst k = Ok a -> cost D P C2 (g a)) -> cost D P (C1 + C2) (kbind k g).
Proof.
  intros S L H. destruct k as [[a| | |] n]; cbn [fst snd] in *; try congruence; try (split; [discriminate|split; [cbn; lia|discriminate]]).
  destruct (H a eq_refl) as (F & B & G). unfold cost in *. cbn [kbind]. destruct (g a) as [r n']. cbn [fst snd] in *.
  split; [exact F|]. split; [lia|exact G].
Qed.
Lemma cost_kqbind D P C1 D' P' C2 (k : K lres) (g : lexpr -> K lres) : cost D P C1 k ->
  (forall a, finS D P (ROk a) -> cost D' P' C2 (g a)) -> cost D' P' (C1 + C2) (kqbind k g).
Proof.
  intros (S & L & F) H. unfold kqbind. apply cost_kbind; [exact S|exact L|]. intros [a|e] E; specialize (F _ E); [apply H; exact F|destruct F].
Qed.
Lemma cost_le D P C C' k : cost D P C k -> C <= C' -> cost D P C' k.
Proof. intros (S & L & F) H. split; [exact S|split; [lia|exact F]]. Qed.
Lemma cost_tick D P C k : cost D P C k -> cost D P (S C) (tick k).
Proof. destruct k as [r n]. intros (A & B & F). cbn in *. split; [exact A|split; [cbn; lia|exact F]]. Qed.
Lemma lift_kbind {A B} (a : A) (g : A -> K B) : kbind (lift (Ok a)) g = g a.
Proof. unfold lift. cbn [kbind]. destruct (g a). reflexivity. Qed.
Lemma wcopy_ok f to lim e : depth e <= f -> depth to <= f -> w_lim_copy f to lim e = lim e.
Proof.
  intros He Ht. unfold w_lim_copy. rewrite !c97_clone.
  rewrite (proj2 (Nat.leb_le _ _) He), (proj2 (Nat.leb_le _ _) Ht), !lift_kbind. reflexivity.
Qed.

Lemma w_limit_entire m x to ord e : wf to -> (0 <= ord)%Z -> entire x e ->
  forall f, depth e + depth to < f ->
  cost (depth e + depth to) (size e * size to) (4 * (size e * size e * size to)) (w_limit f m x to ord e).
Proof.
  intros Wt Ho. pose proof (depth_1 to) as Lt. pose proof (size_1 to) as Pt.
  assert (post : forall g D P C k, D <= g -> cost D P C k ->
    cost D P (S (C + P)) (tick (kqbind k (fun z => match z with Normal ex => kbind (w_aggregate g m ex) (fun ex' => lift (Ok (ROk (Normal ex')))) | _ => lift (Ok (ROk z)) end)))).
  { intros g D P C k L Hk. apply cost_tick. apply (cost_kqbind D P C D P P k); [exact Hk|].
    intros [| | |z] F; try (destruct F; fail); [apply cost_lift; exact I|]. destruct F as (W & Fd & Fs).
    destruct (agg_le m z g W ltac:(lia)) as (n & -> & N).
    apply (cost_le _ _ (P + 0)); [|lia]. apply cost_kbind; [apply nf_agg|cbn [snd]; lia|].
    cbn [fst]. intros z' E. apply cost_lift. split; [exact (agg_wf _ _ _ W E)|].
    pose proof (agg_depth m z W z' E). pose proof (agg_size _ _ _ E). lia. }
  assert (sub : forall g e, wf e -> depth e + depth to <= g ->
    cost (depth e + depth to) (size e * size to) (size e + size e * size to) (w_subst_limit g m x to e)).
  { intros g e0 W L. unfold w_subst_limit. rewrite (w_sub_spec x to g e0) by (exact W || lia).
    assert (wf (subst x to e0)) as W' by (apply subst_wf; assumption).
    pose proof (c97_substitute_result x to e0) as Ls. pose proof (subst_le x to e0 W) as Ss.
    apply cost_kbind; [discriminate|cbn [snd]; lia|]. cbn [fst]. intros ex [= <-].
    destruct (agg_le m (subst x to e0) g W' ltac:(lia)) as (n & -> & N).
    apply (cost_le _ _ (size e0 * size to + 0)); [|lia]. apply cost_kbind; [apply nf_agg|cbn [snd]; lia|].
    cbn [fst]. intros z E. apply cost_lift. destruct (is_zero z); [exact I|]. split; [exact (agg_wf _ _ _ W' E)|].
    pose proof (agg_depth m _ W' z E). pose proof (agg_size _ _ _ E). lia. }
  assert (two : forall a b, 1 <= a -> 1 <= b -> 4 * (a * a * size to) + 4 * (b * b * size to) + S ((a + b + 1) * size to)
    <= 4 * ((a + b + 1) * (a + b + 1) * size to)) by (intros; nia).
  induction 1 as [n H|y|a b Ha IHa Hb IHb|a b Ha IHa Hb IHb|a Ha|a Ha|a n Ha IHa Hn Hz|a y Ha IHa Ny];
    intros f L; (destruct f as [|f]; [lia|]); cbn [w_limit].
  - apply (cost_le _ _ (S (0 + 1 * size to))); [|cbn; lia]. apply (post f); [lia|]. apply cost_lift. cbn. split; [constructor; exact H|lia].
  - apply (cost_le _ _ (S (0 + 1 * size to))); [|cbn; lia]. apply (post f); [lia|]. cbn [root e_var]. apply cost_lift.
    destruct (String.eqb y x); [destruct (is_zero to)|]; cbn; [exact I|split; [exact Wt|lia]|split; [constructor|lia]].
  - pose proof (size_1 a) as Sa. pose proof (size_1 b) as Sb. pose proof (two _ _ Sa Sb) as Tw.
    unfold e_add in *. rewrite depth_mk2, size_mk2 in *.
    apply (cost_le _ _ (S (4 * (size b * size b * size to) + (4 * (size a * size a * size to) + 0) + (S (size a + size b)) * size to)));
      [|replace (S (size a + size b)) with (size a + size b + 1) by lia; lia].
    apply (post f); [lia|]. cbn [root mk2 gen_op descriptor]. unfold w_add_limit. cbn [child mk2].
    change (pop_unwrap [a; b]) with (Ok (b, [a])). rewrite lift_kbind. change (pop_unwrap [a]) with (Ok (a, @nil expr)). rewrite lift_kbind.
    rewrite !wcopy_ok by lia.
    apply (cost_kqbind _ _ _ _ _ _ _ _ (IHb f ltac:(lia))). intros lb Fb. apply (cost_kqbind _ _ _ _ _ _ _ _ (IHa f ltac:(lia))). intros la Fa.
    destruct la, lb; cbn [l_add finS] in *; try (destruct Fa; fail); try (destruct Fb; fail); apply cost_lift; cbn [finS]; try exact I;
      try (destruct Fa as (? & ? & ?); split; [assumption|split; [lia|nia]]); try (destruct Fb as (? & ? & ?); split; [assumption|split; [lia|nia]]).
    destruct Fa as (? & ? & ?), Fb as (? & ? & ?). split; [apply wf_mk2; [reflexivity|assumption|assumption]|]. unfold e_add. rewrite depth_mk2, size_mk2. split; [lia|nia].
  - pose proof (size_1 a) as Sa. pose proof (size_1 b) as Sb. pose proof (two _ _ Sa Sb) as Tw.
    unfold e_mul in *. rewrite depth_mk2, size_mk2 in *.
    apply (cost_le _ _ (S (4 * (size b * size b * size to) + (4 * (size a * size a * size to) + 0) + (S (size a + size b)) * size to)));
      [|replace (S (size a + size b)) with (size a + size b + 1) by lia; lia].
    apply (post f); [lia|]. cbn [root mk2 gen_op descriptor]. unfold w_mul_limit. cbn [child mk2].
    change (pop_unwrap [a; b]) with (Ok (b, [a])). rewrite lift_kbind. change (pop_unwrap [a]) with (Ok (a, @nil expr)). rewrite lift_kbind.
    rewrite !wcopy_ok by lia.
    apply (cost_kqbind _ _ _ _ _ _ _ _ (IHb f ltac:(lia))). intros lb Fb. apply (cost_kqbind _ _ _ _ _ _ _ _ (IHa f ltac:(lia))). intros la Fa.
    destruct la, lb; cbn [l_mul finS] in *; try (destruct Fa; fail); try (destruct Fb; fail); apply cost_lift; cbn [finS]; try exact I.
    destruct Fa as (? & ? & ?), Fb as (? & ? & ?). split; [apply wf_mk2; [reflexivity|assumption|assumption]|]. unfold e_mul. rewrite depth_mk2, size_mk2. split; [lia|nia].
  - pose proof (size_1 a) as Sa. assert (W : wf (e_sin a)) by (apply wf_mk1; [reflexivity|exact Ha]).
    apply (cost_le _ _ (S (size (e_sin a) + size (e_sin a) * size to + size (e_sin a) * size to))).
    2: { pose proof (size_1 (e_sin a)). unfold e_sin in *. rewrite size_mk1 in *. nia. }
    apply (post f); [lia|]. cbn [root e_sin mk1 gen_op descriptor]. destruct (is_zero to); [apply cost_lift; exact I|].
    apply sub; [exact W|]. lia.
  - pose proof (size_1 a) as Sa. assert (W : wf (e_cos a)) by (apply wf_mk1; [reflexivity|exact Ha]).
    apply (cost_le _ _ (S (size (e_cos a) + size (e_cos a) * size to + size (e_cos a) * size to))).
    2: { pose proof (size_1 (e_cos a)). unfold e_cos in *. rewrite size_mk1 in *. nia. }
    apply (post f); [lia|]. cbn [root e_cos mk1 gen_op descriptor]. apply sub; [exact W|]. lia.
  - pose proof (size_1 a) as Sa. pose proof (two _ _ Sa (le_n 1)) as Tw. pose proof (depth_1 a) as La.
    unfold e_div in *. rewrite depth_mk2, size_mk2 in *. change (depth (e_num n)) with 1 in *. change (size (e_num n)) with 1 in *.
    apply (cost_le _ _ (S (4 * (size a * size a * size to) + (4 * (1 * 1 * size to) + 0) + (S (size a + 1)) * size to)));
      [|replace (S (size a + 1)) with (size a + 1 + 1) by lia; lia].
    apply (post f); [lia|]. cbn [root mk2 gen_op descriptor]. unfold w_div_limit. cbn [child mk2].
    change (pop_unwrap [a; e_num n]) with (Ok (e_num n, [a])). rewrite lift_kbind. change (pop_unwrap [a]) with (Ok (a, @nil expr)). rewrite lift_kbind.
    replace (Z.to_nat (ord + 1)) with (S (Z.to_nat ord)) by lia. cbn [w_div_loop].
    rewrite (wcopy_ok f to _ a), (wcopy_ok f to _ (e_num n)) by (change (depth (e_num n)) with 1; lia).
    apply (cost_kqbind _ _ _ _ _ _ _ _ (IHa f ltac:(lia))). intros la Fa.
    destruct f as [|[|f]]; [lia|lia|].
    change (w_limit (S (S f)) m x to ord (e_num n)) with (@Ok lres (ROk (Normal (e_num n))), 2).
    unfold kqbind at 1. 
    assert (is_zero (e_num n) = false) as Z by exact Hz.
    apply cost_kbind; [discriminate|cbn [snd]; lia|]. cbn [fst]. intros lb [= <-].
    destruct la; cbn [l_div finS] in *; try (destruct Fa; fail); rewrite ?Z; apply cost_lift; cbn [finS]; try exact I.
    destruct Fa as (? & ? & ?). split; [apply wf_mk2; [reflexivity|assumption|constructor; exact Hn]|]. unfold e_div. rewrite depth_mk2, size_mk2.
    change (depth (e_num n)) with 1. change (size (e_num n)) with 1. split; [lia|nia].
  - pose proof (size_1 a) as Sa. pose proof (two _ _ Sa (le_n 1)) as Tw. pose proof (depth_1 a) as La.
    unfold e_div in *. rewrite depth_mk2, size_mk2 in *. change (depth (e_var y)) with 1 in *. change (size (e_var y)) with 1 in *.
    apply (cost_le _ _ (S (4 * (size a * size a * size to) + (4 * (1 * 1 * size to) + 0) + (S (size a + 1)) * size to)));
      [|replace (S (size a + 1)) with (size a + 1 + 1) by lia; lia].
    apply (post f); [lia|]. cbn [root mk2 gen_op descriptor]. unfold w_div_limit. cbn [child mk2].
    change (pop_unwrap [a; e_var y]) with (Ok (e_var y, [a])). rewrite lift_kbind. change (pop_unwrap [a]) with (Ok (a, @nil expr)). rewrite lift_kbind.
    replace (Z.to_nat (ord + 1)) with (S (Z.to_nat ord)) by lia. cbn [w_div_loop].
    rewrite (wcopy_ok f to _ a), (wcopy_ok f to _ (e_var y)) by (change (depth (e_var y)) with 1; lia).
    apply (cost_kqbind _ _ _ _ _ _ _ _ (IHa f ltac:(lia))). intros la Fa.
    destruct f as [|[|f]]; [lia|lia|].
    assert (w_limit (S (S f)) m x to ord (e_var y) = (Ok (ROk (Normal (e_var y))), 2)) as ->.
    { cbn [w_limit root e_var]. apply String.eqb_neq in Ny. rewrite Ny. reflexivity. }
    unfold kqbind at 1.
    apply cost_kbind; [discriminate|cbn [snd]; lia|]. cbn [fst]. intros lb [= <-].
    destruct la; cbn [l_div finS] in *; try (destruct Fa; fail); cbn [is_zero lift_od root e_var od_is_zero]; apply cost_lift; cbn [finS]; try exact I.
    destruct Fa as (? & ? & ?). split; [apply wf_mk2; [reflexivity|assumption|constructor]|]. unfold e_div. rewrite depth_mk2, size_mk2.
    change (depth (e_var y)) with 1. change (size (e_var y)) with 1. split; [lia|nia].
Qed.

(** on an expression of C58 with n nodes and a point with p, [limit] makes at most 4 n^2 p calls *)
Theorem c98_limit m x e to ord f : entire x e -> wf to -> (0 <= ord)%Z -> depth e + depth to < f ->
  fst (w_limit f m x to ord e) = limit f m e (e_var x) to ord /\
  snd (w_limit f m x to ord e) <= 4 * (size e * size e * size to).
Proof.
  intros E Wt Ho L. split.
  - rewrite (proj2 (proj2 (proj2 (c98_same_run m x to ord f e)))). apply c97_limit_entire; assumption.
  - exact (proj1 (proj2 (w_limit_entire m x to ord e Wt Ho E f L))).
Qed.

Print Assumptions c98_same_run.
Print Assumptions c98_limit.
(** the same limit as in C97 *)
Example c98_limit_witness : entire "x" ex_ent /\ wf (e_add ex_y e_one) /\
  depth ex_ent + depth (e_add ex_y e_one) = 9 /\
  snd (w_limit 10 Release "x" (e_add ex_y e_one) 0 ex_ent) = 118.
Proof.
  destruct c58_example as (E & W & _ & _). split; [exact E|]. split; [exact W|]. split; [reflexivity|]. vm_compute. reflexivity.
Qed.
